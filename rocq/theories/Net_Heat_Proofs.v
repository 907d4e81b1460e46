(* Proofs about heat rates and mixing in networks. *)
From Coq Require Import Reals Lra Lia List ZArith Bool Permutation FinFun.
From Verif Require Import Base LinAlg Net_Model Net_Spec Net_Proofs Net_Coef_Proofs.
Import ListNotations.
Local Open Scope R_scope.

Lemma Rsum_perm l l' : Permutation l l' -> Rsum l = Rsum l'.
Proof. induction 1; simpl; try lra. Qed.

Lemma sum_support n (g : nat -> R) L : NoDup L -> (forall i, In i L -> (i < n)%nat) ->
  (forall i, (i < n)%nat -> ~ In i L -> g i = 0) -> sumn n g = Rsum (map g L).
Proof.
  intros ND Hlt Hz. revert g Hz; induction L as [|a L IH]; intros g Hz.
  - simpl. apply sumn_zero. intros; apply Hz; auto.
  - inversion ND; subst. cbn [map Rsum].
    assert (E : sumn n g = g a + sumn n (fun i => if Nat.eqb i a then 0 else g i)).
    { transitivity (sumn n (fun i => (if Nat.eqb i a then g i else 0) + (if Nat.eqb i a then 0 else g i))).
      - apply sumn_ext. intros i _. destruct (Nat.eqb i a); lra.
      - rewrite sumn_plus. f_equal. rewrite (sumn_single n a).
        + rewrite Nat.eqb_refl. auto.
        + apply Hlt. left; auto.
        + intros i _ Ne. destruct (Nat.eqb_spec i a); [congruence|auto]. }
    rewrite E. f_equal. rewrite IH; auto.
    + f_equal. apply map_ext_in. intros i Hi. destruct (Nat.eqb_spec i a); [subst; contradiction|auto].
    + intros i Hi. apply Hlt. right; auto.
    + intros i Hi Hn. destruct (Nat.eqb_spec i a); auto. apply Hz; auto. intros [->|Hin]; auto.
Qed.

Lemma Rsum_map_nth f (L : list nat) : Rsum (map f L) = sumn (length L) (fun k => f (nth k L O)).
Proof.
  rewrite Rsum_sumn, map_length. apply sumn_ext. intros k Hk. apply nth_map. auto.
Qed.

(* ------------------------------------------------------------------ *)
(* Ends of the circuits                                                *)

Lemma depth_same n c x y r d : chains n c -> depth c x r d -> depth c y r d -> x = y.
Proof.
  intros C. revert x y; induction d as [|d IH]; intros x y Dx Dy; inversion Dx; inversion Dy; subst; auto.
  assert (j = j0) by (apply IH; auto). subst j0.
  destruct C as [_ [_ [_ [U _]]]]. apply (U x y (Z.of_nat j)); auto. lia.
Qed.

Lemma depth_between c y r d' d : depth c y r d' -> (d < d')%nat ->
  exists x z, depth c x r d /\ nth_error c z = Some (Z.of_nat x).
Proof.
  induction 1 as [i H|i j r e H D IH]; intro L; [lia|].
  destruct (Nat.eq_dec d e) as [->|Ne]; [exists j, i; auto|]. apply IH. lia.
Qed.

Lemma circuit_end_unique n c rev h b b' : chains n c ->
  circuit_end c rev h b -> circuit_end c rev h b' -> b = b'.
Proof.
  intros C [Hb [Rb Fb]] [Hb' [Rb' Fb']]. assert (L := proj1 C).
  unfold feeds in *. destruct rev.
  - assert (G : forall x, (x < length c)%nat -> root c x h -> (forall j, (j < length c)%nat -> nth_error c x <> Some (Z.of_nat j)) -> x = h).
    { intros x Hx Rx Fx. inversion Rx; subst; auto. exfalso. apply (Fx j); auto.
      assert (Hf : feeds c true x j) by auto. destruct (feeds_lt _ _ _ _ _ C Hf). lia. }
    rewrite (G b Hb Rb Fb), (G b' Hb' Rb' Fb'). auto.
  - destruct (root_depth _ _ _ Rb) as [d D]. destruct (root_depth _ _ _ Rb') as [d' D'].
    destruct (Nat.lt_trichotomy d d') as [Lt|[->|Lt]].
    + destruct (depth_between _ _ _ _ _ D' Lt) as [x [z [Dx Hz]]].
      assert (x = b) by (eapply depth_same; eauto). subst x. exfalso. apply (Fb z); auto.
      eapply nth_error_lt; eauto.
    + eapply depth_same; eauto.
    + destruct (depth_between _ _ _ _ _ D Lt) as [x [z [Dx Hz]]].
      assert (x = b') by (eapply depth_same; eauto). subst x. exfalso. apply (Fb' z); auto.
      eapply nth_error_lt; eauto.
Qed.

Lemma circuit_end_exists N rev j : wf N -> (j < nB N)%nat ->
  exists h b, root (n_c N) j h /\ circuit_end (n_c N) rev h b.
Proof.
  intro W. revert j. apply (flow_ind N (negb rev)); auto. intros j Hj IH.
  destruct (feeds_dec (n_c N) (negb rev) (nB N) j) as [[i [Hi Hf]]|Hn].
  - destruct (IH i Hf) as [h [b [Rh E]]]. exists h, b. split; auto.
    assert (Rj : exists h', root (n_c N) j h') by (apply (proj1 W); auto).
    destruct Rj as [h' Rj]. replace h with h'; auto.
    unfold feeds in Hf. destruct rev; simpl in Hf.
    + apply (root_fun (n_c N) j); auto. eapply root_up; eauto.
    + apply (root_fun (n_c N) i); auto. eapply root_up; eauto.
  - assert (Rj : exists h', root (n_c N) j h') by (apply (proj1 W); auto).
    destruct Rj as [h Rj]. exists h, j. split; auto. split; auto. split; auto.
    intros k Hk Hf. apply (Hn k Hk). apply feeds_flip. auto.
Qed.

Lemma root_circ N i k : wf N -> (i < nB N)%nat -> (k < nInlets N)%nat ->
  root (n_c N) i (nth k (n_in N) O) -> nth i (n_circ N) O = k.
Proof.
  intros W Hi Hk H. destruct W as [C [E1 [E2 [L P]]]]. destruct (P i Hi) as [P1 P2].
  assert (E := root_fun _ _ _ _ P2 H). unfold nInlets in *. rewrite E1 in *.
  apply (proj1 (NoDup_nth _ O) (inlets_NoDup (n_c N))); auto.
Qed.

Lemma n_in_lt N k : wf N -> (k < nInlets N)%nat -> (nth k (n_in N) O < nB N)%nat.
Proof.
  intros [C [E1 _]] Hk. unfold nInlets in Hk. assert (I := nth_In (n_in N) O Hk). rewrite E1 in I at 2.
  apply inlets_in in I. unfold nB. eapply nth_error_lt; eauto.
Qed.

Lemma n_in_circ N k : wf N -> (k < nInlets N)%nat -> nth (nth k (n_in N) O) (n_circ N) O = k.
Proof.
  intros W Hk. apply root_circ; auto; [apply n_in_lt; auto|].
  constructor. assert (E1 := proj1 (proj2 W)). unfold nInlets in Hk.
  assert (I := nth_In (n_in N) O Hk). rewrite E1 in I at 2. apply inlets_in in I. auto.
Qed.

Lemma nOut_nIn N : wf N -> length (n_out N) = nInlets N.
Proof.
  intros [C [E1 [E2 _]]]. unfold nInlets. rewrite E1, E2, <- count_inlets. symmetry. eapply chains_balanced; eauto.
Qed.

Lemma iOut_facts N rev : wf N ->
  NoDup (iOutlets N rev) /\ length (iOutlets N rev) = nInlets N
  /\ forall i, In i (iOutlets N rev) <-> (i < nB N)%nat /\ forall j, (j < nB N)%nat -> ~ feeds (n_c N) rev i j.
Proof.
  intro W. assert (G := fed_by_field N (negb rev)).
  assert (L := nOut_nIn N W). assert (Hlt : forall i, In i (iOutlets N rev) -> (i < nB N)%nat).
  { destruct W as [C [E1 [E2 _]]]. intros i Hi. unfold iOutlets in Hi. unfold nB. destruct rev.
    - rewrite E1 in Hi. apply inlets_in in Hi. eapply nth_error_lt; eauto.
    - rewrite E2 in Hi. apply outlets_in in Hi. tauto. }
  split; [|split].
  - destruct W as [_ [E1 [E2 _]]]. unfold iOutlets. rewrite E1, E2. destruct rev; [apply inlets_NoDup|apply outlets_NoDup].
  - unfold iOutlets. destruct rev; auto.
  - intro i. assert (K : (i < nB N)%nat -> In i (iOutlets N rev) <-> forall j, (j < nB N)%nat -> ~ feeds (n_c N) rev i j).
    { intro Hi. specialize (G i W Hi). unfold iOutlets.
      destruct rev; cbn [negb] in G; rewrite G; unfold feeds; tauto. }
    split.
    + intro H. split; auto. apply K; auto.
    + intros [H1 H2]. apply K; auto.
Qed.

(* Heads of the circuits are numbered by the flow arguments; E k is the end of
   circuit k. *)
Lemma ends_perm N rev E : wf N ->
  (forall k, (k < nInlets N)%nat -> circuit_end (n_c N) rev (nth k (n_in N) O) (E k)) ->
  Permutation (map E (seq 0 (nInlets N))) (iOutlets N rev).
Proof.
  intros W HE. destruct (iOut_facts N rev W) as [ND [L I]].
  assert (C := proj1 W). assert (EC : forall k, (k < nInlets N)%nat -> nth (E k) (n_circ N) O = k).
  { intros k Hk. destruct (HE k Hk) as [H1 [H2 _]]. apply root_circ; auto. }
  apply NoDup_Permutation; auto.
  - assert (Inj : forall a b, In a (seq 0 (nInlets N)) -> In b (seq 0 (nInlets N)) -> E a = E b -> a = b).
    { intros a b Ha Hb Eab. apply in_seq in Ha. apply in_seq in Hb.
      rewrite <- (EC a), <- (EC b) by lia. congruence. }
    revert Inj. assert (NS := seq_NoDup (nInlets N) 0). revert NS. generalize (seq 0 (nInlets N)).
    induction l as [|a l IH]; intros NS Inj; [constructor|]. inversion NS; subst. cbn [map]. constructor.
    + intro H. apply in_map_iff in H. destruct H as [b [Eb Hb]].
      assert (b = a) by (apply Inj; [right; auto|left; auto|auto]). subst. contradiction.
    + apply IH; auto. intros. apply Inj; auto; right; auto.
  - intro b. rewrite I, in_map_iff. split.
    + intros [k [<- Hk]]. apply in_seq in Hk. destruct (HE k) as [H1 [H2 H3]]; [lia|]. split; auto.
    + intros [Hb Hf]. exists (nth b (n_circ N) O).
      assert (P := proj2 (proj2 (proj2 (proj2 W)))). destruct (P b Hb) as [P1 P2].
      split; [|apply in_seq; lia].
      apply (circuit_end_unique _ _ rev _ _ _ C (HE _ P1)). split; auto.
Qed.

Lemma sum_ends N rev E (m : list R) f : wf N ->
  (forall k, (k < nInlets N)%nat -> circuit_end (n_c N) rev (nth k (n_in N) O) (E k)) ->
  sumn (nB N) (fun i => c_in N (negb rev) i * (nth (nth i (n_circ N) O) m 0 * f i))
  = sumn (nInlets N) (fun k => nth k m 0 * f (E k)).
Proof.
  intros W HE. destruct (iOut_facts N rev W) as [ND [L I]].
  assert (P := ends_perm N rev E W HE).
  rewrite (sum_support _ _ (iOutlets N rev)); auto.
  - transitivity (Rsum (map (fun i => nth (nth i (n_circ N) O) m 0 * f i) (iOutlets N rev))).
    { f_equal. apply map_ext_in. intros i Hi. apply I in Hi. destruct Hi as [Hi Hf].
      rewrite c_in_one; auto; [lra|]. intros j Hj Hfe. apply (Hf j Hj). apply feeds_flip. auto. }
    rewrite <- (Rsum_perm _ _ (Permutation_map (fun i => nth (nth i (n_circ N) O) m 0 * f i) P)).
    rewrite map_map, Rsum_map_seq. apply sumn_ext. intros k Hk.
    destruct (HE k Hk) as [H1 [H2 _]]. rewrite (root_circ N (E k) k W H1 Hk H2). auto.
  - intros i Hi. apply I in Hi. tauto.
  - intros i Hi Hn. rewrite I in Hn.
    destruct (feeds_dec (n_c N) (negb rev) (nB N) i) as [[j [Hj Hf]]|Hx].
    + rewrite (c_in_zero N (negb rev) j i W Hj Hi Hf). lra.
    + exfalso. apply Hn. split; auto. intros j Hj Hf. apply (Hx j Hj). apply feeds_flip. auto.
Qed.

Lemma sum_heads N (m : list R) rev : wf N ->
  sumn (nB N) (fun i => c_in N rev i * nth (nth i (n_circ N) O) m 0) = sumn (nInlets N) (fun k => nth k m 0).
Proof.
  intro W.
  assert (EX : forall r, exists E : nat -> nat, forall k, (k < nInlets N)%nat -> circuit_end (n_c N) r (nth k (n_in N) O) (E k)).
  { intro r. assert (G : forall K, (K <= nInlets N)%nat -> exists E : nat -> nat, forall k, (k < K)%nat -> circuit_end (n_c N) r (nth k (n_in N) O) (E k)).
    { induction K as [|K IH]; intro HK; [exists (fun _ => O); intros; lia|].
      destruct IH as [E HE]; [lia|].
      destruct (circuit_end_exists N r (nth K (n_in N) O) W) as [h [b [Rh Hb]]]; [apply n_in_lt; auto|].
      assert (h = nth K (n_in N) O).
      { apply (root_fun (n_c N) (nth K (n_in N) O)); auto. constructor.
        assert (E1 := proj1 (proj2 W)). assert (I := nth_In (n_in N) O HK). rewrite E1 in I at 2. apply inlets_in in I. auto. }
      subst h. exists (fun k => if Nat.eqb k K then b else E k). intros k Hk.
      destruct (Nat.eqb_spec k K); [subst; auto|apply HE; lia]. }
    apply (G (nInlets N)). lia. }
  destruct (EX (negb rev)) as [E HE].
  assert (G := sum_ends N (negb rev) E m (fun _ => 1) W HE). rewrite negb_involutive in G.
  transitivity (sumn (nB N) (fun i => c_in N rev i * (nth (nth i (n_circ N) O) m 0 * 1))).
  - apply sumn_ext. intros; lra.
  - rewrite G. apply sumn_ext. intros; lra.
Qed.

Lemma ends_exist N r : wf N ->
  exists E : nat -> nat, forall k, (k < nInlets N)%nat -> circuit_end (n_c N) r (nth k (n_in N) O) (E k).
Proof.
  intro W. assert (G : forall K, (K <= nInlets N)%nat -> exists E : nat -> nat, forall k, (k < K)%nat -> circuit_end (n_c N) r (nth k (n_in N) O) (E k)).
  { induction K as [|K IH]; intro HK; [exists (fun _ => O); intros; lia|].
    destruct IH as [E HE]; [lia|].
    destruct (circuit_end_exists N r (nth K (n_in N) O) W) as [h [b [Rh Hb]]]; [apply n_in_lt; auto|].
    assert (h = nth K (n_in N) O).
    { apply (root_fun (n_c N) (nth K (n_in N) O)); auto. constructor.
      assert (E1 := proj1 (proj2 W)). assert (I := nth_In (n_in N) O HK). rewrite E1 in I at 2. apply inlets_in in I. auto. }
    subst h. exists (fun k => if Nat.eqb k K then b else E k). intros k Hk.
    destruct (Nat.eqb_spec k K); [subst; auto|apply HE; lia]. }
  apply (G (nInlets N)). lia.
Qed.

(* ------------------------------------------------------------------ *)
(* Heat balance                                                        *)

Lemma flow_balance N rev t tin tout w : wf N -> connected (n_c N) rev t tin tout ->
  (forall i j, feeds (n_c N) rev i j -> w i = w j) ->
  sumn (nB N) (fun j => w j * (tout j - tin j))
  = sumn (nB N) (fun i => c_in N (negb rev) i * (w i * tout i)) - t * sumn (nB N) (fun j => c_in N rev j * w j).
Proof.
  intros W Hc Hw.
  assert (T : forall j, (j < nB N)%nat -> tin j = c_in N rev j * t + sumn (nB N) (fun i => c_out N rev j i * tout i)).
  { intros j Hj. destruct (Hc j Hj) as [H1 H2].
    destruct (feeds_dec (n_c N) rev (nB N) j) as [[i [Hi Hf]]|Hn].
    - rewrite (c_in_zero N rev i j W Hi Hj Hf), (c_out_row N rev i j tout W Hf), (H1 i Hf). lra.
    - rewrite (c_in_one N rev j W Hj Hn), (c_out_row0 N rev j tout W Hj Hn), (H2 Hn). lra. }
  assert (S1 : sumn (nB N) (fun j => w j * sumn (nB N) (fun i => c_out N rev j i * tout i))
             = sumn (nB N) (fun i => w i * tout i * (1 - c_in N (negb rev) i))).
  { transitivity (sumn (nB N) (fun j => sumn (nB N) (fun i => w i * tout i * (c_out N (negb rev) i j * 1)))).
    - apply sumn_ext. intros j Hj. rewrite <- sumn_scal. apply sumn_ext. intros i Hi.
      replace (c_out N (negb rev) i j) with (c_out N rev j i) by (destruct rev; reflexivity).
      destruct (feeds_dec1 (n_c N) rev i j) as [Hf|Hf].
      + rewrite (Hw i j Hf). lra.
      + rewrite (c_out_zero N rev i j W Hi Hj Hf). lra.
    - rewrite sumn_swap. apply sumn_ext. intros i Hi. rewrite sumn_scal. f_equal.
      destruct (feeds_dec (n_c N) (negb rev) (nB N) i) as [[j [Hj Hf]]|Hn].
      + rewrite (c_out_row N (negb rev) j i (fun _ => 1) W Hf), (c_in_zero N (negb rev) j i W Hj Hi Hf). lra.
      + rewrite (c_out_row0 N (negb rev) i (fun _ => 1) W Hi Hn), (c_in_one N (negb rev) i W Hi Hn). lra. }
  transitivity (sumn (nB N) (fun j => w j * tout j) - (t * sumn (nB N) (fun j => c_in N rev j * w j)
      + sumn (nB N) (fun j => w j * sumn (nB N) (fun i => c_out N rev j i * tout i)))).
  - rewrite <- sumn_scal, <- sumn_plus, <- sumn_minus. apply sumn_ext. intros j Hj. rewrite (T j Hj). lra.
  - rewrite S1.
    assert (S2 : sumn (nB N) (fun i => w i * tout i * (1 - c_in N (negb rev) i))
       = sumn (nB N) (fun i => w i * tout i) - sumn (nB N) (fun i => c_in N (negb rev) i * (w i * tout i))).
    { rewrite <- sumn_minus. apply sumn_ext. intros; lra. }
    rewrite S2. lra.
Qed.

Lemma chain_apply n A B b K t Tb i :
  apply_coefs K (chain_coefs n A B b) t Tb i
  = mx_vec n A (apply_coefs K b t Tb) i + sumn K (fun k => B i k * Tb k).
Proof.
  unfold apply_coefs, chain_coefs, mx_add. simpl.
  assert (E : mx_vec n A (fun i0 => fst b i0 * t + sumn K (fun k => snd b i0 k * Tb k)) i
     = mx_vec n A (fst b) i * t + mx_vec K (mx_mul n A (snd b)) Tb i).
  { rewrite mx_vec_mul. unfold mx_vec. rewrite <- sumn_scal_r, <- sumn_plus. apply sumn_ext. intros; lra. }
  rewrite E. change (mx_vec K (mx_mul n A (snd b)) Tb i) with (sumn K (fun k => mx_mul n A (snd b) i k * Tb k)).
  rewrite Rplus_assoc. f_equal. rewrite <- sumn_plus. apply sumn_ext. intros; lra.
Qed.

Lemma qf_apply N ps g F a t Tb i : wf N -> good_args N ps g F -> (i < nB N)%nat ->
  let K := seg_total (f_seg F) in
  let tin := apply_coefs K a t Tb i in
  apply_coefs K (coef_qf N ps F a) t Tb i
  = Rabs (nth i (f_mb F) 0) * nth i (f_cpb F) 0 * (bore_outlet ps F i tin Tb - tin).
Proof.
  intros W G Hi K tin. unfold coef_qf. rewrite chain_apply. rewrite diag_vec by auto. fold tin.
  destruct (good_lengths _ _ _ _ W G) as [_ [_ [_ [L4 _]]]].
  unfold K. rewrite block_rows_vec by lia.
  destruct (over_nth p_qf N ps g F (0, fun _ : nat => 0) i W G Hi) as [E Lz].
  rewrite (nth_map fst _ i (0, fun _ : nat => 0)) by lia.
  rewrite (nth_map snd _ i (0, fun _ : nat => 0)) by lia.
  rewrite E. unfold p_qf, bore_outlet. fold no_pipe.
  destruct (p_out (nth i ps no_pipe) (nth i (f_mb F) 0) (nth i (f_cpb F) 0) (nth i (f_seg F) O) (nth i (f_rat F) None)) as [bi bb].
  simpl.
  assert (S1 : sumn (nth i (f_seg F) O) (fun k => Rabs (nth i (f_mb F) 0) * nth i (f_cpb F) 0 * bb k * Tb (seg_off (f_seg F) i + k)%nat)
   = Rabs (nth i (f_mb F) 0) * nth i (f_cpb F) 0 * sumn (nth i (f_seg F) O) (fun k => bb k * Tb (seg_off (f_seg F) i + k)%nat)).
  { rewrite <- sumn_scal. apply sumn_ext. intros; lra. }
  rewrite S1. lra.
Qed.

Lemma net_heat_apply N q K t Tb :
  apply_coefs K (coef_net_heat N q) t Tb O = sumn (nB N) (apply_coefs K q t Tb).
Proof.
  unfold apply_coefs, coef_net_heat. simpl. rewrite sumn_plus, sumn_scal_r. f_equal.
  rewrite sumn_swap. apply sumn_ext. intros k Hk. rewrite sumn_scal_r. auto.
Qed.

Lemma net_outlet_apply N w o K t Tb :
  apply_coefs K (coef_net_outlet N w o) t Tb O = sumn (nB N) (fun i => w i * apply_coefs K o t Tb i).
Proof.
  unfold apply_coefs, coef_net_outlet. simpl.
  transitivity (sumn (nB N) (fun i => w i * fst o i) * t + sumn (nB N) (fun i => sumn K (fun k => w i * snd o i k * Tb k))).
  - f_equal. rewrite sumn_swap. apply sumn_ext. intros. rewrite sumn_scal_r. auto.
  - rewrite <- sumn_scal_r, <- sumn_plus. apply sumn_ext. intros i Hi.
    rewrite Rmult_plus_distr_l. f_equal; [lra|]. rewrite <- sumn_scal. apply sumn_ext. intros; lra.
Qed.

Lemma mixing_sum n L m T : NoDup L -> (forall i, In i L -> (i < n)%nat) ->
  sumn n (fun i => mixing L m i * T i)
  = sumn (length L) (fun k => Rabs (nth k m 0) * T (nth k L O)) / Rsum (map Rabs m).
Proof.
  intros ND Hlt. rewrite (sum_support _ _ L); auto.
  - rewrite Rsum_map_nth. unfold Rdiv. rewrite <- sumn_scal_r. apply sumn_ext. intros k Hk.
    unfold mixing. rewrite index_of_nth by auto. unfold Rdiv. lra.
  - intros i Hi Hn. unfold mixing. apply index_of_none in Hn. rewrite Hn. lra.
Qed.

(* Formatted inputs *)
Lemma format_facts N g F : wf N -> format_inputs N g = Some F ->
  length (f_m F) = nInlets N
  /\ f_mb F = map (fun k => nth k (f_m F) 0) (n_circ N)
  /\ (exists cp, f_cpb F = map (fun _ => cp) (n_circ N)
        /\ forall x, In x (g_cp g) -> x = cp).
Proof.
  intros W H. unfold format_inputs in H.
  destruct (format_flow N (g_m g)) as [m|] eqn:Em; [|discriminate].
  destruct (format_dir (g_m g)) as [rv|] eqn:Ed; [|discriminate].
  destruct (format_cp N (g_cp g)) as [cp|] eqn:Ec; [|discriminate].
  destruct (format_seg N (g_n g)) as [s|] eqn:Es; [|discriminate].
  inversion H; subst F; simpl in *.
  split; [|split; auto].
  - unfold format_flow in Em. destruct (g_m g) as [|a [|b l]].
    + destruct (Nat.eqb_spec (length (@nil R)) (nInlets N)); [|discriminate]. inversion Em; subst. auto.
    + inversion Em. apply repeat_length.
    + destruct (Nat.eqb_spec (length (a :: b :: l)) (nInlets N)); [|discriminate]. inversion Em; subst. auto.
  - assert (P : forall i, In i (n_circ N) -> (i < nInlets N)%nat).
    { intros i Hi. apply (In_nth _ _ O) in Hi. destruct Hi as [j [Hj <-]].
      destruct W as [_ [_ [_ [L P]]]]. apply P. lia. }
    assert (Q : exists c0, (forall k, (k < nInlets N)%nat -> nth k cp 0 = c0) /\ forall x, In x (g_cp g) -> x = c0).
    { unfold format_cp in Ec. destruct (g_cp g) as [|a [|b l]] eqn:Eg.
      - destruct (Nat.eqb_spec (length (@nil R)) (nInlets N)) as [E|]; simpl in Ec; [|discriminate].
        inversion Ec; subst. exists 0. split; [intros k Hk; simpl in E; lia|intros x []].
      - inversion Ec; subst. exists a. split; [|intros x [<-|[]]; auto].
        intros k Hk. apply (repeat_spec (nInlets N)). apply nth_In. rewrite repeat_length. auto.
      - destruct (Nat.eqb_spec (length (a :: b :: l)) (nInlets N)); simpl negb in Ec; [|discriminate].
        destruct (forallb _ (a :: b :: l)) eqn:Ef; [|discriminate]. injection Ec as <-.
        rewrite forallb_forall in Ef.
        exists a. split.
        + intros k Hk. assert (I : In (nth k (a :: b :: l) 0) (a :: b :: l)) by (apply nth_In; lia).
          specialize (Ef _ I). apply Reqb_true in Ef. exact Ef.
        + intros x Hx. specialize (Ef _ Hx). apply Reqb_true in Ef. exact Ef. }
    destruct Q as [c0 [Q1 Q2]]. exists c0. split; auto.
    apply map_ext_in. intros k Hk. apply Q1. auto.
Qed.

Lemma mb_nth N g F i : wf N -> format_inputs N g = Some F -> (i < nB N)%nat ->
  nth i (f_mb F) 0 = nth (nth i (n_circ N) O) (f_m F) 0.
Proof.
  intros W H Hi. destruct (format_facts N g F W H) as [_ [E _]]. rewrite E.
  rewrite (nth_map _ _ _ O); auto. rewrite (proj1 (proj2 (proj2 (proj2 W)))). auto.
Qed.

Lemma cpb_nth N g F : wf N -> format_inputs N g = Some F ->
  exists cp, (forall x, In x (g_cp g) -> x = cp) /\ forall i, (i < nB N)%nat -> nth i (f_cpb F) 0 = cp.
Proof.
  intros W H. destruct (format_facts N g F W H) as [_ [_ [cp [E Q]]]]. exists cp. split; auto.
  intros i Hi. rewrite E. rewrite (nth_map _ _ _ O); auto. rewrite (proj1 (proj2 (proj2 (proj2 W)))). auto.
Qed.

(* Heat of the network, circuit by circuit: no condition on the flows. *)
Lemma heat_by_circuit N ps g F a o t Tb E cp : wf N -> good_args N ps g F ->
  coef_inlet N ps F = Some a -> coef_outlet N ps F = Some o ->
  In cp (g_cp g) ->
  (forall k, (k < nInlets N)%nat -> circuit_end (n_c N) (f_rev F) (nth k (n_in N) O) (E k)) ->
  let K := seg_total (f_seg F) in
  apply_coefs K (coef_net_heat N (coef_qf N ps F a)) t Tb O
  = sumn (nInlets N) (fun k => Rabs (nth k (f_m F) 0) * cp * (apply_coefs K o t Tb (E k) - t)).
Proof.
  intros W G Ha Ho Hcp HE K. rewrite net_heat_apply.
  destruct G as [Gf [Gp Gr]].
  destruct (cpb_nth N g F W Gf) as [cp' [Q1 Q2]]. rewrite <- (Q1 _ Hcp) in Q2. clear Q1 cp'.
  assert (G : good_args N ps g F) by (split; auto).
  set (w := fun i => nth (nth i (n_circ N) O) (map (fun m => Rabs m * cp) (f_m F)) 0).
  assert (Lm := proj1 (format_facts N g F W Gf)).
  assert (Wm : forall k, nth k (map (fun m => Rabs m * cp) (f_m F)) 0 = Rabs (nth k (f_m F) 0) * cp).
  { intro k. destruct (Nat.lt_ge_cases k (length (f_m F))) as [Hk|Hk].
    - rewrite (nth_map _ _ _ 0) by auto. auto.
    - rewrite (nth_overflow (f_m F)) by auto. rewrite nth_overflow by (rewrite map_length; auto). rewrite Rabs_R0. lra. }
  transitivity (sumn (nB N) (fun j => w j * (apply_coefs K o t Tb j - apply_coefs K a t Tb j))).
  { apply sumn_ext. intros i Hi.
    assert (Q := qf_apply N ps g F a t Tb i W G Hi). cbv zeta in Q. fold K in Q.
    assert (O := in_out_consistent N ps g F a o t Tb W G Ha Ho i Hi). fold K in O.
    rewrite Q, <- O.
    unfold w. rewrite Wm, (mb_nth N g F i W Gf Hi), (Q2 i Hi). auto. }
  rewrite (flow_balance N (f_rev F) t (apply_coefs K a t Tb) (apply_coefs K o t Tb) w W).
  - unfold w. rewrite (sum_ends N (f_rev F) E _ (apply_coefs K o t Tb) W HE), (sum_heads N _ (f_rev F) W).
    rewrite <- sumn_scal, <- sumn_minus. apply sumn_ext. intros k Hk. rewrite Wm. lra.
  - apply (coefs_connected N ps g F a o t Tb W G Ha Ho).
  - intros i j Hf. unfold w. rewrite (feeds_circ N _ i j W Hf). auto.
Qed.

(* The weights of the code go to the boreholes in iOutlets in turn. *)
Lemma outlet_by_list N F w o t Tb : wf N -> length (f_m F) = nInlets N ->
  w = mixing (iOutlets N (f_rev F)) (f_m F) ->
  let K := seg_total (f_seg F) in
  apply_coefs K (coef_net_outlet N w o) t Tb O
  = sumn (nInlets N) (fun k => Rabs (nth k (f_m F) 0) * apply_coefs K o t Tb (nth k (iOutlets N (f_rev F)) O))
    / sumn (nInlets N) (fun k => Rabs (nth k (f_m F) 0)).
Proof.
  intros W Lm -> K. rewrite net_outlet_apply.
  destruct (iOut_facts N (f_rev F) W) as [ND [L I]].
  rewrite mixing_sum; auto; [|intros i Hi; apply I in Hi; tauto]. rewrite L.
  f_equal. rewrite Rsum_sumn, map_length, Lm. apply sumn_ext. intros k Hk.
  apply (nth_map Rabs). lia.
Qed.

Definition paired (N : net) (F : fmt) : Prop :=
  forall k, (k < nInlets N)%nat ->
    Rabs (nth (nth (nth k (iOutlets N (f_rev F)) O) (n_circ N) O) (f_m F) 0) = Rabs (nth k (f_m F) 0).

Lemma paired_sum N F E f : wf N -> length (f_m F) = nInlets N -> paired N F ->
  (forall k, (k < nInlets N)%nat -> circuit_end (n_c N) (f_rev F) (nth k (n_in N) O) (E k)) ->
  sumn (nInlets N) (fun k => Rabs (nth k (f_m F) 0) * f (nth k (iOutlets N (f_rev F)) O))
  = sumn (nInlets N) (fun k => Rabs (nth k (f_m F) 0) * f (E k)).
Proof.
  intros W Lm P HE. destruct (iOut_facts N (f_rev F) W) as [ND [L I]].
  assert (Pm := ends_perm N (f_rev F) E W HE).
  set (h := fun i => Rabs (nth (nth i (n_circ N) O) (f_m F) 0) * f i).
  transitivity (Rsum (map h (iOutlets N (f_rev F)))).
  - rewrite Rsum_map_nth, L. apply sumn_ext. intros k Hk. unfold h. rewrite (P k Hk). auto.
  - rewrite <- (Rsum_perm _ _ (Permutation_map h Pm)), map_map, Rsum_map_seq. apply sumn_ext.
    intros k Hk. unfold h. destruct (HE k Hk) as [H1 [H2 _]]. rewrite (root_circ N (E k) k W H1 Hk H2). auto.
Qed.

Lemma paired_reversed N F : wf N -> f_rev F = true -> paired N F.
Proof.
  intros W Er k Hk. rewrite Er. unfold iOutlets. rewrite n_in_circ by auto. auto.
Qed.

Lemma paired_equal N F x : wf N -> (forall k, (k < nInlets N)%nat -> nth k (f_m F) 0 = x) -> paired N F.
Proof.
  intros W H k Hk. destruct (iOut_facts N (f_rev F) W) as [ND [L I]].
  rewrite H, H; auto. destruct W as [_ [_ [_ [Lc P]]]]. apply P. apply I. apply nth_In. lia.
Qed.

(* ------------------------------------------------------------------ *)
(* Heat along the segments                                             *)

Lemma seg_total_cons n ns : seg_total (n :: ns) = (n + seg_total ns)%nat.
Proof. reflexivity. Qed.

Lemma sumn_segments ns f :
  sumn (seg_total ns) f = sumn (length ns) (fun i => sumn (nth i ns O) (fun s => f (seg_off ns i + s)%nat)).
Proof.
  revert f; induction ns as [|n ns IH]; intro f; auto.
  rewrite seg_total_cons, sumn_split. cbn [length]. rewrite sumn_S_l. f_equal.
  rewrite IH. apply sumn_ext. intros i Hi. cbn [nth]. apply sumn_ext. intros s Hs.
  change (seg_off (n :: ns) (S i)) with (n + seg_off ns i)%nat. f_equal. lia.
Qed.

Lemma seg_owner_off ns i s : (i < length ns)%nat -> (s < nth i ns O)%nat -> seg_owner ns (seg_off ns i + s) = i.
Proof.
  revert i; induction ns as [|n ns IH]; intros i Hi Hs; simpl in Hi; [lia|].
  destruct i as [|i].
  - cbn [nth] in Hs. change (seg_off (n :: ns) O) with O. cbn [seg_owner].
    destruct (Nat.ltb_spec (0 + s) n); [auto|lia].
  - cbn [nth] in Hs. change (seg_off (n :: ns) (S i)) with (n + seg_off ns i)%nat. cbn [seg_owner].
    destruct (Nat.ltb_spec (n + seg_off ns i + s) n); [lia|]. f_equal.
    replace (n + seg_off ns i + s - n)%nat with (seg_off ns i + s)%nat by lia. apply IH; lia.
Qed.

Definition no_q : (nat -> R) * Mx := (fun _ => 0, fun _ _ => 0).

Lemma qb_apply N ps g F a t Tb i s : wf N -> good_args N ps g F -> (i < nB N)%nat ->
  (s < nth i (f_seg F) O)%nat ->
  let K := seg_total (f_seg F) in
  let ab := p_qb (nth i ps no_pipe) (nth i (f_mb F) 0) (nth i (f_cpb F) 0) (nth i (f_seg F) O) (nth i (f_rat F) None) in
  apply_coefs K (coef_qb N ps F a) t Tb (seg_off (f_seg F) i + s)
  = fst ab s * apply_coefs K a t Tb i
    + sumn (nth i (f_seg F) O) (fun l => snd ab s l * Tb (seg_off (f_seg F) i + l)%nat).
Proof.
  intros W G Hi Hs K ab. unfold coef_qb. rewrite chain_apply.
  destruct (good_lengths _ _ _ _ W G) as [_ [_ [_ [L4 _]]]].
  destruct (over_nth p_qb N ps g F no_q i W G Hi) as [E Lz]. fold ab in E.
  f_equal.
  - unfold mx_vec. rewrite (sumn_single _ i); auto.
    + unfold block_cols. rewrite seg_owner_off by lia. rewrite Nat.eqb_refl.
      rewrite (nth_map fst _ i no_q) by lia. rewrite E.
      replace (seg_off (f_seg F) i + s - seg_off (f_seg F) i)%nat with s by lia. auto.
    + intros j Hj Ne. unfold block_cols. rewrite seg_owner_off by lia.
      destruct (Nat.eqb_spec i j); [congruence|lra].
  - unfold K. rewrite <- (sumn_block (seg_total (f_seg F)) (seg_off (f_seg F) i) (nth i (f_seg F) O)) by (apply seg_off_le; lia).
    apply sumn_ext. intros k Hk. unfold block_squares. rewrite seg_owner_off by lia.
    destruct (Nat.leb_spec (seg_off (f_seg F) i) k); simpl; [|lra].
    destruct (Nat.ltb_spec k (seg_off (f_seg F) i + nth i (f_seg F) O)); [|lra].
    rewrite (nth_map snd _ i no_q) by lia. rewrite E.
    replace (seg_off (f_seg F) i + s - seg_off (f_seg F) i)%nat with s by lia.
    replace (seg_off (f_seg F) i + (k - seg_off (f_seg F) i))%nat with k by lia. auto.
Qed.

(* Conditions on every pipe of the network with the flow it receives *)
Definition all_pipes (P : pipe -> R -> R -> nat -> option (list R) -> Prop) (N : net) (ps : list pipe) (F : fmt) : Prop :=
  forall i, (i < nB N)%nat ->
    P (nth i ps no_pipe) (nth i (f_mb F) 0) (nth i (f_cpb F) 0) (nth i (f_seg F) O) (nth i (f_rat F) None).

Lemma heat_segments N ps g F a t Tb : wf N -> good_args N ps g F -> all_pipes pipe_balanced N ps F ->
  let K := seg_total (f_seg F) in
  sumn K (apply_coefs K (coef_qb N ps F a) t Tb) = sumn (nB N) (apply_coefs K (coef_qf N ps F a) t Tb).
Proof.
  intros W G B K. destruct (good_lengths _ _ _ _ W G) as [_ [_ [_ [L4 _]]]].
  unfold K at 1. rewrite sumn_segments, L4. apply sumn_ext. intros i Hi.
  destruct (B i Hi) as [B1 B2].
  set (q := p_qb (nth i ps no_pipe) (nth i (f_mb F) 0) (nth i (f_cpb F) 0) (nth i (f_seg F) O) (nth i (f_rat F) None)) in *.
  transitivity (sumn (nth i (f_seg F) O) (fst q) * apply_coefs K a t Tb i
     + sumn (nth i (f_seg F) O) (fun l => sumn (nth i (f_seg F) O) (fun k => snd q k l) * Tb (seg_off (f_seg F) i + l)%nat)).
  - transitivity (sumn (nth i (f_seg F) O) (fun s => fst q s * apply_coefs K a t Tb i
        + sumn (nth i (f_seg F) O) (fun l => snd q s l * Tb (seg_off (f_seg F) i + l)%nat))).
    + apply sumn_ext. intros s Hs. apply (qb_apply N ps g F a t Tb i s W G Hi Hs).
    + rewrite sumn_plus, sumn_scal_r. f_equal. rewrite sumn_swap. apply sumn_ext. intros l Hl.
      rewrite sumn_scal_r. auto.
  - rewrite B1. unfold coef_qf. rewrite chain_apply, diag_vec by auto.
    unfold K. rewrite block_rows_vec by lia.
    destruct (over_nth p_qf N ps g F (0, fun _ : nat => 0) i W G Hi) as [E Lz].
    rewrite (nth_map fst _ i (0, fun _ : nat => 0)) by lia.
    rewrite (nth_map snd _ i (0, fun _ : nat => 0)) by lia. rewrite E. f_equal.
    apply sumn_ext. intros l Hl. rewrite B2 by auto. auto.
Qed.

(* ------------------------------------------------------------------ *)
(* Uniform temperature                                                 *)

Lemma bore_outlet_uniform N ps F i T : all_pipes pipe_neutral N ps F -> (i < nB N)%nat ->
  bore_outlet ps F i T (fun _ => T) = T.
Proof.
  intros H Hi. destruct (H i Hi) as [E _]. unfold bore_outlet. fold no_pipe.
  rewrite sumn_scal_r, <- Rmult_plus_distr_r, E. lra.
Qed.

Lemma uniform_temperatures N ps g F a o T : wf N -> good_args N ps g F -> all_pipes pipe_neutral N ps F ->
  coef_inlet N ps F = Some a -> coef_outlet N ps F = Some o ->
  let K := seg_total (f_seg F) in
  forall i, (i < nB N)%nat -> apply_coefs K a T (fun _ => T) i = T /\ apply_coefs K o T (fun _ => T) i = T.
Proof.
  intros W G P Ha Ho K.
  apply (connected_unique N ps F T (fun _ => T) _ _ (fun _ => T) (fun _ => T) W).
  - apply (coefs_connected N ps g F a o T (fun _ => T) W G Ha Ho).
  - apply (in_out_consistent N ps g F a o T (fun _ => T) W G Ha Ho).
  - intros j Hj. auto.
  - intros i Hi. symmetry. apply (bore_outlet_uniform N); auto.
Qed.
