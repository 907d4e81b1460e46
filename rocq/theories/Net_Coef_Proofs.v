(* Proofs about the temperature and heat coefficients of networks. *)
From Coq Require Import Reals Lra Lia List ZArith Bool.
From Verif Require Import Base LinAlg Net_Model Net_Spec Net_Proofs.
Import ListNotations.
Local Open Scope R_scope.

Definition wf (N : net) : Prop :=
  chains (nB N) (n_c N) /\ n_in N = inlets (n_c N) /\ n_out N = outlets (n_c N)
  /\ length (n_circ N) = nB N
  /\ forall i, (i < nB N)%nat -> (nth i (n_circ N) O < nInlets N)%nat
       /\ root (n_c N) i (nth (nth i (n_circ N) O) (n_in N) O).

Lemma build_wf n conn N : build_net n conn = Some N -> wf N /\ nB N = n.
Proof.
  intro H. destruct (build_some _ _ _ H) as [c [C [E1 [E2 [E3 [L [P _]]]]]]].
  assert (En : nB N = n) by (unfold nB; rewrite E1; apply C).
  split; auto. unfold wf, nInlets. rewrite En, E1, E2, E3. auto.
Qed.

Lemma feeds_flip c rev i j : feeds c (negb rev) i j <-> feeds c rev j i.
Proof. unfold feeds. destruct rev; simpl; tauto. Qed.

Lemma feeds_lt n c rev i j : chains n c -> feeds c rev i j -> (i < n)%nat /\ (j < n)%nat.
Proof.
  intros [L [_ [Hr _]]]. unfold feeds. destruct rev; intro H.
  - assert (A := nth_error_lt _ _ _ H). destruct (Hr _ _ H); lia.
  - assert (A := nth_error_lt _ _ _ H). destruct (Hr _ _ H); lia.
Qed.

Lemma feeds_inj n c rev i i' j : chains n c -> feeds c rev i j -> feeds c rev i' j -> i = i'.
Proof.
  intros [L [_ [_ [U _]]]]. unfold feeds. destruct rev; intros H1 H2.
  - apply (U i i' (Z.of_nat j)); auto. lia.
  - rewrite H1 in H2. inversion H2. lia.
Qed.

Lemma feeds_fun n c rev i j j' : chains n c -> feeds c rev i j -> feeds c rev i j' -> j = j'.
Proof.
  intros C H1 H2. apply feeds_flip in H1. apply feeds_flip in H2. eapply feeds_inj; eauto.
Qed.

Lemma feeds_dec1 c rev i j : {feeds c rev i j} + {~ feeds c rev i j}.
Proof.
  unfold feeds. destruct rev.
  - destruct (nth_error c i) as [z|]; [|right; discriminate].
    destruct (Z.eq_dec z (Z.of_nat j)); [left; congruence|right; congruence].
  - destruct (nth_error c j) as [z|]; [|right; discriminate].
    destruct (Z.eq_dec z (Z.of_nat i)); [left; congruence|right; congruence].
Qed.

Lemma feeds_dec c rev n j :
  (exists i, (i < n)%nat /\ feeds c rev i j) \/ (forall i, (i < n)%nat -> ~ feeds c rev i j).
Proof.
  induction n as [|n [[i [Hi Hf]]|IH]].
  - right. intros; lia.
  - left. exists i. split; [lia|auto].
  - destruct (feeds_dec1 c rev n j) as [Hf|Hf].
    + left. exists n. split; [lia|auto].
    + right. intros i Hi. destruct (Nat.eq_dec i n); [subst; auto|apply IH; lia].
Qed.

(* Matrix entries *)
Lemma c_out_one N rev i j : wf N -> feeds (n_c N) rev i j -> c_out N rev j i = 1.
Proof.
  intros _ H. unfold c_out, c_out_neg, c_out_pos. unfold feeds in H. destruct rev;
    rewrite (nth_error_nthZ _ _ _ H), Z.eqb_refl; destruct (Z.eqb_spec (Z.of_nat j) (-1)) as [?|?]; try lia;
    destruct (Z.eqb_spec (Z.of_nat i) (-1)); try lia; reflexivity.
Qed.

Lemma c_out_zero N rev i j : wf N -> (i < nB N)%nat -> (j < nB N)%nat ->
  ~ feeds (n_c N) rev i j -> c_out N rev j i = 0.
Proof.
  intros W Hi Hj H. unfold c_out, c_out_neg, c_out_pos. unfold feeds in H. unfold nB in *. destruct rev.
  - destruct (andb _ _) eqn:E; auto. apply andb_true_iff in E. destruct E as [_ E]. apply Z.eqb_eq in E.
    exfalso. apply H. rewrite nthZ_nth_error by auto. congruence.
  - destruct (andb _ _) eqn:E; auto. apply andb_true_iff in E. destruct E as [_ E]. apply Z.eqb_eq in E.
    exfalso. apply H. rewrite nthZ_nth_error by auto. congruence.
Qed.

Lemma existsb_nat_in (l : list nat) i : existsb (Nat.eqb i) l = true <-> In i l.
Proof.
  rewrite existsb_exists. split.
  - intros [x [Hx E]]. apply Nat.eqb_eq in E. subst. auto.
  - intro H. exists i. split; auto. apply Nat.eqb_refl.
Qed.

(* Fed by the field: no borehole feeds it. *)
Lemma fed_by_field N (rev : bool) j : wf N -> (j < nB N)%nat ->
  In j (if rev then n_out N else n_in N) <-> forall i, (i < nB N)%nat -> ~ feeds (n_c N) rev i j.
Proof.
  intros [C [E1 [E2 _]]] Hj. rewrite E1, E2. unfold feeds. destruct rev.
  - rewrite outlets_in. split.
    + intros [_ H] i _. apply H.
    + intro H. split; auto. intros i Hi. apply (H i); auto. unfold nB. eapply nth_error_lt; eauto.
  - rewrite inlets_in. split.
    + intros H i _ E. rewrite H in E. inversion E. lia.
    + intro H. destruct C as [L [_ [Hr _]]]. unfold nB in *.
      assert (E := nthZ_nth_error (n_c N) j Hj). destruct (Hr _ _ E) as [Em|Em]; [congruence|].
      exfalso. apply (H (Z.to_nat (nth j (n_c N) 0%Z))); [lia|]. rewrite E. f_equal. lia.
Qed.

Lemma c_in_in N (rev : bool) j : c_in N rev j = if existsb (Nat.eqb j) (if rev then n_out N else n_in N) then 1 else 0.
Proof. unfold c_in, c_in_neg, c_in_pos. destruct rev; auto. Qed.

Lemma c_in_one N rev j : wf N -> (j < nB N)%nat ->
  (forall i, (i < nB N)%nat -> ~ feeds (n_c N) rev i j) -> c_in N rev j = 1.
Proof.
  intros W Hj H. rewrite c_in_in. apply (fed_by_field N rev j W Hj) in H. apply existsb_nat_in in H. rewrite H. auto.
Qed.

Lemma c_in_zero N rev i j : wf N -> (i < nB N)%nat -> (j < nB N)%nat -> feeds (n_c N) rev i j -> c_in N rev j = 0.
Proof.
  intros W Hi Hj H. rewrite c_in_in. destruct (existsb _ _) eqn:E; auto.
  apply existsb_nat_in in E. apply (proj1 (fed_by_field N rev j W Hj)) with (i := i) in E; auto. contradiction.
Qed.

(* A row of c_out picks the feeder. *)
Lemma c_out_row N rev i j y : wf N -> feeds (n_c N) rev i j ->
  sumn (nB N) (fun k => c_out N rev j k * y k) = y i.
Proof.
  intros W H. assert (C := proj1 W). destruct (feeds_lt _ _ _ _ _ C H) as [Hi Hj].
  rewrite (sumn_single _ i); auto.
  - rewrite (c_out_one N rev i j W H). lra.
  - intros k Hk Ne. rewrite (c_out_zero N rev k j W Hk Hj); [lra|].
    intro Hf. apply Ne. eapply feeds_inj; eauto.
Qed.

Lemma c_out_row0 N rev j y : wf N -> (j < nB N)%nat ->
  (forall i, (i < nB N)%nat -> ~ feeds (n_c N) rev i j) ->
  sumn (nB N) (fun k => c_out N rev j k * y k) = 0.
Proof.
  intros W Hj H. apply sumn_zero. intros k Hk. rewrite (c_out_zero N rev k j W Hk Hj); auto. lra.
Qed.

(* Induction along the flow *)
Lemma root_depth_dom N i : wf N -> (i < nB N)%nat -> exists r d, depth (n_c N) i r d.
Proof.
  intros [C _] Hi. destruct C as [_ [_ [_ [_ R]]]]. destruct (R i Hi) as [r Hr].
  destruct (root_depth _ _ _ Hr) as [d D]. eauto.
Qed.

Lemma flow_ind N rev (P : nat -> Prop) : wf N ->
  (forall j, (j < nB N)%nat -> (forall i, feeds (n_c N) rev i j -> P i) -> P j) ->
  forall j, (j < nB N)%nat -> P j.
Proof.
  intros W H. assert (C := proj1 W). destruct rev.
  - assert (G : forall k j r d, depth (n_c N) j r d -> (nB N - d <= k)%nat -> (j < nB N)%nat -> P j).
    { induction k as [|k IH]; intros j r d D Hk Hj.
      - assert (B := depth_bound _ _ _ _ D). unfold nB in *. lia.
      - apply H; auto. intros i Hf. destruct (feeds_lt _ _ _ _ _ C Hf) as [Hi _].
        assert (Di : depth (n_c N) i r (S d)) by (econstructor; eauto).
        assert (B := depth_bound _ _ _ _ Di). fold (nB N) in B.
        apply (IH i r (S d)); auto. lia. }
    intros j Hj. destruct (root_depth_dom N j W Hj) as [r [d D]]. apply (G (nB N) j r d); auto. lia.
  - intros j Hj. destruct (root_depth_dom N j W Hj) as [r [d D]].
    induction D as [j Hc|j k r d Hc D IH].
    + apply H; auto. intros i Hf. unfold feeds in Hf. rewrite Hc in Hf. inversion Hf. lia.
    + apply H; auto. intros i Hf. unfold feeds in Hf. rewrite Hc in Hf. inversion Hf.
      assert (i = k) by lia. subst i. apply IH.
      eapply (feeds_lt _ _ false k j C). unfold feeds. auto.
Qed.

(* All boreholes of a circuit carry the same number. *)
Lemma feeds_circ N rev i j : wf N -> feeds (n_c N) rev i j -> nth i (n_circ N) O = nth j (n_circ N) O.
Proof.
  intros W.
  assert (G : forall a b, nth_error (n_c N) b = Some (Z.of_nat a) -> nth a (n_circ N) O = nth b (n_circ N) O).
  { intros a b H. assert (Hf : feeds (n_c N) false a b) by exact H.
    destruct (feeds_lt _ _ _ _ _ (proj1 W) Hf) as [Ha Hb].
    destruct W as [C [E1 [E2 [L P]]]].
    destruct (P a Ha) as [A1 A2]. destruct (P b Hb) as [B1 B2].
    assert (B3 : root (n_c N) b (nth (nth a (n_circ N) O) (n_in N) O)) by (eapply root_up; eauto).
    assert (E := root_fun _ _ _ _ B2 B3). symmetry.
    unfold nInlets in *. rewrite E1 in *.
    apply (proj1 (NoDup_nth (inlets (n_c N)) O) (inlets_NoDup _)); auto. }
  unfold feeds. destruct rev; intro H; [symmetry|]; apply G; auto.
Qed.

(* ------------------------------------------------------------------ *)
(* Inlet and outlet temperatures                                       *)

Lemma diag_vec n d x i : (i < n)%nat -> mx_vec n (diag_mx d) x i = nth i d 0 * x i.
Proof.
  intro H. unfold mx_vec. rewrite (sumn_single n i); auto.
  - unfold diag_mx. rewrite Nat.eqb_refl. auto.
  - intros k Hk Ne. unfold diag_mx. destruct (Nat.eqb_spec i k); [congruence|lra].
Qed.

Lemma id_vec n x i : (i < n)%nat -> sumn n (fun k => id_mx i k * x k) = x i.
Proof.
  intro H. rewrite (sumn_single n i); auto.
  - unfold id_mx. rewrite Nat.eqb_refl. lra.
  - intros k Hk Ne. unfold id_mx. destruct (Nat.eqb_spec i k); [congruence|lra].
Qed.

Lemma ICA_vec N rev d x i : (i < nB N)%nat ->
  sumn (nB N) (fun k => mx_sub id_mx (mx_mul (nB N) (c_out N rev) (diag_mx d)) i k * x k)
  = x i - sumn (nB N) (fun j => c_out N rev i j * (nth j d 0 * x j)).
Proof.
  intro Hi. transitivity (sumn (nB N) (fun k => id_mx i k * x k)
     - mx_vec (nB N) (mx_mul (nB N) (c_out N rev) (diag_mx d)) x i).
  - unfold mx_vec. rewrite <- sumn_minus. apply sumn_ext. intros. unfold mx_sub. lra.
  - rewrite id_vec by auto. f_equal. rewrite mx_vec_mul. apply sumn_ext. intros j Hj.
    rewrite diag_vec by auto. auto.
Qed.

Lemma IAC_vec N rev d x i : (i < nB N)%nat ->
  sumn (nB N) (fun k => mx_sub id_mx (mx_mul (nB N) (diag_mx d) (c_out N rev)) i k * x k)
  = x i - nth i d 0 * sumn (nB N) (fun j => c_out N rev i j * x j).
Proof.
  intro Hi. transitivity (sumn (nB N) (fun k => id_mx i k * x k)
     - mx_vec (nB N) (mx_mul (nB N) (diag_mx d) (c_out N rev)) x i).
  - unfold mx_vec. rewrite <- sumn_minus. apply sumn_ext. intros. unfold mx_sub. lra.
  - rewrite id_vec by auto. f_equal. rewrite mx_vec_mul, diag_vec by auto. auto.
Qed.

Lemma ICA_nonsing N rev d : wf N ->
  nonsingular (nB N) (mx_sub id_mx (mx_mul (nB N) (c_out N rev) (diag_mx d))).
Proof.
  intros W x Hx. apply (flow_ind N rev); auto. intros j Hj IH.
  specialize (Hx j Hj). rewrite ICA_vec in Hx by auto.
  destruct (feeds_dec (n_c N) rev (nB N) j) as [[i [Hi Hf]]|Hn].
  - rewrite (c_out_row N rev i j (fun j => nth j d 0 * x j)) in Hx by auto. rewrite (IH i Hf) in Hx. lra.
  - rewrite (c_out_row0 N rev j (fun j => nth j d 0 * x j)) in Hx by auto. lra.
Qed.

Lemma IAC_nonsing N rev d : wf N ->
  nonsingular (nB N) (mx_sub id_mx (mx_mul (nB N) (diag_mx d) (c_out N rev))).
Proof.
  intros W x Hx. apply (flow_ind N rev); auto. intros j Hj IH.
  specialize (Hx j Hj). rewrite IAC_vec in Hx by auto.
  destruct (feeds_dec (n_c N) rev (nB N) j) as [[i [Hi Hf]]|Hn].
  - rewrite (c_out_row N rev i j x) in Hx by auto. rewrite (IH i Hf) in Hx. lra.
  - rewrite (c_out_row0 N rev j x) in Hx by auto. lra.
Qed.

Lemma solve_coefs_some n M r B : nonsingular n M -> exists a, solve_coefs n M r B = Some a.
Proof.
  intro H. unfold solve_coefs. destruct (lin_solve_some n M r H) as [x ->].
  destruct (lin_solve_mx_some n M B H) as [X ->]. eauto.
Qed.

Lemma solve_coefs_sound n M r B a K t Tb : solve_coefs n M r B = Some a ->
  forall i, (i < n)%nat -> sumn n (fun k => M i k * apply_coefs K a t Tb k)
   = r i * t + sumn K (fun k => B i k * Tb k).
Proof.
  unfold solve_coefs. destruct (lin_solve n M r) as [x|] eqn:E1; [|discriminate].
  destruct (lin_solve_mx n M B) as [X|] eqn:E2; [|discriminate].
  intros H i Hi. inversion H; subst a; clear H. unfold apply_coefs. simpl.
  transitivity (sumn n (fun k => M i k * x k) * t + sumn n (fun k => sumn K (fun l => M i k * X k l * Tb l))).
  - rewrite <- sumn_scal_r, <- sumn_plus. apply sumn_ext. intros k Hk.
    replace (sumn K (fun l => M i k * X k l * Tb l)) with (M i k * sumn K (fun l => X k l * Tb l)); [lra|].
    rewrite <- sumn_scal. apply sumn_ext. intros; lra.
  - rewrite (lin_solve_sound _ _ _ _ E1 i Hi). f_equal.
    rewrite sumn_swap. apply sumn_ext. intros l Hl.
    rewrite <- (lin_solve_mx_sound _ _ _ _ E2 i l Hi). rewrite <- sumn_scal_r. auto.
Qed.

Definition own_A (ps : list pipe) (F : fmt) (i : nat) : R := nth i (map fst (over_pipes p_out ps F)) 0.

Lemma inlet_eq N ps F a K t Tb i : coef_inlet N ps F = Some a -> (i < nB N)%nat ->
  apply_coefs K a t Tb i = c_in N (f_rev F) i * t
    + sumn (nB N) (fun j => c_out N (f_rev F) i j
        * (own_A ps F j * apply_coefs K a t Tb j + sumn K (fun k => out_B ps F j k * Tb k))).
Proof.
  intros H Hi. unfold coef_inlet, out_A in H.
  assert (G := solve_coefs_sound _ _ _ _ _ K t Tb H i Hi). rewrite ICA_vec in G by auto.
  assert (E : sumn K (fun k => mx_mul (nB N) (c_out N (f_rev F)) (out_B ps F) i k * Tb k)
     = sumn (nB N) (fun j => c_out N (f_rev F) i j * sumn K (fun k => out_B ps F j k * Tb k))).
  { apply (mx_vec_mul (nB N) K (c_out N (f_rev F)) (out_B ps F) Tb i). }
  rewrite E in G.
  transitivity (c_in N (f_rev F) i * t
     + (sumn (nB N) (fun j => c_out N (f_rev F) i j * (own_A ps F j * apply_coefs K a t Tb j))
        + sumn (nB N) (fun j => c_out N (f_rev F) i j * sumn K (fun k => out_B ps F j k * Tb k)))).
  - unfold own_A. lra.
  - f_equal. rewrite <- sumn_plus. apply sumn_ext. intros; lra.
Qed.

Lemma outlet_eq N ps F a K t Tb i : coef_outlet N ps F = Some a -> (i < nB N)%nat ->
  apply_coefs K a t Tb i = own_A ps F i * (c_in N (f_rev F) i * t
      + sumn (nB N) (fun j => c_out N (f_rev F) i j * apply_coefs K a t Tb j))
    + sumn K (fun k => out_B ps F i k * Tb k).
Proof.
  intros H Hi. unfold coef_outlet, out_A in H.
  assert (G := solve_coefs_sound _ _ _ _ _ K t Tb H i Hi). rewrite IAC_vec in G by auto.
  rewrite diag_vec in G by auto. unfold own_A. lra.
Qed.

(* zip over the pipes *)
Lemma zip_pipes_nth {A} (f : pipe -> R -> R -> nat -> option (list R) -> A) d ps ms cps ns rs i n dp :
  length ps = n -> length ms = n -> length cps = n -> length ns = n -> length rs = n -> (i < n)%nat ->
  nth i (zip_pipes f ps ms cps ns rs) d
  = f (nth i ps dp) (nth i ms 0) (nth i cps 0) (nth i ns O) (nth i rs None).
Proof.
  revert ps ms cps ns rs i; induction n as [|n IH]; intros ps ms cps ns rs i; [lia|].
  destruct ps as [|p ps], ms as [|m ms], cps as [|cp cps], ns as [|n0 ns], rs as [|r rs]; try discriminate.
  simpl. intros. destruct i as [|i]; auto. apply IH; lia.
Qed.

Lemma zip_pipes_length {A} (f : pipe -> R -> R -> nat -> option (list R) -> A) ps ms cps ns rs n :
  length ps = n -> length ms = n -> length cps = n -> length ns = n -> length rs = n ->
  length (zip_pipes f ps ms cps ns rs) = n.
Proof.
  revert ps ms cps ns rs; induction n as [|n IH]; intros ps ms cps ns rs;
  destruct ps as [|p ps], ms as [|m ms], cps as [|cp cps], ns as [|n0 ns], rs as [|r rs]; try discriminate; auto.
  simpl. intros. rewrite IH; lia.
Qed.

Lemma good_lengths N ps g F : wf N -> good_args N ps g F ->
  length ps = nB N /\ length (f_mb F) = nB N /\ length (f_cpb F) = nB N /\ length (f_seg F) = nB N
  /\ length (f_rat F) = nB N.
Proof.
  intros W [H [Hp Hr]]. split; auto. unfold format_inputs in H.
  destruct (format_flow N (g_m g)) as [m|] eqn:Em; [|discriminate].
  destruct (format_dir (g_m g)) as [rv|] eqn:Ed; [|discriminate].
  destruct (format_cp N (g_cp g)) as [cp|] eqn:Ec; [|discriminate].
  destruct (format_seg N (g_n g)) as [s|] eqn:Es; [|discriminate].
  inversion H; subst F; simpl in *. rewrite !map_length.
  destruct W as [_ [_ [_ [L _]]]]. split; auto. split; auto. split; auto.
  unfold format_seg in Es. destruct (g_n g) as [k|l].
  - inversion Es. apply repeat_length.
  - destruct l as [|a [|b l]].
    + destruct (Nat.eqb_spec (length (@nil nat)) (nB N)); [|discriminate]. inversion Es. auto.
    + inversion Es. apply repeat_length.
    + destruct (Nat.eqb_spec (length (a :: b :: l)) (nB N)); [|discriminate]. inversion Es; subst. auto.
Qed.


Lemma over_nth {A} (f : pipe -> R -> R -> nat -> option (list R) -> A) N ps g F d i :
  wf N -> good_args N ps g F -> (i < nB N)%nat ->
  nth i (over_pipes f ps F) d
  = f (nth i ps no_pipe) (nth i (f_mb F) 0) (nth i (f_cpb F) 0) (nth i (f_seg F) O) (nth i (f_rat F) None)
  /\ length (over_pipes f ps F) = nB N.
Proof.
  intros W G Hi. destruct (good_lengths _ _ _ _ W G) as [L1 [L2 [L3 [L4 L5]]]].
  unfold over_pipes. split.
  - apply (zip_pipes_nth f d _ _ _ _ _ _ (nB N)); auto.
  - apply zip_pipes_length; auto.
Qed.

Lemma seg_off_S ns i : (i < length ns)%nat -> seg_off ns (S i) = (seg_off ns i + nth i ns O)%nat.
Proof.
  revert i; induction ns as [|n ns IH]; intros i H; simpl in H; [lia|].
  destruct i as [|i]; [destruct ns; simpl; lia|]. cbn [nth].
  change (seg_off (n :: ns) (S (S i))) with (n + seg_off ns (S i))%nat. rewrite IH by lia. simpl. lia.
Qed.

Lemma seg_off_mono ns i j : (i <= j)%nat -> (j <= length ns)%nat -> (seg_off ns i <= seg_off ns j)%nat.
Proof. intros H; induction H; intro L; auto. rewrite seg_off_S by lia. lia. Qed.

Lemma seg_off_le ns i : (i < length ns)%nat -> (seg_off ns i + nth i ns O <= seg_total ns)%nat.
Proof. intro H. unfold seg_total. rewrite <- seg_off_S by auto. apply seg_off_mono; lia. Qed.

(* A sum over all segments, restricted to one block *)
Lemma sumn_block K a n f : (a + n <= K)%nat ->
  sumn K (fun k => if (a <=? k)%nat && (k <? a + n)%nat then f (k - a)%nat else 0) = sumn n f.
Proof.
  intro H. replace K with (a + (n + (K - a - n)))%nat by lia.
  rewrite sumn_split, (sumn_zero a), Rplus_0_l.
  - rewrite sumn_split, (sumn_zero (K - a - n)), Rplus_0_r.
    + apply sumn_ext. intros i Hi. destruct (Nat.leb_spec a (a + i)); [|lia].
      destruct (Nat.ltb_spec (a + i) (a + n)); [|lia]. simpl. f_equal. lia.
    + intros i Hi. destruct (Nat.ltb_spec (a + (n + i)) (a + n)); [lia|]. rewrite andb_false_r. auto.
  - intros i Hi. destruct (Nat.leb_spec a i); [lia|]. auto.
Qed.

Lemma block_rows_vec ns rows Tb i : (i < length ns)%nat ->
  sumn (seg_total ns) (fun k => block_rows ns rows i k * Tb k)
  = sumn (nth i ns O) (fun k => nth i rows (fun _ => 0) k * Tb (seg_off ns i + k)%nat).
Proof.
  intro H. rewrite <- (sumn_block (seg_total ns) (seg_off ns i) (nth i ns O)) by (apply seg_off_le; auto).
  apply sumn_ext. intros k Hk. unfold block_rows.
  destruct (Nat.leb_spec (seg_off ns i) k); simpl; [|lra].
  destruct (Nat.ltb_spec k (seg_off ns i + nth i ns O)); [|lra].
  replace (seg_off ns i + (k - seg_off ns i))%nat with k by lia. auto.
Qed.

Lemma own_outlet N ps g F i tin Tb : wf N -> good_args N ps g F -> (i < nB N)%nat ->
  own_A ps F i * tin + sumn (seg_total (f_seg F)) (fun k => out_B ps F i k * Tb k)
  = bore_outlet ps F i tin Tb.
Proof.
  intros W G Hi. destruct (good_lengths _ _ _ _ W G) as [_ [_ [_ [L4 _]]]].
  unfold own_A, out_B. rewrite block_rows_vec by lia. unfold bore_outlet.
  assert (Lz := proj2 (over_nth p_out N ps g F (0, fun _ => 0) i W G Hi)).
  rewrite (nth_map fst _ i (0, fun _ => 0)) by lia.
  rewrite (nth_map snd _ i (0, fun _ => 0)) by lia.
  rewrite (proj1 (over_nth p_out N ps g F (0, fun _ => 0) i W G Hi)).
  reflexivity.
Qed.

(* The coefficients exist, and give temperatures that follow the connections. *)
Lemma coef_inlet_some N ps F : wf N -> exists a, coef_inlet N ps F = Some a.
Proof. intro W. apply solve_coefs_some. apply ICA_nonsing. auto. Qed.

Lemma coef_outlet_some N ps F : wf N -> exists a, coef_outlet N ps F = Some a.
Proof. intro W. apply solve_coefs_some. apply IAC_nonsing. auto. Qed.

Lemma inlet_cases N ps g F a t Tb j : wf N -> good_args N ps g F -> coef_inlet N ps F = Some a ->
  (j < nB N)%nat ->
  let K := seg_total (f_seg F) in
  (forall i, feeds (n_c N) (f_rev F) i j ->
     apply_coefs K a t Tb j = bore_outlet ps F i (apply_coefs K a t Tb i) Tb)
  /\ ((forall i, (i < nB N)%nat -> ~ feeds (n_c N) (f_rev F) i j) -> apply_coefs K a t Tb j = t).
Proof.
  intros W G H Hj K. assert (E := inlet_eq N ps F a K t Tb j H Hj). split.
  - intros i Hf. destruct (feeds_lt _ _ _ _ _ (proj1 W) Hf) as [Hi _]. rewrite E.
    rewrite (c_in_zero N _ i j W Hi Hj Hf).
    rewrite (c_out_row N _ i j (fun j => own_A ps F j * apply_coefs K a t Tb j + sumn K (fun k => out_B ps F j k * Tb k)) W Hf).
    rewrite <- (own_outlet N ps g F i _ Tb W G Hi). fold K. lra.
  - intro Hn. rewrite E. rewrite (c_in_one N _ j W Hj Hn), (c_out_row0 N _ j _ W Hj Hn). lra.
Qed.

Lemma outlet_cases N ps g F a t Tb j : wf N -> good_args N ps g F -> coef_outlet N ps F = Some a ->
  (j < nB N)%nat ->
  let K := seg_total (f_seg F) in
  (forall i, feeds (n_c N) (f_rev F) i j ->
     apply_coefs K a t Tb j = bore_outlet ps F j (apply_coefs K a t Tb i) Tb)
  /\ ((forall i, (i < nB N)%nat -> ~ feeds (n_c N) (f_rev F) i j) ->
       apply_coefs K a t Tb j = bore_outlet ps F j t Tb).
Proof.
  intros W G H Hj K. assert (E := outlet_eq N ps F a K t Tb j H Hj). split.
  - intros i Hf. destruct (feeds_lt _ _ _ _ _ (proj1 W) Hf) as [Hi _].
    rewrite (c_in_zero N _ i j W Hi Hj Hf) in E.
    rewrite (c_out_row N _ i j (fun j => apply_coefs K a t Tb j) W Hf) in E.
    rewrite <- (own_outlet N ps g F j _ Tb W G Hj). fold K. rewrite E at 1. lra.
  - intro Hn. rewrite (c_in_one N _ j W Hj Hn), (c_out_row0 N _ j _ W Hj Hn) in E.
    rewrite <- (own_outlet N ps g F j _ Tb W G Hj). fold K. rewrite E. lra.
Qed.

Lemma in_out_consistent N ps g F a o t Tb : wf N -> good_args N ps g F ->
  coef_inlet N ps F = Some a -> coef_outlet N ps F = Some o ->
  let K := seg_total (f_seg F) in
  forall j, (j < nB N)%nat ->
    apply_coefs K o t Tb j = bore_outlet ps F j (apply_coefs K a t Tb j) Tb.
Proof.
  intros W G Ha Ho K. apply (flow_ind N (f_rev F)); auto. intros j Hj IH.
  destruct (inlet_cases N ps g F a t Tb j W G Ha Hj) as [A1 A2]. fold K in A1, A2.
  destruct (outlet_cases N ps g F o t Tb j W G Ho Hj) as [O1 O2]. fold K in O1, O2.
  destruct (feeds_dec (n_c N) (f_rev F) (nB N) j) as [[i [Hi Hf]]|Hn].
  - rewrite (O1 i Hf), (A1 i Hf), (IH i Hf). auto.
  - rewrite (O2 Hn), (A2 Hn). auto.
Qed.

Lemma coefs_connected N ps g F a o t Tb : wf N -> good_args N ps g F ->
  coef_inlet N ps F = Some a -> coef_outlet N ps F = Some o ->
  let K := seg_total (f_seg F) in
  connected (n_c N) (f_rev F) t (apply_coefs K a t Tb) (apply_coefs K o t Tb).
Proof.
  intros W G Ha Ho K j Hj. fold (nB N) in Hj.
  destruct (inlet_cases N ps g F a t Tb j W G Ha Hj) as [A1 A2]. fold K in A1, A2. split.
  - intros i Hf. rewrite (A1 i Hf). symmetry. apply (in_out_consistent N ps g F a o t Tb); auto.
    apply (feeds_lt _ _ _ _ _ (proj1 W) Hf).
  - intro Hn. apply A2. exact Hn.
Qed.

Lemma connected_unique N ps F t Tb tin tout tin' tout' : wf N ->
  connected (n_c N) (f_rev F) t tin tout ->
  (forall i, (i < nB N)%nat -> tout i = bore_outlet ps F i (tin i) Tb) ->
  connected (n_c N) (f_rev F) t tin' tout' ->
  (forall i, (i < nB N)%nat -> tout' i = bore_outlet ps F i (tin' i) Tb) ->
  forall i, (i < nB N)%nat -> tin i = tin' i /\ tout i = tout' i.
Proof.
  intros W H1 H2 H3 H4. apply (flow_ind N (f_rev F)); auto. intros j Hj IH.
  assert (E : tin j = tin' j).
  { destruct (H1 j Hj) as [A1 A2]. destruct (H3 j Hj) as [B1 B2].
    destruct (feeds_dec (n_c N) (f_rev F) (nB N) j) as [[i [Hi Hf]]|Hn].
    - rewrite (A1 i Hf), (B1 i Hf). apply (IH i Hf).
    - rewrite (A2 Hn), (B2 Hn). auto. }
  split; auto. rewrite H2, H4, E by auto. auto.
Qed.
