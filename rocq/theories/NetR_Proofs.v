(** Thermal resistance of a network of boreholes with the same pipe (C141). *)
From Coq Require Import Reals Lra Lia List ZArith.
From Verif Require Import Base Net_Model Net_Spec Net_Proofs Net_Coef_Proofs Net_Heat_Proofs Net_Cache_Proofs Net_More_Proofs
  Net_Equiv_Proofs Net_Extra_Proofs NetR_Spec.
Import ListNotations.
Local Open Scope R_scope.

(* ------------------------------------------------------------------ *)
(* Sums along a circuit of L boreholes, each with outlet a times inlet  *)

Definition geo (a : R) (L : nat) : R := sumn L (fun d => a ^ d).

Lemma geo_closed a L : (1 - a) * geo a L = 1 - a ^ L.
Proof. induction L as [|L IH]; unfold geo in *; cbn [sumn pow]; lra. Qed.

Lemma geo_ge a L : 0 <= a <= 1 -> INR L * a ^ L <= geo a L.
Proof.
  intros H. unfold geo. rewrite <- sumn_const. apply sumn_le. intros d Hd.
  replace L with (d + (L - d))%nat at 1 by lia. rewrite pow_add.
  assert (0 <= a ^ d) by (apply pow_le; lra).
  assert (a ^ (L - d) <= 1) by (rewrite <- (pow1 (L - d)); apply pow_incr; lra). nra.
Qed.

Lemma geo_S a L : geo a (S L) = 1 + a * geo a L.
Proof. unfold geo. rewrite sumn_S_l, <- sumn_scal. reflexivity. Qed.

Lemma geo_mean a L : 0 <= a <= 1 -> (1 + a) * geo a (S L) + (1 - a) ^ 2 * INR L <= INR (S L) * (1 + a ^ S L).
Proof.
  intros H. induction L as [|L IH]; [unfold geo; cbn [sumn INR pow]; lra|].
  assert (S1 : geo a (S (S L)) = geo a (S L) + a ^ S L) by reflexivity.
  rewrite S1, (S_INR (S L)). replace (a ^ S (S L)) with (a * a ^ S L) by reflexivity.
  pose proof (geo_closed a (S L)) as C. pose proof (geo_ge a L H) as D. pose proof (geo_S a L) as E.
  assert (Q : a ^ S L <= a).
  { cbn [pow]. assert (a ^ L <= 1) by (rewrite <- (pow1 L); apply pow_incr; lra). nra. }
  assert (P : 1 - a <= geo a (S L) - INR (S L) * a ^ S L).
  { rewrite E, S_INR. replace (a ^ S L) with (a * a ^ L) in * by reflexivity. nra. }
  assert (0 <= (1 - a) * (geo a (S L) - INR (S L) * a ^ S L - (1 - a))) by (apply Rmult_le_pos; lra).
  rewrite (S_INR L) in *. nra.
Qed.

(* Longer circuits have colder outlets *)
Lemma pow_down a L M : 0 <= a <= 1 -> (INR L - INR M) * (a ^ L - a ^ M) <= 0.
Proof.
  intros H. assert (K : forall i j, (i <= j)%nat -> (INR i - INR j) * (a ^ i - a ^ j) <= 0).
  { intros i j Hij. assert (INR i <= INR j) by (apply le_INR; lia).
    assert (a ^ j <= a ^ i); [|nra].
    replace j with (i + (j - i))%nat by lia. rewrite pow_add. assert (0 <= a ^ i) by (apply pow_le; lra).
    assert (a ^ (j - i) <= 1) by (rewrite <- (pow1 (j - i)); apply pow_incr; lra). nra. }
  destruct (Nat.le_ge_cases L M) as [Q|Q]; [apply K; auto|]. specialize (K M L Q). lra.
Qed.

Lemma chebyshev q (x y : nat -> R) :
  (forall k l, (k < q)%nat -> (l < q)%nat -> (x k - x l) * (y k - y l) <= 0) ->
  INR q * sumn q (fun k => x k * y k) <= sumn q x * sumn q y.
Proof.
  intros H.
  assert (E : sumn q (fun k => sumn q (fun l => (x k - x l) * (y k - y l)))
              = 2 * (INR q * sumn q (fun k => x k * y k) - sumn q x * sumn q y)).
  { transitivity (sumn q (fun k => INR q * (x k * y k) + sumn q (fun l => x l * y l) - x k * sumn q y - y k * sumn q x)).
    - apply sumn_ext. intros k Hk.
      rewrite (sumn_ext q _ (fun l => ((x k * y k + x l * y l) - x k * y l) - y k * x l)) by (intros; ring).
      rewrite !sumn_minus, sumn_plus, !sumn_scal, sumn_const. lra.
    - rewrite !sumn_minus, sumn_plus, !sumn_scal_r, sumn_scal, sumn_const. lra. }
  assert (sumn q (fun k => sumn q (fun l => (x k - x l) * (y k - y l))) <= sumn q (fun _ => 0)).
  { apply sumn_le. intros k Hk. rewrite <- (sumn_zero q (fun _ => 0)) by auto. apply sumn_le. intros; apply H; auto. }
  rewrite (sumn_zero q (fun _ => 0)) in H0 by auto. lra.
Qed.

(* ------------------------------------------------------------------ *)
(* Place of a borehole along the flow                                   *)

Lemma finite_choice {A} (P : nat -> A -> Prop) (d : A) n : (forall i, (i < n)%nat -> exists x, P i x) ->
  exists f, forall i, (i < n)%nat -> P i (f i).
Proof.
  induction n as [|n IH]; intros H.
  - exists (fun _ => d). intros; lia.
  - destruct IH as [f Hf]; [intros; apply H; lia|]. destruct (H n ltac:(lia)) as [x Hx].
    exists (fun i => if Nat.eqb i n then x else f i). intros i Hi. destruct (Nat.eqb_spec i n); [subst; auto|apply Hf; lia].
Qed.

Inductive turn (c : list Z) (rev : bool) : nat -> nat -> Prop :=
| turn_O j : (forall i, (i < length c)%nat -> ~ feeds c rev i j) -> turn c rev j O
| turn_S i j d : feeds c rev i j -> turn c rev i d -> turn c rev j (S d).

Lemma turn_fun n c rev j d : chains n c -> turn c rev j d -> forall d', turn c rev j d' -> d = d'.
Proof.
  intros C T. assert (L := proj1 C). induction T as [j Hj|i j d F T IH]; intros d' T'; inversion T' as [j' H'|i' j' d'' F' T'']; subst; auto.
  - exfalso. apply (Hj i'); auto. apply (feeds_lt _ _ _ _ _ C F').
  - exfalso. apply (H' i); auto. apply (feeds_lt _ _ _ _ _ C F).
  - f_equal. apply IH. rewrite (feeds_inj _ _ _ _ _ _ C F F'). exact T''.
Qed.

(* How many boreholes the fluid has gone through before each *)
Definition places (c : list Z) (rev : bool) (D : nat -> nat) : Prop :=
  forall j, (j < length c)%nat ->
    (forall i, feeds c rev i j -> D j = S (D i))
    /\ ((forall i, (i < length c)%nat -> ~ feeds c rev i j) -> D j = O).

Lemma places_exist N rev : wf N -> exists D, places (n_c N) rev D.
Proof.
  intros W. assert (C := proj1 W).
  assert (X : forall j, (j < nB N)%nat -> exists d, turn (n_c N) rev j d).
  { apply (flow_ind N rev); auto. intros j Hj IH.
    destruct (feeds_dec (n_c N) rev (nB N) j) as [[i [Hi Hf]]|Hn].
    - destruct (IH i Hf) as [d T]. exists (S d). econstructor; eauto.
    - exists O. constructor. exact Hn. }
  destruct (finite_choice _ O _ X) as [D HD]. exists D. intros j Hj. change (length (n_c N)) with (nB N) in *. split.
  - intros i F. apply (turn_fun _ _ _ _ _ C (HD j Hj)). econstructor; [exact F|]. apply HD. apply (feeds_lt _ _ _ _ _ C F).
  - intros Hn. apply (turn_fun _ _ _ _ _ C (HD j Hj)). constructor. exact Hn.
Qed.

(* Sums over the boreholes, circuit by circuit *)
Lemma circuit_sums N rev D E (G : nat -> R) : wf N -> places (n_c N) rev D -> ends N rev E -> G O = 0 ->
  sumn (nB N) (fun i => G (S (D i)) - G (D i)) = sumn (nInlets N) (fun k => G (S (D (E k)))).
Proof.
  intros W HD HE G0.
  assert (Cn : connected (n_c N) rev 0 (fun i => G (D i)) (fun i => G (S (D i)))).
  { intros j Hj. destruct (HD j Hj) as [A B]. split; [intros i F; rewrite (A i F); auto|intros Q; rewrite (B Q); auto]. }
  pose proof (flow_balance N rev 0 _ _ (fun _ => 1) W Cn (fun _ _ _ => eq_refl)) as Q.
  rewrite Rmult_0_l, Rminus_0_r in Q.
  transitivity (sumn (nB N) (fun j => 1 * (G (S (D j)) - G (D j)))); [apply sumn_ext; intros; ring|].
  rewrite Q. pose proof (sum_ends N rev E (repeat 1 (nInlets N)) (fun i => G (S (D i))) W HE) as P.
  transitivity (sumn (nInlets N) (fun k => nth k (repeat 1 (nInlets N)) 0 * G (S (D (E k))))).
  - rewrite <- P. apply sumn_ext. intros i Hi. rewrite nth_repeat_lt; [reflexivity|]. apply W; auto.
  - apply sumn_ext. intros k Hk. rewrite nth_repeat_lt by auto. ring.
Qed.

Section Same.
Variables (N : net) (rev : bool) (a : R) (tin tout : nat -> R) (E : nat -> nat).
Hypothesis W : wf N.
Hypothesis Ha : 0 <= a < 1.
Hypothesis Cn : connected (n_c N) rev 1 tin tout.
Hypothesis Po : forall i, (i < nB N)%nat -> tout i = a * tin i.
Hypothesis HE : ends N rev E.

Definition mean_out : R := sumn (nInlets N) (fun k => tout (E k)) / INR (nInlets N).

Lemma tin_pow D : places (n_c N) rev D -> forall i, (i < nB N)%nat -> tin i = a ^ D i.
Proof.
  intros HD. apply (flow_ind N rev); auto. intros j Hj IH. destruct (HD j Hj) as [A B]. destruct (Cn j Hj) as [A' B'].
  destruct (feeds_dec (n_c N) rev (nB N) j) as [[i [Hi Hf]]|Hn].
  - rewrite (A i Hf), (A' i Hf), Po, (IH i Hf) by auto. reflexivity.
  - rewrite (B Hn), (B' Hn). reflexivity.
Qed.

Lemma inlets_pos : 0 < INR (nInlets N).
Proof. apply lt_0_INR. destruct W as [C [_ [_ [_ P]]]]. destruct C as [_ [C _]]. destruct (P O C) as [P1 _]. lia. Qed.

(* Mean of the inlet and outlet temperatures of the network and of the boreholes *)
Lemma mean_temperature : sumn (nB N) (fun i => tin i + tout i) + (1 - a) ^ 2 * (INR (nB N) - INR (nInlets N)) <= INR (nB N) * (1 + mean_out)
  /\ INR (nInlets N) * (1 - mean_out) = (1 - a) * sumn (nB N) tin
  /\ INR (nInlets N) <= sumn (nB N) tin <= INR (nB N)
  /\ (nInlets N = 1%nat -> mean_out = a ^ nB N).
Proof.
  destruct (places_exist N rev W) as [D HD]. pose proof inlets_pos as I0.
  assert (EL : forall k, (k < nInlets N)%nat -> (E k < nB N)%nat) by (intros k Hk; apply (HE k Hk)).
  set (L := fun k => S (D (E k))).
  assert (S1 : INR (nB N) = sumn (nInlets N) (fun k => INR (L k))).
  { pose proof (circuit_sums N rev D E INR W HD HE eq_refl) as Q. unfold L. rewrite <- Q.
    transitivity (sumn (nB N) (fun _ => 1)); [rewrite sumn_const; ring|]. apply sumn_ext. intros. rewrite S_INR. ring. }
  assert (S2 : sumn (nB N) tin = sumn (nInlets N) (fun k => geo a (L k))).
  { pose proof (circuit_sums N rev D E (geo a) W HD HE eq_refl) as Q. unfold L. rewrite <- Q.
    apply sumn_ext. intros i Hi. rewrite (tin_pow D HD i Hi). unfold geo. cbn [sumn]. ring. }
  assert (S3 : sumn (nInlets N) (fun k => tout (E k)) = sumn (nInlets N) (fun k => a ^ L k)).
  { apply sumn_ext. intros k Hk. rewrite Po, (tin_pow D HD) by auto. reflexivity. }
  assert (M : INR (nInlets N) * mean_out = sumn (nInlets N) (fun k => a ^ L k)).
  { unfold mean_out. rewrite S3. field. lra. }
  split; [|split; [|split; [split|]]].
  - rewrite (sumn_ext (nB N) _ (fun i => (1 + a) * tin i)) by (intros i Hi; rewrite Po by auto; ring).
    rewrite sumn_scal, S2, <- sumn_scal.
    replace (INR (nB N) - INR (nInlets N)) with (sumn (nInlets N) (fun k => INR (D (E k)))).
    2:{ rewrite S1. rewrite (sumn_ext (nInlets N) (fun k => INR (L k)) (fun k => INR (D (E k)) + 1)) by (intros; unfold L; apply S_INR).
        rewrite sumn_plus, sumn_const. ring. }
    rewrite <- sumn_scal, <- sumn_plus.
    apply Rle_trans with (sumn (nInlets N) (fun k => INR (L k) * (1 + a ^ L k))).
    { apply sumn_le. intros. apply geo_mean. lra. }
    rewrite (sumn_ext _ _ (fun k => INR (L k) + INR (L k) * a ^ L k)) by (intros; ring).
    rewrite sumn_plus, <- S1. rewrite Rmult_plus_distr_l, Rmult_1_r. apply Rplus_le_compat_l.
    pose proof (chebyshev (nInlets N) (fun k => INR (L k)) (fun k => a ^ L k) (fun k l _ _ => pow_down a (L k) (L l) ltac:(lra))) as Ch.
    rewrite <- S1, <- M in Ch. apply Rmult_le_reg_l with (INR (nInlets N)); auto. lra.
  - rewrite S2, <- sumn_scal. rewrite (sumn_ext _ _ (fun k => 1 - a ^ L k)) by (intros; apply geo_closed).
    rewrite sumn_minus, sumn_const. lra.
  - rewrite S2. apply Rle_trans with (sumn (nInlets N) (fun _ => 1)); [right; rewrite sumn_const; ring|].
    apply sumn_le. intros k Hk. unfold L, geo. rewrite sumn_S_l. cbn [pow].
    assert (0 <= sumn (D (E k)) (fun i => a * a ^ i)); [|lra].
    apply sumn_nonneg. intros i Hi. apply Rmult_le_pos; [lra|apply pow_le; lra].
  - apply Rle_trans with (sumn (nB N) (fun _ => 1)); [|right; rewrite sumn_const; ring].
    apply sumn_le. intros i Hi. rewrite (tin_pow D HD i Hi). rewrite <- (pow1 (D i)). apply pow_incr; lra.
  - intros I1. rewrite I1 in S1, M. cbn [sumn INR] in S1, M. rewrite Rplus_0_l in S1, M. rewrite Rmult_1_l in M.
    rewrite M. f_equal. apply INR_eq. auto.
Qed.
End Same.

(* ------------------------------------------------------------------ *)
(* Lengths of the circuits                                              *)

Lemma circ_list N : wf N -> map (fun i => nth i (n_circ N) O) (seq 0 (nB N)) = n_circ N.
Proof.
  intros W. assert (L : length (n_circ N) = nB N) by apply W. rewrite <- L. clear.
  induction (n_circ N) as [|c l IH]; [reflexivity|]. cbn [length seq map nth]. f_equal.
  rewrite <- IH at 2. rewrite <- seq_shift, map_map. reflexivity.
Qed.

Definition ind (k j : nat) : R := if Nat.eqb j k then 1 else 0.

Lemma ind_sum q k f : (k < q)%nat -> sumn q (fun j => ind k j * f j) = f k.
Proof.
  intros Hk. rewrite (sumn_single q k (fun j => ind k j * f j) Hk).
  - unfold ind. rewrite Nat.eqb_refl. ring.
  - intros i _ Hi. unfold ind. destruct (Nat.eqb_spec i k); [contradiction|ring].
Qed.

Lemma end_place N rev D E k : wf N -> places (n_c N) rev D -> ends N rev E -> (k < nInlets N)%nat ->
  S (D (E k)) = circuit_len N k.
Proof.
  intros W HD HE Hk. apply INR_eq.
  assert (Cn : connected (n_c N) rev 0 (fun i => INR (D i)) (fun i => INR (S (D i)))).
  { intros j Hj. destruct (HD j Hj) as [A B]. split; [intros i F; rewrite (A i F); auto|intros Q; rewrite (B Q); auto]. }
  pose proof (flow_balance N rev 0 _ _ (fun i => ind k (nth i (n_circ N) O)) W Cn) as Q.
  assert (Hw : forall i j, feeds (n_c N) rev i j -> ind k (nth i (n_circ N) O) = ind k (nth j (n_circ N) O)).
  { intros i j F. rewrite (feeds_circ N rev i j W F). reflexivity. }
  specialize (Q Hw). rewrite Rmult_0_l, Rminus_0_r in Q.
  set (m := map (ind k) (seq 0 (nInlets N))).
  assert (Mn : forall j, (j < nInlets N)%nat -> nth j m 0 = ind k j).
  { intros j Hj. unfold m. rewrite (nth_indep _ 0 (ind k O)) by (rewrite map_length, seq_length; auto).
    rewrite (map_nth (ind k)), seq_nth by auto. reflexivity. }
  pose proof (sum_ends N rev E m (fun i => INR (S (D i))) W HE) as P.
  rewrite (sumn_ext (nInlets N) _ (fun j => ind k j * INR (S (D (E j))))) in P by (intros j Hj; rewrite Mn by auto; reflexivity).
  rewrite (ind_sum (nInlets N) k (fun j => INR (S (D (E j)))) Hk) in P. rewrite <- P.
  transitivity (sumn (nB N) (fun j => ind k (nth j (n_circ N) O) * (INR (S (D j)) - INR (D j)))).
  - rewrite Q. apply sumn_ext. intros i Hi. rewrite Mn by (apply W; auto). reflexivity.
  - rewrite (sumn_ext (nB N) _ (fun j => ind k (nth j (n_circ N) O))) by (intros; rewrite S_INR; ring).
    rewrite (sum_groups (nB N) (nInlets N) (fun i => nth i (n_circ N) O) (ind k)) by (intros; apply W; auto).
    rewrite (circ_list N W).
    rewrite (sumn_ext _ _ (fun j => ind k j * INR (count_occ Nat.eq_dec (n_circ N) j))) by (intros; ring).
    rewrite (ind_sum _ k (fun j => INR (count_occ Nat.eq_dec (n_circ N) j)) Hk). reflexivity.
Qed.

(* Mean over the circuits of the factor from inlet to outlet *)
Lemma mean_factor N rev a tin tout E : wf N -> connected (n_c N) rev 1 tin tout ->
  (forall i, (i < nB N)%nat -> tout i = a * tin i) -> ends N rev E ->
  mean_out N tout E = circuit_mean N a.
Proof.
  intros W Cn Po HE. destruct (places_exist N rev W) as [D HD]. unfold mean_out, circuit_mean. f_equal.
  apply sumn_ext. intros k Hk. rewrite <- (end_place N rev D E k W HD HE Hk), Po by apply (HE k Hk).
  rewrite (tin_pow N rev a tin tout W Cn Po D HD) by apply (HE k Hk). reflexivity.
Qed.

(* ------------------------------------------------------------------ *)
(* The resistance                                                       *)

Lemma scalar_fmt N p x cp : wf N -> x <> 0 ->
  exists F, good_args N (repeat p (nB N)) (mkargs [x] [cp] (SegN 1) RNone) F
  /\ (forall i, (i < nB N)%nat -> nth i (f_mb F) 0 = x / INR (nInlets N) /\ nth i (f_cpb F) 0 = cp
        /\ nth i (f_seg F) O = 1%nat /\ nth i (f_rat F) None = None)
  /\ (forall k, (k < nInlets N)%nat -> nth k (f_m F) 0 = x / INR (nInlets N)).
Proof.
  intros W Hx. assert (exists r, format_dir [x] = Some r) as [rv Hr].
  { unfold format_dir. simpl. destruct (Rleb 0 x) eqn:E1; [eexists; reflexivity|].
    apply Rleb_false in E1. assert (Q : Rleb x 0 = true) by (apply Rleb_true; lra). rewrite Q. eexists; reflexivity. }
  assert (EF : exists F, format_inputs N (mkargs [x] [cp] (SegN 1) RNone) = Some F
    /\ f_m F = repeat (x / INR (nInlets N)) (nInlets N) /\ f_seg F = repeat 1%nat (nB N) /\ f_rat F = repeat None (nB N)).
  { unfold format_inputs. cbn [g_m g_cp g_n g_r format_flow format_cp format_seg format_rat]. rewrite Hr. eexists.
    split; [reflexivity|]. cbn [f_m f_seg f_rat]. auto. }
  destruct EF as (F & Hf & E1 & E2 & E3). exists F. split; [|split].
  - split; [exact Hf|]. split; [apply repeat_length|]. rewrite E3. apply repeat_length.
  - intros i Hi. rewrite (mb_nth N _ F i W Hf Hi), E1, E2, E3.
    destruct (cpb_nth N _ F W Hf) as [c [C1 C2]]. rewrite (C2 i Hi), <- (C1 cp) by (cbn; auto).
    assert (nth i (n_circ N) O < nInlets N)%nat by (apply W; auto).
    rewrite !nth_repeat_lt by auto. auto.
  - intros k Hk. rewrite E1. apply nth_repeat_lt; auto.
Qed.

Lemma same_resistance N p Htot x cp : wf N -> x <> 0 -> cp <> 0 ->
  let m := x / INR (nInlets N) in
  let a := fst (p_out p m cp 1 None) in
  0 <= a < 1 ->
  exists rev tin tout E, connected (n_c N) rev 1 tin tout /\ (forall i, (i < nB N)%nat -> tout i = a * tin i) /\ ends N rev E
  /\ network_thermal_resistance N (repeat p (nB N)) Htot [x] [cp]
     = Some (1/2 * Htot * (1 + mean_out N tout E) / (Rabs x * cp * (1 - mean_out N tout E))).
Proof.
  intros W Hx Hcp m a Ha. destruct (scalar_fmt N p x cp W Hx) as (F & G & HF & Hm).
  set (ps := repeat p (nB N)) in *. set (g := mkargs [x] [cp] (SegN 1) RNone) in *.
  destruct (fresh_some_all N ps g F W G) as (i & o & qb & qf & h & no & Hi & Ho & Hb & Hf & Hh & Hn).
  assert (Hi' := Hi). assert (Ho' := Ho).
  rewrite (fresh_direct N ps _ g F W G) in Hi'; cbn [direct] in Hi'. rewrite (fresh_direct N ps _ g F W G) in Ho'; cbn [direct] in Ho'.
  destruct (ends_exist N (f_rev F) W) as [E HE].
  set (K := seg_total (f_seg F)).
  exists (f_rev F), (apply_coefs K i 1 (fun _ => 0)), (apply_coefs K o 1 (fun _ => 0)), E.
  assert (Po : forall j, (j < nB N)%nat -> apply_coefs K o 1 (fun _ => 0) j = a * apply_coefs K i 1 (fun _ => 0) j).
  { intros j Hj. unfold K. rewrite (in_out_consistent N ps g F i o 1 (fun _ => 0) W G Hi' Ho' j Hj). fold K. unfold bore_outlet.
    destruct (HF j Hj) as (F1 & F2 & F3 & F4). rewrite F1, F2, F3, F4. unfold ps. rewrite nth_repeat_lt by auto.
    cbn [sumn]. unfold a, m. ring. }
  split; [exact (coefs_connected N ps g F i o 1 (fun _ => 0) W G Hi' Ho')|]. split; [exact Po|]. split; [exact HE|].
  rewrite (resistance_unfold N ps Htot [x] [cp] F no h W G Hn Hh).
  assert (I0 := inlets_pos N W).
  assert (EM : well_mixed N F E) by (right; left; exists (x / INR (nInlets N)); exact Hm).
  assert (TF : total_flow N F = Rabs x).
  { unfold total_flow. rewrite (sumn_ext _ _ (fun _ => Rabs (x / INR (nInlets N)))) by (intros k Hk; rewrite Hm by auto; reflexivity).
    rewrite sumn_const. unfold Rdiv. rewrite Rabs_mult, (Rabs_right (/ _)); [field; lra|].
    apply Rle_ge, Rlt_le, Rinv_0_lt_compat; auto. }
  assert (X0 : 0 < Rabs x) by (apply Rabs_pos_lt; auto).
  assert (EO : fst no O = mean_out N (apply_coefs K o 1 (fun _ => 0)) E).
  { rewrite <- (apply_zero K no O). unfold K. rewrite (outlet_mixture N ps g F E 1 (fun _ => 0) no o W G HE EM Hn Ho).
    fold K. rewrite TF. unfold mean_out.
    rewrite (sumn_ext _ _ (fun k => Rabs (x / INR (nInlets N)) * apply_coefs K o 1 (fun _ => 0) (E k))) by (intros k Hk; rewrite Hm by auto; reflexivity).
    rewrite sumn_scal. unfold Rdiv. rewrite Rabs_mult, (Rabs_right (/ _)); [field; lra|].
    apply Rle_ge, Rlt_le, Rinv_0_lt_compat; auto. }
  assert (EQ : fst h O = Rabs x * cp * (fst no O - 1)).
  { rewrite <- (apply_zero K h O), <- (apply_zero K no O). unfold K. rewrite <- TF.
    apply (heat_balance N ps g F E 1 (fun _ => 0) cp h no W G HE EM); auto. rewrite TF; lra. cbn; auto. }
  rewrite EQ, EO. f_equal. set (y := mean_out N _ E) in *.
  assert (y < 1).
  { destruct (mean_temperature N (f_rev F) a _ _ E W Ha (coefs_connected N ps g F i o 1 (fun _ => 0) W G Hi' Ho') Po HE) as (_ & B & [B' _] & _).
    fold K in B, B'. fold y in B.
    nra. }
  field. repeat split; lra.
Qed.

Lemma effective_formula p H m cp : m <> 0 -> cp <> 0 -> pipe_balanced p m cp 1 None -> fst (p_out p m cp 1 None) < 1 ->
  effective_resistance p H m cp = 1/2 * H * (1 + fst (p_out p m cp 1 None)) / (Rabs m * cp * (1 - fst (p_out p m cp 1 None))).
Proof.
  intros Hm Hc [B _] L. unfold effective_resistance. cbn [sumn] in B. rewrite Rplus_0_l in B. rewrite B. unfold p_qf.
  destruct (p_out p m cp 1 None) as [a b]. cbn [fst] in *. assert (0 < Rabs m) by (apply Rabs_pos_lt; auto).
  field. repeat split; try lra. replace (- (Rabs m * cp) + Rabs m * cp * a) with (- (Rabs m * cp * (1 - a))) by ring.
  apply Ropp_neq_0_compat. apply Rmult_integral_contrapositive_currified; [|lra].
  apply Rmult_integral_contrapositive_currified; lra.
Qed.

Lemma flow_share N x : wf N -> Rabs (x / INR (nInlets N)) = Rabs x / INR (nInlets N).
Proof.
  intros W. pose proof (inlets_pos N W). unfold Rdiv. rewrite Rabs_mult, (Rabs_right (/ _)); auto.
  apply Rle_ge, Rlt_le, Rinv_0_lt_compat; auto.
Qed.

Lemma flow_nonzero N x : wf N -> x <> 0 -> x / INR (nInlets N) <> 0.
Proof. intros W Hx. pose proof (inlets_pos N W). unfold Rdiv. apply Rmult_integral_contrapositive_currified; auto. apply Rinv_neq_0_compat. lra. Qed.

(* Not below the effective resistance of a borehole, and above it when boreholes are in series *)
Lemma resistance_bound N p H x cp : wf N -> 0 < H -> x <> 0 -> 0 < cp ->
  let m := x / INR (nInlets N) in
  pipe_balanced p m cp 1 None -> 0 <= fst (p_out p m cp 1 None) < 1 ->
  exists Rf, network_thermal_resistance N (repeat p (nB N)) (INR (nB N) * H) [x] [cp] = Some Rf
  /\ effective_resistance p H m cp <= Rf
  /\ ((nInlets N < nB N)%nat -> effective_resistance p H m cp < Rf)
  /\ (nInlets N = nB N -> effective_resistance p H m cp = Rf)
  /\ (nInlets N = 1%nat -> let b := fst (p_out p m cp 1 None) ^ nB N in
       Rf = 1/2 * (INR (nB N) * H) * (1 + b) / (Rabs x * cp * (1 - b))).
Proof.
  intros W H0 Hx Hcp m HB Ha. set (a := fst (p_out p m cp 1 None)) in *.
  pose proof (flow_nonzero N x W Hx) as Hm. fold m in Hm.
  destruct (same_resistance N p (INR (nB N) * H) x cp W Hx ltac:(lra) Ha) as (rev & tin & tout & E & C1 & C2 & C3 & C4).
  assert (C2' : forall i, (i < nB N)%nat -> tout i = a * tin i) by exact C2. clear C2. rename C2' into C2.
  eexists. split; [exact C4|]. set (y := mean_out N tout E).
  destruct (mean_temperature N rev a tin tout E W Ha C1 C2 C3) as (M1 & M2 & [M3 M4] & M5). fold y in M1, M2, M5.
  rewrite (effective_formula p H m cp Hm ltac:(lra) HB (proj2 Ha)). fold a. unfold m. rewrite (flow_share N x W).
  pose proof (inlets_pos N W) as I0. assert (X0 : 0 < Rabs x) by (apply Rabs_pos_lt; auto).
  rewrite (sumn_ext (nB N) _ (fun i => (1 + a) * tin i)) in M1 by (intros i Hi; rewrite C2 by auto; ring).
  rewrite sumn_scal in M1. set (T := sumn (nB N) tin) in *. set (q := INR (nInlets N)) in *.
  assert (Y : 1 - y = (1 - a) * T / q) by (apply Rmult_eq_reg_l with q; [|lra]; rewrite M2; field; lra).
  assert (K0 : 0 < H * q / (2 * (Rabs x * cp) * ((1 - a) * T))).
  { apply Rdiv_lt_0_compat; [apply Rmult_lt_0_compat; lra|]. repeat apply Rmult_lt_0_compat; lra. }
  assert (D : 1/2 * (INR (nB N) * H) * (1 + y) / (Rabs x * cp * (1 - y)) - 1/2 * H * (1 + a) / (Rabs x / q * cp * (1 - a))
            = H * q / (2 * (Rabs x * cp) * ((1 - a) * T)) * (INR (nB N) * (1 + y) - (1 + a) * T)).
  { rewrite Y. field. repeat split; lra. }
  assert (A2 : 0 < (1 - a) ^ 2) by (apply pow_lt; lra).
  assert (IN : q <= INR (nB N)) by lra.
  split; [|split; [|split]].
  - assert (0 <= (1 - a) ^ 2 * (INR (nB N) - q)) by (apply Rmult_le_pos; lra). nra.
  - intros L. apply lt_INR in L. fold q in L.
    assert (0 < (1 - a) ^ 2 * (INR (nB N) - q)) by (apply Rmult_lt_0_compat; lra). nra.
  - intros L. assert (Q : q = INR (nB N)) by (unfold q; rewrite L; reflexivity).
    assert (T = q) by lra. assert (1 - y = 1 - a) by (rewrite Y, H1; field; lra).
    replace (INR (nB N) * (1 + y) - (1 + a) * T) with 0 in D; [lra|]. rewrite H1, <- Q. replace y with a by lra. ring.
  - intros L. rewrite <- (M5 L). reflexivity.
Qed.

Lemma resistance_formula N p Htot x cp : wf N -> x <> 0 -> cp <> 0 ->
  let a := fst (p_out p (x / INR (nInlets N)) cp 1 None) in
  0 <= a < 1 ->
  network_thermal_resistance N (repeat p (nB N)) Htot [x] [cp]
  = Some (1/2 * Htot * (1 + circuit_mean N a) / (Rabs x * cp * (1 - circuit_mean N a))).
Proof.
  intros W Hx Hcp a Ha. destruct (same_resistance N p Htot x cp W Hx Hcp Ha) as (rev & tin & tout & E & C1 & C2 & C3 & C4).
  rewrite C4, (mean_factor N rev a tin tout E W C1 C2 C3). reflexivity.
Qed.

(* Circuits have boreholes *)
Lemma circuit_pos N k : wf N -> (k < nInlets N)%nat -> (1 <= circuit_len N k)%nat.
Proof.
  intros W Hk. destruct (ends_exist N false W) as [E HE]. destruct (places_exist N false W) as [D HD].
  rewrite <- (end_place N false D E k W HD HE Hk). lia.
Qed.
