(* Delta circuits and the line source approximation. *)
From Coq Require Import Reals Lra Lia List Bool ZArith Psatz.
From Verif Require Import Base LinAlg LinInv Bore_Model Net_Model Pipe_Model Res_Model Res_Spec.
From Coquelicot Require Import Coquelicot.
Import ListNotations.
Local Open Scope R_scope.

Lemma conductance_inverse x : conductance (inverse_of x) = x.
Proof.
  unfold inverse_of. destruct (Reqb x 0) eqn:E; cbn.
  - apply Reqb_true in E. lra.
  - assert (x <> 0) by (intros Z; rewrite <- not_true_iff_false, Reqb_true in E; auto). field. auto.
Qed.

Lemma Rsum_filter_other n i f : (i < n)%nat ->
  Rsum (map f (filter (fun j => negb (Nat.eqb i j)) (seq 0 n))) = sumn n f - f i.
Proof.
  intros Hi. assert (A : forall m, Rsum (map f (filter (fun j => negb (Nat.eqb i j)) (seq 0 m)))
     = sumn m f - (if Nat.ltb i m then f i else 0)).
  { induction m as [|m IH]; [cbn; ring|]. rewrite seq_S, filter_app, map_app, Rsum_app, IH. cbn [sumn Nat.add].
    cbn [filter]. destruct (Nat.eqb i m) eqn:E; cbn [negb map Rsum].
    - apply Nat.eqb_eq in E. subst m. rewrite Nat.ltb_irrefl. rewrite (proj2 (Nat.ltb_lt i (S i))) by lia. ring.
    - apply Nat.eqb_neq in E. destruct (Nat.ltb i m) eqn:L.
      + apply Nat.ltb_lt in L. rewrite (proj2 (Nat.ltb_lt i (S m))) by lia. ring.
      + apply Nat.ltb_ge in L. rewrite (proj2 (Nat.ltb_ge i (S m))) by lia. ring. }
  rewrite A. rewrite (proj2 (Nat.ltb_lt i n)) by lia. reflexivity.
Qed.

Lemma delta_diag n Ri i : (i < n)%nat -> delta_K n Ri i i = sumn n (fun j => Ri i j).
Proof.
  intros Hi. unfold delta_K. rewrite Nat.eqb_refl, (Rsum_filter_other n i (fun j => - Ri i j)) by auto.
  replace (sumn n (fun j => - Ri i j)) with (- sumn n (fun j => Ri i j)); [ring|].
  rewrite <- sumn_opp. reflexivity.
Qed.

Lemma sumn_other n i f : (i < n)%nat -> sumn n (fun j => if Nat.eqb i j then 0 else f j) = sumn n f - f i.
Proof.
  intros Hi.
  assert (X : sumn n f = sumn n (fun j => if Nat.eqb i j then 0 else f j) + sumn n (fun j => if Nat.eqb i j then f j else 0)).
  { rewrite <- sumn_plus. apply sumn_ext. intros j _. destruct (Nat.eqb i j); ring. }
  rewrite X. rewrite (sumn_single n i (fun j => if Nat.eqb i j then f j else 0) Hi).
  - rewrite Nat.eqb_refl. ring.
  - intros j _ N. rewrite (proj2 (Nat.eqb_neq i j)) by congruence. reflexivity.
Qed.

Section Delta.
Variables (n : nat) (Rm : Mx) (Rd : nat -> nat -> xres).
Hypothesis (E : delta_circuit n Rm = Some Rd).

Lemma delta_inv : exists Ri, inv_mx n Rm = Some Ri /\ forall i j, conductance (Rd i j) = delta_K n Ri i j.
Proof.
  unfold delta_circuit in E. destruct (inv_mx n Rm) as [Ri|]; [|discriminate]. injection E as <-.
  exists Ri. split; [reflexivity|]. intros i j. apply conductance_inverse.
Qed.

Lemma delta_flow T Tb q i : flows_of n Rm T Tb q -> (i < n)%nat -> q i = circuit_flow n Rd T Tb i.
Proof.
  intros F Hi. destruct delta_inv as [Ri [I K]].
  rewrite (inv_vec n Rm Ri q (fun i => T i - Tb) I F i Hi). unfold circuit_flow.
  rewrite K, (delta_diag n Ri i Hi).
  rewrite (sumn_ext n (fun j => if Nat.eqb i j then 0 else conductance (Rd i j) * (T i - T j))
     (fun j => if Nat.eqb i j then 0 else - Ri i j * (T i - T j))).
  - rewrite (sumn_other n i (fun j => - Ri i j * (T i - T j)) Hi).
    rewrite <- sumn_scal_r.
    replace (sumn n (fun j => - Ri i j * (T i - T j)) - - Ri i i * (T i - T i))
      with (sumn n (fun j => - Ri i j * (T i - T j))) by ring.
    rewrite <- sumn_plus. apply sumn_ext. intros j _. ring.
  - intros j _. destruct (Nat.eqb i j) eqn:Q; [reflexivity|]. rewrite K. unfold delta_K. rewrite Q. reflexivity.
Qed.

Lemma delta_exists T Tb : exists q, flows_of n Rm T Tb q.
Proof.
  destruct delta_inv as [Ri [I _]]. exists (fun i => sumn n (fun j => Ri i j * (T j - Tb))).
  intros i Hi. rewrite <- (mul_assoc n Rm Ri (fun j _ => T j - Tb) i 0%nat).
  transitivity (sumn n (fun j => id_mx i j * (T j - Tb))).
  - apply sumn_ext. intros j Hj. rewrite (inv_right n Rm Ri I i j Hi Hj). reflexivity.
  - exact (sumn_id n i (fun j => T j - Tb) Hi).
Qed.

Lemma delta_sym : (forall i j, (i < n)%nat -> (j < n)%nat -> Rm i j = Rm j i) ->
  forall i j, (i < n)%nat -> (j < n)%nat -> Rd i j = Rd j i.
Proof.
  intros S i j Hi Hj. unfold delta_circuit in E. destruct (inv_mx n Rm) as [Ri|] eqn:I; [|discriminate]. injection E as <-.
  f_equal. unfold delta_K. destruct (Nat.eqb i j) eqn:Q.
  - apply Nat.eqb_eq in Q. subst j. rewrite Nat.eqb_refl. reflexivity.
  - rewrite Nat.eqb_sym, Q. f_equal. apply (inv_sym n Rm Ri I S); auto.
Qed.

Lemma over_cond1 r : over r 1 = conductance r.
Proof. destruct r; cbn; [rewrite Rmult_1_r; reflexivity|reflexivity]. Qed.

(* Heat received by the wall *)
Lemma wall_flow T Tb q : (forall i j, (i < n)%nat -> (j < n)%nat -> Rm i j = Rm j i) -> flows_of n Rm T Tb q ->
  sumn n q = sumn n (fun i => conductance (Rd i i) * (T i - Tb)).
Proof.
  intros S F. rewrite (sumn_ext n q (circuit_flow n Rd T Tb)) by (intros i Hi; apply delta_flow; auto).
  unfold circuit_flow. rewrite sumn_plus.
  set (g := fun i j => if Nat.eqb i j then 0 else conductance (Rd i j) * (T i - T j)).
  assert (Z : sumn n (fun i => sumn n (g i)) = 0).
  { assert (A : sumn n (fun i => sumn n (g i)) = - sumn n (fun i => sumn n (g i))); [|lra].
    rewrite <- sumn_opp. rewrite sumn_swap. apply sumn_ext. intros i Hi. rewrite <- sumn_opp. apply sumn_ext. intros j Hj.
    unfold g. rewrite (Nat.eqb_sym j i). destruct (Nat.eqb i j) eqn:Q; [ring|].
    rewrite (delta_sym S j i Hj Hi). ring. }
  change (sumn n (fun i => conductance (Rd i i) * (T i - Tb)) + sumn n (fun i => sumn n (g i))
    = sumn n (fun i => conductance (Rd i i) * (T i - Tb))). rewrite Z. ring.
Qed.

Lemma local_uniform T Tb q : flows_of n Rm (fun _ => T) Tb q -> local_resistance n Rd <> 0 ->
  sumn n q = (T - Tb) / local_resistance n Rd.
Proof.
  intros F N.
  rewrite (sumn_ext n q (fun i => conductance (Rd i i) * (T - Tb))).
  - rewrite sumn_scal_r. unfold local_resistance in *.
    rewrite (sumn_ext n (fun i => over (Rd i i) 1) (fun i => conductance (Rd i i))) in * by (intros; apply over_cond1).
    set (k := sumn n (fun i => conductance (Rd i i))) in *.
    assert (k <> 0) by (intros Z; apply N; rewrite Z; unfold Rdiv; rewrite Rinv_0; ring).
    field. auto.
  - intros i Hi. rewrite (delta_flow _ _ _ _ F Hi). unfold circuit_flow. rewrite sumn_zero; [ring|].
    intros j _. destruct (Nat.eqb i j); ring.
Qed.
End Delta.

(* ** Line source *)
Lemma sq_sqrt x y : sqrt (x ^ 2 + y ^ 2) ^ 2 = x ^ 2 + y ^ 2.
Proof. apply pow2_sqrt. pose proof (pow2_ge_0 x). pose proof (pow2_ge_0 y). lra. Qed.

Lemma line_source_sym a i j : line_source a i j = line_source a j i.
Proof.
  unfold line_source. rewrite (Nat.eqb_sym j i). destruct (Nat.eqb i j) eqn:E.
  - apply Nat.eqb_eq in E. subst. reflexivity.
  - cbv zeta. replace ((p_x a i - p_x a j) ^ 2 + (p_y a i - p_y a j) ^ 2)
      with ((p_x a j - p_x a i) ^ 2 + (p_y a j - p_y a i) ^ 2) by ring.
    rewrite (Rmult_comm (1 - sqrt (p_x a i ^ 2 + p_y a i ^ 2) ^ 2 / a_rb a ^ 2)). reflexivity.
Qed.

Lemma p_turned t a i : (i < length (a_pos a))%nat ->
  (p_x (turned t a) i, p_y (turned t a) i) = turn t (p_x a i, p_y a i).
Proof.
  intros Hi. unfold p_x, p_y, turned. cbn [a_pos]. rewrite (nth_indep _ (0, 0) (turn t (0, 0))) by (rewrite map_length; auto).
  rewrite map_nth. unfold turn. cbn. reflexivity.
Qed.

Lemma line_source_turned t a i j : (i < length (a_pos a))%nat -> (j < length (a_pos a))%nat ->
  line_source (turned t a) i j = line_source a i j.
Proof.
  intros Hi Hj. assert (Pi := p_turned t a i Hi). assert (Pj := p_turned t a j Hj).
  unfold turn in Pi, Pj. cbn [fst snd] in Pi, Pj. injection Pi as Xi Yi. injection Pj as Xj Yj.
  assert (C1 : cos t ^ 2 = 1 - sin t ^ 2) by (pose proof (sin2_cos2 t) as Q; unfold Rsqr in Q; lra).
  assert (N : forall x y, (cos t * x - sin t * y) ^ 2 + (sin t * x + cos t * y) ^ 2 = x ^ 2 + y ^ 2).
  { intros x y. transitivity ((cos t ^ 2 + sin t ^ 2) * (x ^ 2 + y ^ 2)); [ring|]. rewrite C1. ring. }
  unfold line_source, ls_sigma. rewrite Xi, Yi, Xj, Yj.
  change (a_rb (turned t a)) with (a_rb a). change (a_kg (turned t a)) with (a_kg a). change (a_ks (turned t a)) with (a_ks a).
  change (a_Rfp (turned t a)) with (a_Rfp a). change (a_rout (turned t a)) with (a_rout a).
  rewrite !N.
  replace ((cos t * p_x a i - sin t * p_y a i - (cos t * p_x a j - sin t * p_y a j)) ^ 2 +
           (sin t * p_x a i + cos t * p_y a i - (sin t * p_x a j + cos t * p_y a j)) ^ 2)
    with ((cos t * (p_x a i - p_x a j) - sin t * (p_y a i - p_y a j)) ^ 2 + (sin t * (p_x a i - p_x a j) + cos t * (p_y a i - p_y a j)) ^ 2) by ring.
  rewrite N. reflexivity.
Qed.

Lemma ln_inv_div x y : 0 < x -> 0 < y -> ln (x / y) = - ln (y / x).
Proof.
  intros Hx Hy. rewrite <- ln_Rinv by (apply Rdiv_lt_0_compat; auto). f_equal. field. split; lra.
Qed.

Lemma dist_pos a i j : inside a -> (i < length (a_pos a))%nat -> (j < length (a_pos a))%nat -> i <> j ->
  0 < (p_x a i - p_x a j) ^ 2 + (p_y a i - p_y a j) ^ 2.
Proof.
  intros (_ & _ & _ & D) Hi Hj N. specialize (D i j Hi Hj N).
  pose proof (pow2_ge_0 (p_x a i - p_x a j)) as A. pose proof (pow2_ge_0 (p_y a i - p_y a j)) as B.
  destruct (Rle_lt_or_eq_dec _ _ A) as [LA|EA]; [lra|]. destruct (Rle_lt_or_eq_dec _ _ B) as [LB|EB]; [lra|].
  exfalso. apply D. f_equal; nra.
Qed.

(* The modulus of r_b^2 - conj z_i z_j *)
Lemma cross_sq (rb xi yi xj yj : R) :
  (rb ^ 2 - (xi * xj + yi * yj)) ^ 2 + (xi * yj - yi * xj) ^ 2
  = (rb ^ 2 - (xi ^ 2 + yi ^ 2)) * (rb ^ 2 - (xj ^ 2 + yj ^ 2)) + rb ^ 2 * ((xi - xj) ^ 2 + (yi - yj) ^ 2).
Proof. ring. Qed.

Lemma line_source_R0 a i j : inside a -> (i < length (a_pos a))%nat -> (j < length (a_pos a))%nat ->
  line_source a i j = mpR0 (section_of a) i j.
Proof.
  intros I Hi Hj. pose proof I as (Rb & Kg & In & D). unfold line_source, mpR0. cbn [section_of s_rb s_z s_r s_Rfp].
  destruct (Nat.eqb i j) eqn:E.
  - apply Nat.eqb_eq in E. subst j. cbv zeta. rewrite sq_sqrt.
    unfold Cmod. fold (p_x a i) (p_y a i). rewrite sq_sqrt. specialize (In i Hi).
    unfold pikg, beta, sig, ls_sigma. cbn [section_of s_kg s_ks s_Rfp].
    set (s := p_x a i ^ 2 + p_y a i ^ 2) in *.
    replace (1 - s / a_rb a ^ 2) with ((a_rb a ^ 2 - s) / a_rb a ^ 2) by (field; lra).
    rewrite (ln_inv_div (a_rb a ^ 2) (a_rb a ^ 2 - s)) by nra.
    assert (0 < PI) by apply PI_RGT_0.
    generalize (ln (a_rb a / nth i (a_rout a) 0)) (ln ((a_rb a ^ 2 - s) / a_rb a ^ 2)) ((a_kg a - a_ks a) / (a_kg a + a_ks a)).
    intros A B G. field. split; lra.
  - apply Nat.eqb_neq in E. cbv zeta. rewrite !sq_sqrt.
    assert (P := dist_pos a i j I Hi Hj E). pose proof (In i Hi) as Ii. pose proof (In j Hj) as Ij.
    set (r2 := (p_x a i - p_x a j) ^ 2 + (p_y a i - p_y a j) ^ 2) in *.
    assert (M1 : Cmod (Cminus (nth i (a_pos a) (0, 0)) (nth j (a_pos a) (0, 0))) = sqrt r2).
    { unfold Cmod, Cminus, Cplus, Copp. cbn [fst snd]. reflexivity. }
    rewrite M1.
    assert (M2 : Cmod (Cminus (RtoC (a_rb a ^ 2)) (Cmult (Cconj (nth i (a_pos a) (0, 0))) (nth j (a_pos a) (0, 0))))
       = sqrt ((a_rb a ^ 2 - (p_x a i ^ 2 + p_y a i ^ 2)) * (a_rb a ^ 2 - (p_x a j ^ 2 + p_y a j ^ 2)) + a_rb a ^ 2 * r2)).
    { unfold Cmod. f_equal. unfold r2. rewrite <- cross_sq. unfold Cminus, Cplus, Copp, Cmult, Cconj, RtoC. cbn [fst snd].
      fold (p_x a i) (p_y a i) (p_x a j) (p_y a j). ring. }
    rewrite M2. set (w := (a_rb a ^ 2 - (p_x a i ^ 2 + p_y a i ^ 2)) * (a_rb a ^ 2 - (p_x a j ^ 2 + p_y a j ^ 2)) + a_rb a ^ 2 * r2) in *.
    assert (W : 0 < w).
    { unfold w. assert (0 < (a_rb a ^ 2 - (p_x a i ^ 2 + p_y a i ^ 2)) * (a_rb a ^ 2 - (p_x a j ^ 2 + p_y a j ^ 2)))
        by (apply Rmult_lt_0_compat; lra). assert (0 < a_rb a ^ 2 * r2) by (apply Rmult_lt_0_compat; nra). lra. }
    assert (X : (1 - (p_x a i ^ 2 + p_y a i ^ 2) / a_rb a ^ 2) * (1 - (p_x a j ^ 2 + p_y a j ^ 2) / a_rb a ^ 2) + r2 / a_rb a ^ 2
       = w / (a_rb a ^ 2) ^ 2) by (unfold w; field; lra).
    rewrite X. assert (0 < a_rb a ^ 2) by nra.
    rewrite sqrt_div by nra. rewrite (sqrt_pow2 (a_rb a ^ 2)) by lra.
    assert (0 < sqrt w) by (apply sqrt_lt_R0; auto). assert (0 < sqrt r2) by (apply sqrt_lt_R0; auto).
    rewrite (ln_inv_div (a_rb a) (sqrt r2)) by auto. rewrite (ln_inv_div (a_rb a ^ 2) (sqrt w)) by auto.
    unfold pikg, sig, ls_sigma. cbn [section_of s_kg s_ks].
    assert (0 < PI) by apply PI_RGT_0.
    generalize (ln (sqrt r2 / a_rb a)) (ln (sqrt w / a_rb a ^ 2)) ((a_kg a - a_ks a) / (a_kg a + a_ks a)).
    intros A B G. field. split; lra.
Qed.
