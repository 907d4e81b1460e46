(** The approximation of the finite line source solution, the coefficients it uses and the
    calls for lists of boreholes: C109 - C113. *)
From Coq Require Import Reals Lra Lia List Bool Psatz.
From Coquelicot Require Import Coquelicot.
From Verif Require Import Base FLS_Model FLS_Spec FLS_Erf_Proofs FLS_Proofs FLS_Sol_Proofs.
From Verif Require Import Approx_Model Approx_Spec Approx_Table Approx_Int_Proofs Approx_Proofs Approx_Incl_Proofs Approx_Erf_Proofs Approx_List_Proofs.
Local Open Scope R_scope.

(** * C109 *)

(** Any coefficients, any formula of the exponential integral. *)
Theorem C109_vertical : forall exp1 ab eps delta time alpha d H1 D1 H2 D2 rea img,
  0 < alpha -> 0 < time -> 0 < d -> 0 < H2 -> (forall c, In c ab -> 0 <= snd c) ->
  erf_within ab eps -> E1_within exp1 (d ^ 2 / (4 * alpha * time)) delta ->
  Rabs (fls_approx exp1 (fun x => 1 - erf x) ab time alpha d H1 D1 H2 D2 rea img - fls time alpha d H1 D1 H2 D2 rea img)
  <= (eps + delta * weight ab) * E1 (d ^ 2 / (4 * alpha * time)) * ends rea img H1 D1 H2 D2 / (4 * H2).
Proof. exact approx_near. Qed.
Print Assumptions C109_vertical.

(** The default coefficients of the code. *)
Theorem C109_default : forall exp1 ab delta time alpha d H1 D1 H2 D2 rea img,
  erf_coeffs 10 = Some ab -> 0 <= delta -> 0 < alpha -> 0 < time -> 0 < d -> 0 < H2 ->
  E1_within exp1 (d ^ 2 / (4 * alpha * time)) delta ->
  Rabs (fls_approx exp1 (fun x => 1 - erf x) ab time alpha d H1 D1 H2 D2 rea img - fls time alpha d H1 D1 H2 D2 rea img)
  <= (/ 500 + delta * (2 + / 500)) * E1 (d ^ 2 / (4 * alpha * time)) * ends rea img H1 D1 H2 D2 / (4 * H2).
Proof.
  intros exp1 ab delta time alpha d H1 D1 H2 D2 rea img E Dl Ha Ht Hd HH W.
  assert (B : forall c, In c ab -> 0 <= snd c) by (apply List.Forall_forall; exact (coeffs_b 10 ab E)).
  eapply Rle_trans; [exact (approx_near exp1 ab (/ 500) delta time alpha d H1 D1 H2 D2 rea img Ha Ht Hd HH B (within10 ab E) W)|].
  assert (M : 0 < d ^ 2 / (4 * alpha * time)) by (apply Rdiv_lt_0_compat; [apply pow_lt; auto|repeat apply Rmult_lt_0_compat; lra]).
  pose proof (E1_pos _ M) as P. assert (N : 0 <= ends rea img H1 D1 H2 D2) by (unfold ends; destruct rea, img; repeat apply Rplus_le_le_0_compat; try apply Rabs_pos; lra).
  unfold Rdiv. apply Rmult_le_compat_r; [left; apply Rinv_0_lt_compat; lra|]. apply Rmult_le_compat_r; auto. apply Rmult_le_compat_r; [lra|].
  apply Rplus_le_compat_l. apply Rmult_le_compat_l; auto. apply weight10; auto.
Qed.
Print Assumptions C109_default.

(** Four weeks, two boreholes 5 m apart, the exponential integral itself. *)
Example C109_example : exists ab, erf_coeffs 10 = Some ab /\
  Rabs (fls_approx E1 (fun x => 1 - erf x) ab 2419200 (/ 1000000) 5 150 4 150 4 true true - fls 2419200 (/ 1000000) 5 150 4 150 4 true true)
  <= (/ 500 + 0 * (2 + / 500)) * E1 (5 ^ 2 / (4 * / 1000000 * 2419200)) * ends true true 150 4 150 4 / (4 * 150).
Proof.
  eexists. split; [reflexivity|]. apply C109_default; try reflexivity; try lra.
  intros x Hx. rewrite Rminus_eq_0, Rabs_R0. lra.
Qed.

(** * C110 *)

Theorem C110_inclined : forall exp1 ab eps delta b1 b2 time alpha uw rea img,
  0 < alpha -> 0 < time -> 0 < b_r b1 -> 0 < b_H b1 -> 0 < b_H b2 -> (forall c, In c ab -> 0 <= snd c) ->
  erf_within ab eps -> E1_within exp1 (b_r b1 ^ 2 / (4 * alpha * time)) delta -> off_walls uw b1 b2 rea img ->
  Rabs (fls_inclined_approx exp1 ab b1 b2 uw time alpha rea img - fls_inclined b1 b2 (rule uw) time alpha rea img)
  <= parts rea img * ((eps + delta * weight ab) * E1 (b_r b1 ^ 2 / (4 * alpha * time)))
     * Rsum (map (fun t => Rabs (snd t)) uw) * b_H b1 / (2 * b_H b2).
Proof. intros. apply incl_near; auto. Qed.
Print Assumptions C110_inclined.

(** A vertical and an inclined borehole, any rule. *)
Definition ap_b1 : bh := mkbh 150 4 (/ 10) 0 0 0 0.
Definition ap_b2 : bh := mkbh 150 4 (/ 10) 5 0 (PI / 6) (PI / 2).

Example C110_example : forall uw, exists ab, erf_coeffs 10 = Some ab /\
  Rabs (fls_inclined_approx E1 ab ap_b1 ap_b2 uw 2419200 (/ 1000000) true true - fls_inclined ap_b1 ap_b2 (rule uw) 2419200 (/ 1000000) true true)
  <= parts true true * ((/ 500 + 0 * weight ab) * E1 (b_r ap_b1 ^ 2 / (4 * / 1000000 * 2419200)))
     * Rsum (map (fun t => Rabs (snd t)) uw) * b_H ap_b1 / (2 * b_H ap_b2).
Proof.
  intros uw. eexists. split; [reflexivity|]. apply C110_inclined; cbn [b_r b_H ap_b1 ap_b2]; try lra.
  - apply List.Forall_forall. apply (coeffs_b 10). reflexivity.
  - apply within10. reflexivity.
  - intros x Hx. rewrite Rminus_eq_0, Rabs_R0. lra.
  - assert (W : wall_excess ap_b1 ap_b2 = 0).
    { unfold wall_excess. cbn. unfold Rmax. destruct (Rle_dec _ _); lra. }
    assert (P : forall im u v, b_r ap_b1 ^ 2 <= dist2 (node_point ap_b1 im u) (point ap_b2 v)).
    { intros im u v. unfold node_point, point, mirror, dist2.
      destruct im; cbn [fst snd b_x b_y b_D b_r b_tilt b_ori b_H ap_b1 ap_b2]; rewrite cos_PI2, sin_0;
        (match goal with |- _ <= ?x + ?y ^ 2 + ?z ^ 2 => replace x with 25 by ring; pose proof (pow2_ge_0 y); pose proof (pow2_ge_0 z) end); lra. }
    intros c _. split; intros _; left; (split; [rewrite ?W; auto|]); intros v; apply P.
Qed.

(** * C111 *)

Theorem C111_parts : forall exp1 ab b1 b2 uw time alpha,
  fls_inclined_approx exp1 ab b1 b2 uw time alpha true true
  = fls_inclined_approx exp1 ab b1 b2 uw time alpha true false + fls_inclined_approx exp1 ab b1 b2 uw time alpha false true.
Proof. exact incl_parts_approx. Qed.
Print Assumptions C111_parts.

Theorem C111_receiver : forall exp1 ab b1 b2 uw time alpha rea img hs, b_H b2 = Rsum hs -> Rsum hs <> 0 -> (forall h, In h hs -> h <> 0) ->
  b_H b2 * fls_inclined_approx exp1 ab b1 b2 uw time alpha rea img
  = Rsum (map (fun c => snd c * fls_inclined_approx exp1 ab b1 (part b2 c) uw time alpha rea img) (split_at 0 hs)).
Proof. exact split_inclined_approx. Qed.
Print Assumptions C111_receiver.

Theorem C111_scaling : forall l exp1 ab b1 b2 uw time alpha rea img, 0 < l -> 0 < alpha -> 0 < time -> b_H b2 <> 0 ->
  fls_inclined_approx exp1 ab (scaled l b1) (scaled l b2) uw (l ^ 2 * time) alpha rea img
  = fls_inclined_approx exp1 ab b1 b2 uw time alpha rea img.
Proof. exact scaled_approx. Qed.
Print Assumptions C111_scaling.

Theorem C111_scaling_vertical : forall l exp1 erfc ab time alpha dis H1 D1 H2 D2 rea img, 0 < l -> 0 < alpha -> 0 < time ->
  fls_approx exp1 erfc ab (l ^ 2 * time) alpha (l * dis) (l * H1) (l * D1) (l * H2) (l * D2) rea img
  = fls_approx exp1 erfc ab time alpha dis H1 D1 H2 D2 rea img.
Proof. exact scaled_vertical_approx. Qed.
Print Assumptions C111_scaling_vertical.

Example C111_example : forall exp1 ab uw,
  150 * fls_inclined_approx exp1 ab ap_b1 ap_b2 uw 2419200 (/ 1000000) true true
  = 50 * fls_inclined_approx exp1 ab ap_b1 (part ap_b2 (0, 50)) uw 2419200 (/ 1000000) true true
    + (100 * fls_inclined_approx exp1 ab ap_b1 (part ap_b2 (0 + 50, 100)) uw 2419200 (/ 1000000) true true + 0).
Proof.
  intros. apply (C111_receiver exp1 ab ap_b1 ap_b2 uw 2419200 (/ 1000000) true true (50 :: 100 :: nil)); cbn; try lra.
  intros h [<-|[<-|[]]]; lra.
Qed.

(** * C112 *)

Theorem C112_default : forall ab, erf_coeffs 10 = Some ab -> forall x, 0 <= x ->
  Rabs (Rsum (map (fun c => fst c * exp (- snd c * x ^ 2)) ab) - erf x) <= / 500.
Proof. exact within10. Qed.
Print Assumptions C112_default.

Theorem C112_all : forall N ab, erf_coeffs N = Some ab -> forall x, 0 <= x ->
  Rabs (Rsum (map (fun c => fst c * exp (- snd c * x ^ 2)) ab) - erf x) <= / 8.
Proof. exact within_all. Qed.
Print Assumptions C112_all.

(** Every sum increases and stays below one. *)
Theorem C112_increasing : forall N ab x y, erf_coeffs N = Some ab -> 0 <= x -> x <= y -> exp_sum ab x <= exp_sum ab y <= 1.
Proof. exact coeffs_incr. Qed.
Print Assumptions C112_increasing.

(** The sum for N has N + 1 exponentials beside the constant. *)
Theorem C112_terms : forall N, (N < 25)%nat -> exists ab, erf_coeffs N = Some ab /\ length ab = (N + 2)%nat.
Proof. exact coeffs_some. Qed.
Print Assumptions C112_terms.

(** The largest number in the documentation is 25. *)
Theorem C112_maximum_refuted : exists N, (N <= 25)%nat /\ erf_coeffs N = None.
Proof. exists 25%nat. split; [lia|reflexivity]. Qed.
Print Assumptions C112_maximum_refuted.

Example C112_example : exists ab, erf_coeffs 10 = Some ab /\ length ab = 12%nat /\
  Rabs (Rsum (map (fun c => fst c * exp (- snd c * (3/2) ^ 2)) ab) - erf (3/2)) <= / 500.
Proof. eexists. split; [reflexivity|]. split; [reflexivity|]. apply C112_default; [reflexivity|lra]. Qed.

(** * C113 *)

(** All boreholes vertical. *)
Theorem C113_vertical : forall exp1 erfc al uw ab time alpha rea img a1 a2,
  (forall b, In b (as_list a1) -> is_vertical b = true) -> (forall b, In b (as_list a2) -> is_vertical b = true) ->
  finite_line_source exp1 erfc al uw ab time alpha rea img a1 a2
  = pairwise (fun b1 b2 => hd nil (hd nil (finite_line_source exp1 erfc al uw ab time alpha rea img (One b1) (One b2)))) (as_list a1) (as_list a2).
Proof. intros. apply call_lists. intros l1 l2 -> ->. apply lists_vertical; auto. Qed.
Print Assumptions C113_vertical.

(** An inclined borehole in every pair. *)
Theorem C113_inclined : forall exp1 erfc al uw ab time alpha rea img a1 a2,
  (forall b1 b2, In b1 (as_list a1) -> In b2 (as_list a2) -> is_vertical b1 = false \/ is_vertical b2 = false) ->
  finite_line_source exp1 erfc al uw ab time alpha rea img a1 a2
  = pairwise (fun b1 b2 => hd nil (hd nil (finite_line_source exp1 erfc al uw ab time alpha rea img (One b1) (One b2)))) (as_list a1) (as_list a2).
Proof.
  intros exp1 erfc al uw ab time alpha rea img a1 a2 H. apply call_lists. intros l1 l2 -> ->. apply lists_mixed.
  intros b1 b2 I1 I2 V1 V2. destruct (H b1 b2 I1 I2); congruence.
Qed.
Print Assumptions C113_inclined.

(** Vertical and inclined boreholes in the same lists, exact integrals along the emitting
    boreholes, no approximation. *)
Theorem C113_mixed : forall exp1 erfc uw time alpha rea img a1 a2,
  0 < alpha -> positive_times time ->
  (forall b, In b (as_list a1) \/ In b (as_list a2) -> 0 < b_r b /\ 0 < b_H b /\ (is_vertical b = true -> upright b)) ->
  (rea = false \/ time = Forever /\ img = true ->
     forall b1 b2, In b1 (as_list a1) -> In b2 (as_list a2) -> upright b1 -> upright b2 -> apart b1 b2) ->
  finite_line_source exp1 erfc exact uw None time alpha rea img a1 a2
  = pairwise (fun b1 b2 => hd nil (hd nil (finite_line_source exp1 erfc exact uw None time alpha rea img (One b1) (One b2)))) (as_list a1) (as_list a2).
Proof.
  intros exp1 erfc uw time alpha rea img a1 a2 Ha Ht P A. apply call_lists. intros l1 l2 -> ->. apply lists_mixed.
  intros b1 b2 I1 I2 V1 V2. destruct (P b1 (or_introl I1)) as (R1 & _ & U1). destruct (P b2 (or_intror I2)) as (_ & H2 & U2).
  apply formulas_agree; auto.
Qed.
Print Assumptions C113_mixed.

(** The steady state with images: the value of a vertical borehole on itself changes when an
    inclined borehole is in the list. *)
Theorem C113_steady_self_refuted : forall exp1 erfc uw ab alpha b t, upright b -> 0 < b_r b -> 0 < b_H b -> 0 < b_D b -> is_vertical t = false ->
  exists v w row rest,
    finite_line_source exp1 erfc exact uw ab Forever alpha true true (Many (b :: t :: nil)) (Many (b :: t :: nil)) = ((v :: nil) :: row) :: rest
    /\ finite_line_source exp1 erfc exact uw ab Forever alpha true true (One b) (One b) = ((w :: nil) :: nil) :: nil
    /\ v < w.
Proof.
  intros exp1 erfc uw ab alpha b t U Hr HH HD T. destruct (self_steady exp1 erfc uw ab alpha b U Hr HH HD) as (v & w & E1 & E2 & L).
  assert (V : is_vertical b = true). { unfold is_vertical. rewrite U, Rabs_R0. destruct (Rlt_dec (/ 1000000) 0); [lra|auto]. }
  eexists v, w, _, _. split; [|split; [|exact L]].
  - cbn [finite_line_source as_list fls_lists]. unfold fls_lists. cbn [forallb]. rewrite T, andb_false_r. cbn [andb map]. rewrite andb_false_r || idtac. cbn [map]. rewrite E1. reflexivity.
  - cbn [finite_line_source]. unfold fls_pair. rewrite V. cbn [andb]. rewrite E2. reflexivity.
Qed.
Print Assumptions C113_steady_self_refuted.

Lemma ap_b2_inclined : is_vertical ap_b2 = false.
Proof.
  unfold is_vertical. cbn. pose proof PI_RGT_0. pose proof PI2_1. rewrite Rabs_right by lra. destruct (Rlt_dec (/ 1000000) (PI / 6)); [auto|]. unfold PI2 in *. lra.
Qed.

Example C113_example : forall exp1 erfc uw,
  finite_line_source exp1 erfc exact uw None (At 2419200) (/ 1000000) true true (Many (ap_b1 :: ap_b2 :: nil)) (One ap_b1)
  = ((hd nil (hd nil (finite_line_source exp1 erfc exact uw None (At 2419200) (/ 1000000) true true (One ap_b1) (One ap_b1))))
     :: (hd nil (hd nil (finite_line_source exp1 erfc exact uw None (At 2419200) (/ 1000000) true true (One ap_b2) (One ap_b1)))) :: nil) :: nil.
Proof.
  intros. apply (C113_mixed exp1 erfc uw (At 2419200) (/ 1000000) true true (Many (ap_b1 :: ap_b2 :: nil)) (One ap_b1)); cbn [positive_times]; try lra.
  - intros b [I|I]; cbn in I; (destruct I as [<-|I]; [cbn; repeat split; lra|]); [|contradiction]. destruct I as [<-|[]].
    split; [cbn; lra|]. split; [cbn; lra|]. rewrite ap_b2_inclined. discriminate.
  - intros [D|[D _]]; discriminate D.
Qed.

Example C113_steady_example : exists v w row rest,
  finite_line_source E1 (fun x => 1 - erf x) exact nil None Forever 1 true true (Many (ap_b1 :: ap_b2 :: nil)) (Many (ap_b1 :: ap_b2 :: nil)) = ((v :: nil) :: row) :: rest
  /\ finite_line_source E1 (fun x => 1 - erf x) exact nil None Forever 1 true true (One ap_b1) (One ap_b1) = ((w :: nil) :: nil) :: nil
  /\ v < w.
Proof. apply C113_steady_self_refuted; cbn; try lra; [reflexivity|apply ap_b2_inclined]. Qed.
