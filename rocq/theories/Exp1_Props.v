(** The formula of the exponential integral, for every positive argument: C152. *)
From Coq Require Import Reals Lra Lia List Bool Psatz.
From Coquelicot Require Import Coquelicot.
From Verif Require Import Base FLS_Model FLS_Spec FLS_Erf_Proofs FLS_Proofs FLS_Sol_Proofs Approx_Model Approx_Spec Approx_Table Approx_Int_Proofs Approx_Erf_Proofs Approx_Props Exp1_Model Exp1_Proofs.
Local Open Scope R_scope.

(** Within one hundredth of the integral it stands for. *)
Theorem C152_error : forall x, 0 < x -> Rabs (exp1 x - E1 x) <= E1 x / 100.
Proof. intros x Hx. pose proof (exp1_near x Hx). apply Rabs_le. lra. Qed.
Print Assumptions C152_error.

(** The logarithm is always that of a number above one, and the result is positive. *)
Theorem C152_positive : forall x, 0 < x -> 1 < e_arg x /\ 0 < exp1 x.
Proof. intros x Hx. split; [apply arg_above_1; auto|]. pose proof (exp1_near x Hx). pose proof (E1_pos x Hx). lra. Qed.
Print Assumptions C152_positive.

(** The approximate finite line source with the coefficients and the formula of the code. *)
Theorem C152_vertical : forall ab time alpha d H1 D1 H2 D2 rea img,
  erf_coeffs 10 = Some ab -> 0 < alpha -> 0 < time -> 0 < d -> 0 < H2 ->
  Rabs (fls_approx exp1 (fun x => 1 - erf x) ab time alpha d H1 D1 H2 D2 rea img - fls time alpha d H1 D1 H2 D2 rea img)
  <= 1101 / 50000 * E1 (d ^ 2 / (4 * alpha * time)) * ends rea img H1 D1 H2 D2 / (4 * H2).
Proof.
  intros ab time alpha d H1 D1 H2 D2 rea img E Ha Ht Hd HH. replace (1101 / 50000) with (/ 500 + / 100 * (2 + / 500)) by lra.
  apply C109_default; auto; [lra|]. intros x Hx. replace (/ 100 * E1 x) with (E1 x / 100) by lra. apply C152_error.
  eapply Rlt_le_trans; [|exact Hx]. apply Rdiv_lt_0_compat; [apply pow_lt; auto|repeat apply Rmult_lt_0_compat; lra].
Qed.
Print Assumptions C152_vertical.

Theorem C152_inclined : forall ab b1 b2 time alpha uw rea img,
  erf_coeffs 10 = Some ab -> 0 < alpha -> 0 < time -> 0 < b_r b1 -> 0 < b_H b1 -> 0 < b_H b2 -> off_walls uw b1 b2 rea img ->
  Rabs (fls_inclined_approx exp1 ab b1 b2 uw time alpha rea img - fls_inclined b1 b2 (rule uw) time alpha rea img)
  <= parts rea img * (1101 / 50000 * E1 (b_r b1 ^ 2 / (4 * alpha * time)))
     * Rsum (map (fun t => Rabs (snd t)) uw) * b_H b1 / (2 * b_H b2).
Proof.
  intros ab b1 b2 time alpha uw rea img E Ha Ht Hr HH1 HH2 W.
  assert (M : 0 < b_r b1 ^ 2 / (4 * alpha * time)) by (apply Rdiv_lt_0_compat; [apply pow_lt; auto|repeat apply Rmult_lt_0_compat; lra]).
  eapply Rle_trans.
  - apply (C110_inclined exp1 ab (/ 500) (/ 100)); auto.
    + apply List.Forall_forall. exact (coeffs_b 10 ab E).
    + apply within10; auto.
    + intros x Hx. replace (/ 100 * E1 x) with (E1 x / 100) by lra. apply C152_error. lra.
  - pose proof (E1_pos _ M) as P. pose proof (weight10 ab E) as Wt.
    assert (S0 : 0 <= Rsum (map (fun t => Rabs (snd t)) uw)).
    { clear. induction uw as [|t uw IH]; cbn; [lra|]. pose proof (Rabs_pos (snd t)). lra. }
    assert (N : 0 <= parts rea img) by (unfold parts; destruct rea, img; lra).
    unfold Rdiv. apply Rmult_le_compat_r; [left; apply Rinv_0_lt_compat; lra|]. apply Rmult_le_compat_r; [lra|].
    apply Rmult_le_compat_r; auto. apply Rmult_le_compat_l; auto. apply Rmult_le_compat_r; lra.
Qed.
Print Assumptions C152_inclined.

(** An argument of one, and two boreholes 5 m apart after four weeks. *)
Example C152_one : Rabs (exp1 1 - E1 1) <= E1 1 / 100.
Proof. apply C152_error. lra. Qed.

Example C152_example : exists ab, erf_coeffs 10 = Some ab /\
  Rabs (fls_approx exp1 (fun x => 1 - erf x) ab 2419200 (/ 1000000) 5 150 4 150 4 true true - fls 2419200 (/ 1000000) 5 150 4 150 4 true true)
  <= 1101 / 50000 * E1 (5 ^ 2 / (4 * / 1000000 * 2419200)) * ends true true 150 4 150 4 / (4 * 150).
Proof. eexists. split; [reflexivity|]. apply C152_vertical; try reflexivity; lra. Qed.
