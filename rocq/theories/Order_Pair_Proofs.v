(* Two boreholes, one segment each, in parallel at different flows or in series. *)
From Coq Require Import String Reals Lra Lia List Bool Psatz.
From Verif Require Import Base LinAlg FLS_Model.
Import ListNotations.
Local Open Scope R_scope.

(* In parallel with conductances k0 and k1 *)
Lemma parallel_pair kap k0 k1 s c tin q0 q1 : 0 < kap -> 0 < k0 -> 0 < k1 -> c < s -> k0 <> k1 ->
  kap * q0 = k0 * (tin - (s * q0 + c * q1)) -> kap * q1 = k1 * (tin - (c * q0 + s * q1)) -> q0 + q1 = 2 ->
  s + c < tin - kap * 2 / (k0 + k1).
Proof.
  intros Kp P0 P1 Sc Ne E0 E1 Sm. set (r0 := kap / k0). set (r1 := kap / k1).
  assert (R0 : 0 < r0) by (apply Rdiv_lt_0_compat; auto). assert (R1 : 0 < r1) by (apply Rdiv_lt_0_compat; auto).
  assert (T0 : tin = s * q0 + c * q1 + r0 * q0).
  { apply (Rmult_eq_reg_l k0); [|lra]. replace (k0 * (s * q0 + c * q1 + r0 * q0)) with (k0 * (s * q0 + c * q1) + kap * q0) by (unfold r0; field; lra). rewrite E0. ring. }
  assert (T1 : tin = c * q0 + s * q1 + r1 * q1).
  { apply (Rmult_eq_reg_l k1); [|lra]. replace (k1 * (c * q0 + s * q1 + r1 * q1)) with (k1 * (c * q0 + s * q1) + kap * q1) by (unfold r1; field; lra). rewrite E1. ring. }
  assert (Nr : r1 - r0 <> 0).
  { intros X. apply Ne. assert (Er : r0 = r1) by lra. unfold r0, r1 in Er. apply (Rmult_eq_compat_r (k0 * k1 / kap)) in Er.
    replace (kap / k0 * (k0 * k1 / kap)) with k1 in Er by (field; lra). replace (kap / k1 * (k0 * k1 / kap)) with k0 in Er by (field; lra). lra. }
  assert (Dr : kap * 2 / (k0 + k1) = 2 * r0 * r1 / (r0 + r1)) by (unfold r0, r1; field; repeat split; try lra; nra).
  rewrite Dr. clearbody r0 r1. clear E0 E1 Dr Ne. set (d := s - c). assert (Dp : 0 < d) by (unfold d; lra).
  set (S := r0 + r1). set (D := r1 - r0). assert (Sp : 0 < S) by (unfold S; lra).
  assert (Eq : q0 = 1 + D / (2 * d + S)).
  { apply (Rmult_eq_reg_r (2 * d + S)); [|lra]. replace ((1 + D / (2 * d + S)) * (2 * d + S)) with (2 * d + S + D) by (field; lra).
    assert (q1 = 2 - q0) by lra. subst q1. unfold d, S, D. lra. }
  assert (Ev : tin - 2 * r0 * r1 / (r0 + r1) = s + c + D ^ 2 / 2 * (2 * d / (S * (2 * d + S)))).
  { rewrite T0, Eq. replace q1 with (1 - D / (2 * d + S)) by lra. unfold D, S, d. field. split; unfold d, S in *; lra. }
  change (s + c < tin - 2 * r0 * r1 / (r0 + r1)). rewrite Ev. assert (0 < D ^ 2) by (destruct (Rdichotomy _ _ Nr); unfold D in *; nra).
  assert (0 < 2 * d / (S * (2 * d + S))) by (apply Rdiv_lt_0_compat; [lra|apply Rmult_lt_0_compat; lra]). nra.
Qed.

(* In series with capacity M and outlet share a *)
Lemma series_pair kap M a s c tin q0 q1 : 0 < kap -> 0 < M -> -1 < a < 1 -> c < s ->
  kap * q0 = M * (1 - a) * (tin - (s * q0 + c * q1)) ->
  kap * q1 = M * (1 - a) * (a * tin + (1 - a) * (s * q0 + c * q1) - (c * q0 + s * q1)) -> q0 + q1 = 2 ->
  tin - kap * 2 / (M * (1 - a ^ 2)) < s + c.
Proof.
  intros Kp Mp A Sc E0 E1 Sm. set (r := kap / (M * (1 - a))). assert (Kq : 0 < M * (1 - a)) by (apply Rmult_lt_0_compat; lra).
  assert (Rp : 0 < r) by (apply Rdiv_lt_0_compat; auto). assert (Ek : kap = r * (M * (1 - a))) by (unfold r; field; lra).
  assert (T0 : r * q0 = tin - (s * q0 + c * q1)) by (apply (Rmult_eq_reg_l (M * (1 - a))); [rewrite Ek in E0; lra|lra]).
  assert (T1 : r * q1 = a * tin + (1 - a) * (s * q0 + c * q1) - (c * q0 + s * q1)) by (apply (Rmult_eq_reg_l (M * (1 - a))); [rewrite Ek in E1; lra|lra]).
  replace (kap * 2 / (M * (1 - a ^ 2))) with (2 * r / (1 + a)) by (rewrite Ek; field; repeat split; nra).
  clear E0 E1 Ek. clearbody r. set (d := s - c). assert (Dp : 0 < d) by (unfold d; lra).
  assert (Eq1 : q1 = 2 - q0) by lra. subst q1.
  (* q0 - q1 = 2 dl *)
  set (dl := r * (1 - a) / (2 * d + r * (1 + a))). assert (Pd : 0 < 2 * d + r * (1 + a)) by (assert (0 < r * (1 + a)) by (apply Rmult_lt_0_compat; lra); lra).
  assert (Dl : 0 < dl) by (apply Rdiv_lt_0_compat; [apply Rmult_lt_0_compat; lra|exact Pd]).
  assert (Eq : q0 = 1 + dl).
  { apply (Rmult_eq_reg_r (2 * d + r * (1 + a))); [|lra]. replace ((1 + dl) * (2 * d + r * (1 + a))) with (2 * d + r * (1 + a) + r * (1 - a)) by (unfold dl; field; lra).
    assert (Et : tin = s * q0 + c * (2 - q0) + r * q0) by lra. rewrite Et in T1. unfold d. lra. }
  assert (Ev : tin - 2 * r / (1 + a) = s + c - d * dl * (1 - a) / (1 + a)).
  { assert (Et : tin = s * q0 + c * (2 - q0) + r * q0) by lra. rewrite Et, Eq. unfold dl, d. field. split; unfold d in *; lra. }
  rewrite Ev. assert (0 < d * dl * (1 - a) / (1 + a)); [|lra]. apply Rdiv_lt_0_compat; [|lra]. apply Rmult_lt_0_compat; [apply Rmult_lt_0_compat; auto|lra].
Qed.
