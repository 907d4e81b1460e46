(* Two pipes that fit in the borehole form a passive circuit (line source). *)
From Coq Require Import Reals Lra Lia List Bool ZArith Psatz.
From Verif Require Import Base LinAlg LinInv Bore_Model Net_Model Pipe_Model Pipe_Spec Res_Model Res_Spec Res_Proofs.
From Coquelicot Require Import Coquelicot.
Import ListNotations.
Local Open Scope R_scope.

Lemma ln_le_of x y : 0 < x -> x <= y -> ln x <= ln y.
Proof. intros Hx [L|E]; [left; apply ln_increasing; auto|subst; right; reflexivity]. Qed.

Lemma ln_div x y : 0 < x -> 0 < y -> ln (x / y) = ln x - ln y.
Proof. intros Hx Hy. unfold Rdiv. rewrite ln_mult by (auto; apply Rinv_0_lt_compat; auto). rewrite ln_Rinv by auto. ring. Qed.

Lemma le_sq x y : 0 <= y -> x ^ 2 <= y ^ 2 -> x <= y.
Proof. intros Hy H. destruct (Rle_lt_dec x y) as [L|G]; [exact L|]. exfalso. nra. Qed.

Section Two.
Variables (rb ro a b d w : R).
Hypothesis (Ro : 0 < ro) (Ha : 0 <= a) (Hb : 0 <= b) (Fa : a + ro <= rb) (Fb : b + ro <= rb)
  (Hd : 2 * ro <= d) (T1 : d <= a + b) (T2 : a <= b + d) (T3 : b <= a + d)
  (Hw : 0 <= w) (W : w ^ 2 = (rb ^ 2 - a ^ 2) * (rb ^ 2 - b ^ 2) + rb ^ 2 * d ^ 2).

Lemma ca_pos : 0 < rb ^ 2 - a ^ 2. Proof. nra. Qed.
Lemma cb_pos : 0 < rb ^ 2 - b ^ 2. Proof. nra. Qed.

Lemma w_ge : rb ^ 2 - a * b <= w.
Proof.
  apply le_sq; [exact Hw|]. rewrite W.
  assert (E : (rb ^ 2 - a ^ 2) * (rb ^ 2 - b ^ 2) + rb ^ 2 * d ^ 2 - (rb ^ 2 - a * b) ^ 2
     = rb ^ 2 * ((d - (a - b)) * (d + (a - b)))) by ring.
  assert (0 <= rb ^ 2 * ((d - (a - b)) * (d + (a - b)))); [|lra].
  apply Rmult_le_pos; [nra|]. apply Rmult_le_pos; lra.
Qed.

Lemma w_le : w <= rb ^ 2 + a * b.
Proof.
  apply le_sq; [nra|]. rewrite W.
  assert (E : (rb ^ 2 + a * b) ^ 2 - ((rb ^ 2 - a ^ 2) * (rb ^ 2 - b ^ 2) + rb ^ 2 * d ^ 2)
     = rb ^ 2 * ((a + b - d) * (a + b + d))) by ring.
  assert (0 <= rb ^ 2 * ((a + b - d) * (a + b + d))); [|lra].
  apply Rmult_le_pos; [nra|]. apply Rmult_le_pos; lra.
Qed.

Lemma w_le2 : w <= rb ^ 2 - a ^ 2 + a * d.
Proof.
  pose proof ca_pos. apply le_sq; [nra|]. rewrite W.
  assert (E : (rb ^ 2 - a ^ 2 + a * d) ^ 2 - ((rb ^ 2 - a ^ 2) * (rb ^ 2 - b ^ 2) + rb ^ 2 * d ^ 2)
     = (rb ^ 2 - a ^ 2) * ((b - (a - d)) * (b + (a - d)))) by ring.
  assert (0 <= (rb ^ 2 - a ^ 2) * ((b - (a - d)) * (b + (a - d)))); [|lra].
  apply Rmult_le_pos; [lra|]. apply Rmult_le_pos; lra.
Qed.

Lemma w_ge2 : rb * d <= w.
Proof.
  pose proof ca_pos. pose proof cb_pos. apply le_sq; [exact Hw|]. rewrite W.
  assert (0 <= (rb ^ 2 - a ^ 2) * (rb ^ 2 - b ^ 2)) by (apply Rmult_le_pos; lra).
  replace ((rb * d) ^ 2) with (rb ^ 2 * d ^ 2) by ring. lra.
Qed.

Lemma w_pos : 0 < w. Proof. pose proof w_ge2. nra. Qed.

Lemma m1 : ro * (rb ^ 2 - a ^ 2) <= d * w.
Proof.
  pose proof w_ge. pose proof ca_pos.
  assert (rb ^ 2 - a ^ 2 <= 2 * w).
  { assert (0 <= (rb - a) ^ 2) by apply pow2_ge_0. assert (a * b <= a * rb) by (apply Rmult_le_compat_l; lra). nra. }
  assert (ro * (rb ^ 2 - a ^ 2) <= ro * (2 * w)) by (apply Rmult_le_compat_l; lra).
  assert (2 * ro * w <= d * w) by (apply Rmult_le_compat_r; lra). lra.
Qed.

Lemma m2 : d * w * (ro * (rb ^ 2 - a ^ 2)) <= rb ^ 6.
Proof.
  pose proof w_le. pose proof ca_pos. pose proof w_pos.
  assert (D : d <= 2 * (rb - ro)) by lra.
  assert (W2 : w <= 2 * rb ^ 2) by (assert (a * b <= rb * rb) by (apply Rmult_le_compat; lra); nra).
  assert (A : ro * (rb ^ 2 - a ^ 2) <= ro * rb ^ 2) by (apply Rmult_le_compat_l; nra).
  assert (DW : d * w <= 2 * (rb - ro) * (2 * rb ^ 2)) by (apply Rmult_le_compat; lra).
  assert (P : d * w * (ro * (rb ^ 2 - a ^ 2)) <= 2 * (rb - ro) * (2 * rb ^ 2) * (ro * rb ^ 2)).
  { apply Rmult_le_compat; try lra; nra. }
  assert (Q : 0 <= (rb - 2 * ro) ^ 2 * rb ^ 4) by (apply Rmult_le_pos; [apply pow2_ge_0|]; assert (0 < rb) by lra; left; apply pow_lt; auto).
  replace (2 * (rb - ro) * (2 * rb ^ 2) * (ro * rb ^ 2)) with (rb ^ 6 - (rb - 2 * ro) ^ 2 * rb ^ 4) in P by ring. lra.
Qed.

Lemma m3 : w * ro <= d * (rb ^ 2 - a ^ 2).
Proof.
  pose proof w_le2. pose proof ca_pos.
  assert (w * ro <= (rb ^ 2 - a ^ 2 + a * d) * ro) by (apply Rmult_le_compat_r; lra).
  assert (A : 2 * ro * a <= rb ^ 2 - a ^ 2) by nra.
  assert (B : d * (2 * ro * a) <= d * (rb ^ 2 - a ^ 2)) by (apply Rmult_le_compat_l; lra).
  assert (C : 2 * ro * (rb ^ 2 - a ^ 2) <= d * (rb ^ 2 - a ^ 2)) by (apply Rmult_le_compat_r; lra).
  nra.
Qed.

Let P11 := ln (rb / ro) + ln (rb ^ 2 / (rb ^ 2 - a ^ 2)).
Let P12 := ln (rb / d) + ln (rb ^ 2 / w).
Let Q11 := ln (rb / ro) - ln (rb ^ 2 / (rb ^ 2 - a ^ 2)).
Let Q12 := ln (rb / d) - ln (rb ^ 2 / w).

Lemma bounds : Rabs P12 <= P11 /\ Rabs Q12 <= Q11.
Proof.
  pose proof ca_pos as Ca. pose proof w_pos as Wp. assert (Rb : 0 < rb) by lra. assert (Dp : 0 < d) by lra.
  assert (R2 : 0 < rb ^ 2) by (apply pow_lt; auto).
  assert (L2 : ln (rb ^ 2) = 2 * ln rb) by (cbn [pow]; rewrite Rmult_1_r, ln_mult by auto; ring).
  unfold P11, P12, Q11, Q12. rewrite !ln_div, L2 by auto.
  assert (Xp : 0 < d * w) by (apply Rmult_lt_0_compat; auto). assert (Yp : 0 < ro * (rb ^ 2 - a ^ 2)) by (apply Rmult_lt_0_compat; auto).
  assert (M1 : ln (ro * (rb ^ 2 - a ^ 2)) <= ln (d * w)) by (apply ln_le_of; [exact Yp|exact m1]).
  assert (M2 : ln (d * w * (ro * (rb ^ 2 - a ^ 2))) <= ln (rb ^ 6)) by (apply ln_le_of; [apply Rmult_lt_0_compat; auto|exact m2]).
  assert (M3 : ln (w * ro) <= ln (d * (rb ^ 2 - a ^ 2))) by (apply ln_le_of; [apply Rmult_lt_0_compat; auto|exact m3]).
  assert (M4 : ln (rb * d) <= ln w) by (apply ln_le_of; [apply Rmult_lt_0_compat; auto|exact w_ge2]).
  assert (M5 : ln (ro * rb) <= ln (rb ^ 2 - a ^ 2)) by (apply ln_le_of; nra).
  assert (L6 : ln (rb ^ 6) = 6 * ln rb).
  { replace (rb ^ 6) with (rb ^ 2 * (rb ^ 2 * rb ^ 2)) by ring. rewrite !ln_mult by (auto; apply Rmult_lt_0_compat; auto). lra. }
  rewrite L6 in M2.
  rewrite (ln_mult (d * w)) in M2 by auto.
  rewrite (ln_mult d w) in M1, M2 by auto. rewrite (ln_mult ro (rb ^ 2 - a ^ 2)) in M1, M2 by auto.
  rewrite (ln_mult w ro), (ln_mult d (rb ^ 2 - a ^ 2)) in M3 by auto. rewrite ln_mult in M4 by auto. rewrite ln_mult in M5 by auto.
  split; apply Rabs_le; split; lra.
Qed.
End Two.

Lemma norm_sq x y : 0 <= sqrt (x ^ 2 + y ^ 2) /\ sqrt (x ^ 2 + y ^ 2) ^ 2 = x ^ 2 + y ^ 2.
Proof. split; [apply sqrt_pos|apply sq_sqrt]. Qed.

Lemma plane_triangle x y x' y' : sqrt ((x + x') ^ 2 + (y + y') ^ 2) <= sqrt (x ^ 2 + y ^ 2) + sqrt (x' ^ 2 + y' ^ 2).
Proof. exact (Cmod_triangle (x, y) (x', y')). Qed.

Section Tube.
Variables (pos : list (R * R)) (r_in r_out rb ks kg Rfp : R) (J : Z).
Hypothesis (L : length pos = 2%nat).
Hypothesis (Ck : check_utube pos r_in r_out rb ks kg Rfp 1 J = true).
Let a := mkrargs pos (repeat r_out (length pos)) rb ks kg (repeat Rfp (length pos)) 0.

Lemma check_facts : 0 < ks /\ 0 < kg /\ 0 < Rfp /\ 0 < r_out
  /\ sqrt (p_x a 0%nat ^ 2 + p_y a 0%nat ^ 2) + r_out <= rb /\ sqrt (p_x a 1%nat ^ 2 + p_y a 1%nat ^ 2) + r_out <= rb
  /\ 2 * r_out <= sqrt ((p_x a 0%nat - p_x a 1%nat) ^ 2 + (p_y a 0%nat - p_y a 1%nat) ^ 2).
Proof.
  unfold check_utube in Ck. cbn [Nat.mul Nat.add seq forallb Nat.sub] in Ck.
  rewrite !andb_true_iff, !Rltb_true, !Rleb_true in Ck.
  destruct Ck as [[[[[[[A1 A2] A3] A4] A5] A6] [B1 [B2 _]]] [[C1 _] _]].
  unfold p_x, p_y, a. cbn [a_pos]. repeat split; auto; lra.
Qed.

Lemma sigma_bounds : -1 < ls_sigma a < 1.
Proof.
  destruct check_facts as (A1 & A2 & _). unfold ls_sigma. cbn [a a_kg a_ks].
  split.
  - apply Rmult_lt_reg_r with (kg + ks); [lra|]. unfold Rdiv. rewrite Rmult_assoc, Rinv_l by lra. lra.
  - apply Rmult_lt_reg_r with (kg + ks); [lra|]. unfold Rdiv. rewrite Rmult_assoc, Rinv_l by lra. lra.
Qed.

Lemma entries : Rabs (line_source a 0%nat 1%nat) < line_source a 0%nat 0%nat /\ Rabs (line_source a 0%nat 1%nat) < line_source a 1%nat 1%nat.
Proof.
  destruct check_facts as (A1 & A2 & A3 & A4 & B0 & B1 & D). pose proof sigma_bounds as Sg.
  unfold line_source. cbn [Nat.eqb]. cbv zeta.
  set (x0 := p_x a 0%nat) in *. set (y0 := p_y a 0%nat) in *. set (x1 := p_x a 1%nat) in *. set (y1 := p_y a 1%nat) in *.
  replace (nth 0%nat (a_rout a) 0) with r_out by (unfold a; cbn [a_rout]; rewrite L; reflexivity).
  replace (nth 1%nat (a_rout a) 0) with r_out by (unfold a; cbn [a_rout]; rewrite L; reflexivity).
  replace (nth 0%nat (a_Rfp a) 0) with Rfp by (unfold a; cbn [a_Rfp]; rewrite L; reflexivity).
  replace (nth 1%nat (a_Rfp a) 0) with Rfp by (unfold a; cbn [a_Rfp]; rewrite L; reflexivity).
  change (a_rb a) with rb. change (a_kg a) with kg. set (s := ls_sigma a) in *.
  destruct (norm_sq x0 y0) as [N0 S0]. destruct (norm_sq x1 y1) as [N1 S1].
  destruct (norm_sq (x0 - x1) (y0 - y1)) as [Nd Sd].
  pose proof (plane_triangle x0 y0 (- x1) (- y1)) as T1.
  pose proof (plane_triangle (x0 - x1) (y0 - y1) x1 y1) as T2.
  pose proof (plane_triangle (- (x0 - x1)) (- (y0 - y1)) x0 y0) as T3.
  replace ((x0 + - x1) ^ 2 + (y0 + - y1) ^ 2) with ((x0 - x1) ^ 2 + (y0 - y1) ^ 2) in T1 by ring.
  replace ((- x1) ^ 2 + (- y1) ^ 2) with (x1 ^ 2 + y1 ^ 2) in T1 by ring.
  replace ((x0 - x1 + x1) ^ 2 + (y0 - y1 + y1) ^ 2) with (x0 ^ 2 + y0 ^ 2) in T2 by ring.
  replace ((- (x0 - x1) + x0) ^ 2 + (- (y0 - y1) + y0) ^ 2) with (x1 ^ 2 + y1 ^ 2) in T3 by ring.
  replace ((- (x0 - x1)) ^ 2 + (- (y0 - y1)) ^ 2) with ((x0 - x1) ^ 2 + (y0 - y1) ^ 2) in T3 by ring.
  set (n0 := sqrt (x0 ^ 2 + y0 ^ 2)) in *. set (n1 := sqrt (x1 ^ 2 + y1 ^ 2)) in *.
  set (d := sqrt ((x0 - x1) ^ 2 + (y0 - y1) ^ 2)) in *.
  set (w := sqrt ((rb ^ 2 - n0 ^ 2) * (rb ^ 2 - n1 ^ 2) + rb ^ 2 * d ^ 2)).
  assert (C0 : 0 < rb ^ 2 - n0 ^ 2) by nra. assert (C1 : 0 < rb ^ 2 - n1 ^ 2) by nra.
  assert (Rb : 0 < rb) by lra.
  assert (Wn : 0 <= (rb ^ 2 - n0 ^ 2) * (rb ^ 2 - n1 ^ 2) + rb ^ 2 * d ^ 2).
  { assert (0 < (rb ^ 2 - n0 ^ 2) * (rb ^ 2 - n1 ^ 2)) by (apply Rmult_lt_0_compat; auto).
    assert (0 <= rb ^ 2 * d ^ 2) by (apply Rmult_le_pos; nra). lra. }
  assert (Wq : w ^ 2 = (rb ^ 2 - n0 ^ 2) * (rb ^ 2 - n1 ^ 2) + rb ^ 2 * d ^ 2) by (apply pow2_sqrt; exact Wn).
  assert (Wz : 0 <= w) by apply sqrt_pos.
  destruct (bounds rb r_out n0 n1 d w) as [PB0 QB0]; auto; try lra.
  destruct (bounds rb r_out n1 n0 d w) as [PB1 QB1]; auto; try lra.
  assert (Wp : 0 < w) by (apply (w_pos rb r_out n0 n1 d w); auto; lra).
  assert (R2 : 0 < rb ^ 2) by nra.
  replace ((1 - n0 ^ 2 / rb ^ 2) * (1 - n1 ^ 2 / rb ^ 2) + d ^ 2 / rb ^ 2) with
    (((rb ^ 2 - n0 ^ 2) * (rb ^ 2 - n1 ^ 2) + rb ^ 2 * d ^ 2) / (rb ^ 2) ^ 2) by (field; lra).
  rewrite sqrt_div by (auto; nra). rewrite (sqrt_pow2 (rb ^ 2)) by lra. fold w.
  replace (1 - n0 ^ 2 / rb ^ 2) with ((rb ^ 2 - n0 ^ 2) / rb ^ 2) by (field; lra).
  replace (1 - n1 ^ 2 / rb ^ 2) with ((rb ^ 2 - n1 ^ 2) / rb ^ 2) by (field; lra).
  rewrite (ln_inv_div (rb ^ 2 - n0 ^ 2) (rb ^ 2)), (ln_inv_div (rb ^ 2 - n1 ^ 2) (rb ^ 2)) by auto.
  rewrite (ln_inv_div d rb), (ln_inv_div w (rb ^ 2)) by (auto; lra).
  set (A := ln (rb / r_out)) in *. set (B0' := ln (rb ^ 2 / (rb ^ 2 - n0 ^ 2))) in *.
  set (B1' := ln (rb ^ 2 / (rb ^ 2 - n1 ^ 2))) in *. set (X := ln (rb / d)) in *. set (Y := ln (rb ^ 2 / w)) in *.
  assert (Kp : 0 < 1 / (2 * PI * kg)) by (apply Rdiv_lt_0_compat; [lra|]; pose proof PI_RGT_0; apply Rmult_lt_0_compat; lra).
  replace (- 1 / (2 * PI * kg)) with (- (1 / (2 * PI * kg))) by (field; pose proof PI_RGT_0; split; lra).
  set (k := 1 / (2 * PI * kg)) in *.
  replace (- k * (- X + s * - Y)) with (k * (X + s * Y)) by ring.
  replace (A - s * - B0') with (A + s * B0') by ring. replace (A - s * - B1') with (A + s * B1') by ring.
  rewrite Rabs_mult, (Rabs_pos_eq k) by lra.
  assert (Main : forall B, Rabs (X + Y) <= A + B -> Rabs (X - Y) <= A - B -> Rabs (X + s * Y) <= A + s * B).
  { intros B P Q. replace (X + s * Y) with ((1 + s) / 2 * (X + Y) + (1 - s) / 2 * (X - Y)) by field.
    eapply Rle_trans; [apply Rabs_triang|]. rewrite !Rabs_mult, (Rabs_pos_eq ((1 + s) / 2)), (Rabs_pos_eq ((1 - s) / 2)) by lra.
    assert ((1 + s) / 2 * Rabs (X + Y) <= (1 + s) / 2 * (A + B)) by (apply Rmult_le_compat_l; lra).
    assert ((1 - s) / 2 * Rabs (X - Y) <= (1 - s) / 2 * (A - B)) by (apply Rmult_le_compat_l; lra). lra. }
  pose proof (Main B0' PB0 QB0) as M0. pose proof (Main B1' PB1 QB1) as M1.
  split.
  - assert (k * Rabs (X + s * Y) <= k * (A + s * B0')) by (apply Rmult_le_compat_l; lra). lra.
  - assert (k * Rabs (X + s * Y) <= k * (A + s * B1')) by (apply Rmult_le_compat_l; lra). lra.
Qed.
End Tube.

(* Two by two circuits *)
Lemma two_circuit (Rm : Mx) : Rm 0%nat 1%nat = Rm 1%nat 0%nat ->
  Rabs (Rm 0%nat 1%nat) < Rm 0%nat 0%nat -> Rabs (Rm 0%nat 1%nat) < Rm 1%nat 1%nat ->
  exists Rd, delta_circuit 2 Rm = Some Rd
  /\ (let D := Rm 0%nat 0%nat * Rm 1%nat 1%nat - Rm 0%nat 1%nat ^ 2 in
      0 < D /\ conductance (Rd 0%nat 1%nat) = Rm 0%nat 1%nat / D /\ conductance (Rd 1%nat 0%nat) = Rm 0%nat 1%nat / D
      /\ conductance (Rd 0%nat 0%nat) = (Rm 1%nat 1%nat - Rm 0%nat 1%nat) / D
      /\ conductance (Rd 1%nat 1%nat) = (Rm 0%nat 0%nat - Rm 0%nat 1%nat) / D)
  /\ (forall i j r, Rd i j = Res r -> r <> 0).
Proof.
  intros S L0 L1. set (p := Rm 0%nat 0%nat) in *. set (q := Rm 1%nat 1%nat) in *. set (c := Rm 0%nat 1%nat) in *.
  pose proof (Rabs_pos c) as Cp.
  assert (D : 0 < p * q - c ^ 2).
  { rewrite <- (pow2_abs c). nra. }
  assert (N : nonsingular 2 Rm).
  { intros x H. assert (H0 := H 0%nat ltac:(lia)). assert (H1 := H 1%nat ltac:(lia)). cbn [sumn] in H0, H1.
    fold p c in H0. rewrite <- S in H1. fold q c in H1.
    assert (X0 : (p * q - c ^ 2) * x 0%nat = 0).
    { transitivity (q * (0 + p * x 0%nat + c * x 1%nat) - c * (0 + c * x 0%nat + q * x 1%nat)); [ring|]. rewrite H0, H1. ring. }
    assert (X1 : (p * q - c ^ 2) * x 1%nat = 0).
    { transitivity (p * (0 + c * x 0%nat + q * x 1%nat) - c * (0 + p * x 0%nat + c * x 1%nat)); [ring|]. rewrite H0, H1. ring. }
    intros i Hi. destruct i as [|[|i]]; [| |lia]; nra. }
  destruct (inv_some 2 Rm N) as [Ri E]. unfold delta_circuit. rewrite E. eexists. split; [reflexivity|].
  split.
  - cbv zeta. rewrite !conductance_inverse. fold p q c.
    assert (I := inv_right 2 Rm Ri E).
    assert (I00 := I 0%nat 0%nat ltac:(lia) ltac:(lia)). assert (I01 := I 0%nat 1%nat ltac:(lia) ltac:(lia)).
    assert (I10 := I 1%nat 0%nat ltac:(lia) ltac:(lia)). assert (I11 := I 1%nat 1%nat ltac:(lia) ltac:(lia)).
    unfold id_mx in I00, I01, I10, I11. cbn [sumn Nat.eqb] in I00, I01, I10, I11.
    rewrite <- S in I10, I11. fold p q c in I00, I01, I10, I11.
    assert (A00 : Ri 0%nat 0%nat = q / (p * q - c ^ 2)).
    { apply Rmult_eq_reg_l with (p * q - c ^ 2); [|lra].
      transitivity (q * (0 + p * Ri 0%nat 0%nat + c * Ri 1%nat 0%nat) - c * (0 + c * Ri 0%nat 0%nat + q * Ri 1%nat 0%nat)); [ring|].
      rewrite I00, I10. field. lra. }
    assert (A10 : Ri 1%nat 0%nat = - c / (p * q - c ^ 2)).
    { apply Rmult_eq_reg_l with (p * q - c ^ 2); [|lra].
      transitivity (p * (0 + c * Ri 0%nat 0%nat + q * Ri 1%nat 0%nat) - c * (0 + p * Ri 0%nat 0%nat + c * Ri 1%nat 0%nat)); [ring|].
      rewrite I00, I10. field. lra. }
    assert (A01 : Ri 0%nat 1%nat = - c / (p * q - c ^ 2)).
    { apply Rmult_eq_reg_l with (p * q - c ^ 2); [|lra].
      transitivity (q * (0 + p * Ri 0%nat 1%nat + c * Ri 1%nat 1%nat) - c * (0 + c * Ri 0%nat 1%nat + q * Ri 1%nat 1%nat)); [ring|].
      rewrite I01, I11. field. lra. }
    assert (A11 : Ri 1%nat 1%nat = p / (p * q - c ^ 2)).
    { apply Rmult_eq_reg_l with (p * q - c ^ 2); [|lra].
      transitivity (p * (0 + c * Ri 0%nat 1%nat + q * Ri 1%nat 1%nat) - c * (0 + p * Ri 0%nat 1%nat + c * Ri 1%nat 1%nat)); [ring|].
      rewrite I01, I11. field. lra. }
    rewrite !delta_diag by lia. cbn [sumn]. unfold delta_K. cbn [Nat.eqb].
    rewrite A00, A01, A10, A11. repeat split; [lra|..]; field; lra.
  - intros i j r. unfold inverse_of. destruct (Reqb (delta_K 2 Ri i j) 0) eqn:Z; [discriminate|].
    intros Q. injection Q as <-. assert (delta_K 2 Ri i j <> 0) by (intros Y; rewrite <- not_true_iff_false, Reqb_true in Z; auto).
    unfold Rdiv. rewrite Rmult_1_l. apply Rinv_neq_0_compat. auto.
Qed.

Lemma single_passive pos r_in r_out b ks kg Rfp rev : length pos = 2%nat ->
  check_utube pos r_in r_out (br b) ks kg Rfp 1 0 = true ->
  exists u, single_utube pos r_in r_out b ks kg Rfp 0 rev = Some u
  /\ u_b u = b /\ u_reversible u = rev /\ no_short u
  /\ forall d e, (d = 0%nat /\ e = 1%nat) \/ (d = 1%nat /\ e = 0%nat) -> conducting u d e.
Proof.
  intros L Ck. unfold single_utube. cbn [Z.of_nat]. rewrite Ck.
  set (a := mkrargs pos (repeat r_out (length pos)) (br b) ks kg (repeat Rfp (length pos)) 0).
  destruct (entries pos r_in r_out (br b) ks kg Rfp 0 L Ck) as [E0 E1]. fold a in E0, E1.
  destruct (two_circuit (line_source a) (line_source_sym a 0%nat 1%nat) E0 E1) as [Rd [Eq [K N]]].
  unfold thermal_resistances, resistance_matrix. change (length (a_pos a)) with (length pos).
  change (Nat.eqb (a_J a) 0) with true. cbv iota. rewrite L, Eq.
  eexists. split; [reflexivity|]. split; [reflexivity|]. split; [reflexivity|]. split; [exact N|].
  cbv zeta in K. set (p := line_source a 0%nat 0%nat) in *. set (q := line_source a 1%nat 1%nat) in *. set (c := line_source a 0%nat 1%nat) in *.
  destruct K as (D & K01 & K10 & K00 & K11). set (dt := p * q - c ^ 2) in *.
  assert (C1 : 0 < p - c) by (pose proof (Rle_abs c); lra). assert (C2 : 0 < q - c) by (pose proof (Rle_abs c); lra).
  intros d e [[-> ->]|[-> ->]]; unfold conducting;
  change (cond (mkutube Rd b rev)) with (fun i j => conductance (Rd i j)); cbv beta; rewrite K00, K11, ?K01, ?K10.
  all: split.
  - replace ((q - c) / dt + (p - c) / dt) with ((p - c + (q - c)) / dt) by (field; lra). apply Rdiv_lt_0_compat; lra.
  - replace ((q - c) / dt * ((p - c) / dt) + c / dt * ((q - c) / dt + (p - c) / dt)) with (dt / (dt * dt)) by (unfold dt; field; fold dt; lra).
    apply Rdiv_lt_0_compat; [lra|]. apply Rmult_lt_0_compat; lra.
  - replace ((p - c) / dt + (q - c) / dt) with ((p - c + (q - c)) / dt) by (field; lra). apply Rdiv_lt_0_compat; lra.
  - replace ((p - c) / dt * ((q - c) / dt) + c / dt * ((p - c) / dt + (q - c) / dt)) with (dt / (dt * dt)) by (unfold dt; field; fold dt; lra).
    apply Rdiv_lt_0_compat; [lra|]. apply Rmult_lt_0_compat; lra.
Qed.
