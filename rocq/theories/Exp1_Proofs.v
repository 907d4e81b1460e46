(* The relative error of the formula of the exponential integral for every positive argument. *)
From Coq Require Import Reals Lra Lia List Bool Psatz ZArith.
From Coquelicot Require Import Coquelicot.
From Verif Require Import Base FLS_Model FLS_Spec Approx_Spec Approx_Int_Proofs Approx_Num_Proofs Exp1_Model Exp1_Int_Proofs Exp1_Num_Proofs.
Local Open Scope R_scope.

(** * Bounds of the constants *)
Lemma G_bounds : 56145 / 100000 <= e_G <= 56147 / 100000.
Proof. pose proof (N_bounds _ _ cG_ok) as B. unfold cG, one in B. cbn [fst snd] in B. lra. Qed.
Lemma b_bounds : 10420 / 10000 <= e_b <= 10421 / 10000.
Proof. pose proof (N_bounds _ _ cb_ok) as B. unfold cb, one in B. cbn [fst snd] in B. lra. Qed.
Lemma hinf_bounds : 10800 / 10000 <= e_hinf <= 10803 / 10000.
Proof. pose proof (N_bounds _ _ ch_ok) as B. unfold ch, one in B. cbn [fst snd] in B. lra. Qed.
Lemma p_bounds : 1 <= sqrt (31 / 26).
Proof. pose proof (N_bounds _ _ cp_ok) as B. unfold cp, one in B. cbn [fst snd] in B. lra. Qed.

Lemma den_bounds x : 0 < x -> Rmax e_G (1 - x) <= e_den x <= 1.
Proof.
  intros Hx. pose proof G_bounds as G. unfold e_den. set (F := 1 - e_G). assert (F0 : 0 < F) by (unfold F; lra).
  pose proof (exp_pos (- x / F)). assert (L : 1 - x / F <= exp (- x / F)) by (pose proof (exp_below1 (x / F)); replace (- x / F) with (- (x / F)) by (field; lra); lra).
  assert (U : exp (- x / F) <= 1). { rewrite <- exp_0. apply exp_le. assert (0 < x / F) by (apply Rdiv_lt_0_compat; auto). replace (- x / F) with (- (x / F)) by (field; lra). lra. }
  split; [apply Rmax_lub|].
  - nra.
  - assert (F * (1 - x / F) <= F * exp (- x / F)) by (apply Rmult_le_compat_l; lra). replace (F * (1 - x / F)) with (F - x) in H0 by (field; lra). unfold F in *. lra.
  - assert (F * exp (- x / F) <= F * 1) by (apply Rmult_le_compat_l; lra). unfold F in *. lra.
Qed.

Lemma q_pos x : 0 < e_q x.
Proof. unfold e_q, Rpower. apply Rmult_lt_0_compat; [lra|apply exp_pos]. Qed.
Lemma h_bounds x : 0 < x -> 1 / (1 + x * sqrt x) < e_h x < 1 / (1 + x * sqrt x) + 10803 / 10000.
Proof.
  intros Hx. pose proof hinf_bounds as H. pose proof (q_pos x) as Q. unfold e_h. set (q := e_q x) in *.
  assert (E : e_hinf * q / (1 + q) = e_hinf * (1 - / (1 + q))) by (field; lra).
  assert (0 < / (1 + q)) by (apply Rinv_0_lt_compat; lra).
  assert (0 < e_hinf * q / (1 + q)) by (apply Rdiv_lt_0_compat; [apply Rmult_lt_0_compat|]; lra).
  split; [lra|]. rewrite E. nra.
Qed.

(** * Logarithms *)
Lemma ln_upper w : 0 <= w -> ln (1 + w) <= w - w ^ 2 / 2 + w ^ 3 / 3.
Proof.
  intros Hw. pose proof (falls (fun z => ln z - ((z - 1) - (z - 1) ^ 2 / 2 + (z - 1) ^ 3 / 3)) (fun z => / z - (1 - (z - 1) + (z - 1) ^ 2)) 1 (1 + w) ltac:(lra) ltac:(lra)) as F.
  cbv beta in F. rewrite ln_1 in F. cut (ln (1 + w) - (1 + w - 1 - (1 + w - 1) ^ 2 / 2 + (1 + w - 1) ^ 3 / 3) <= 0 - (1 - 1 - (1 - 1) ^ 2 / 2 + (1 - 1) ^ 3 / 3)).
  - replace (1 + w - 1) with w by ring. lra.
  - apply F.
    + intros z Hz. auto_derive; [lra|]. field. lra.
    + intros z Hz. replace (/ z - (1 - (z - 1) + (z - 1) ^ 2)) with (- ((z - 1) ^ 3 / z)) by (field; lra).
      assert (0 <= (z - 1) ^ 3 / z) by (apply Rmult_le_pos; [apply pow_le; lra|left; apply Rinv_0_lt_compat; lra]). lra.
Qed.
Lemma ln_lower w : 0 <= w -> 2 * w / (2 + w) <= ln (1 + w).
Proof.
  intros Hw. pose proof (falls (fun z => 2 * (z - 1) / (z + 1) - ln z) (fun z => 4 / (z + 1) ^ 2 - / z) 1 (1 + w) ltac:(lra) ltac:(lra)) as F.
  cbv beta in F. rewrite ln_1 in F. cut (2 * (1 + w - 1) / (1 + w + 1) - ln (1 + w) <= 2 * (1 - 1) / (1 + 1) - 0).
  - replace (1 + w - 1) with w by ring. replace (1 + w + 1) with (2 + w) by ring. lra.
  - apply F.
    + intros z Hz. auto_derive; [lra|]. field. lra.
    + intros z Hz. replace (4 / (z + 1) ^ 2 - / z) with (- ((z - 1) ^ 2 / (z * (z + 1) ^ 2))) by (field; lra).
      assert (0 <= (z - 1) ^ 2 / (z * (z + 1) ^ 2)) by (apply Rmult_le_pos; [apply pow2_ge_0|left; apply Rinv_0_lt_compat, Rmult_lt_0_compat; [lra|apply pow_lt; lra]]). lra.
Qed.

(** * Small arguments *)
Lemma ln_E1 x y : 0 < x -> x <= y -> E1 y + ln y - y + x <= E1 x + ln x <= E1 y + ln y.
Proof.
  intros Hx L. split.
  - pose proof (falls (fun z => E1 z + ln z - z) (fun z => - ef z + / z - 1) x y Hx L) as F. cbv beta in F.
    cut (E1 y + ln y - y <= E1 x + ln x - x); [lra|]. apply F.
    + intros z Hz. assert (Z : 0 < z) by lra. apply (is_derive_minus (fun z => E1 z + ln z) (fun z => z)); [|auto_derive; [auto|ring]].
      apply (is_derive_plus E1 ln); [apply E1_derive; auto|]. apply is_derive_Reals, derivable_pt_lim_ln; auto.
    + intros z Hz. assert (Z : 0 < z) by lra. unfold ef. pose proof (exp_below1 z). apply Rmult_le_reg_r with z; auto.
      replace ((- (exp (- z) / z) + / z - 1) * z) with (1 - z - exp (- z)) by (field; lra). lra.
  - pose proof (falls (fun z => - (E1 z + ln z)) (fun z => - (- ef z + / z)) x y Hx L) as F. cbv beta in F.
    cut (- (E1 y + ln y) <= - (E1 x + ln x)); [lra|]. apply F.
    + intros z Hz. assert (Z : 0 < z) by lra. apply (is_derive_opp (fun z => E1 z + ln z)).
      apply (is_derive_plus E1 ln); [apply E1_derive; auto|]. apply is_derive_Reals, derivable_pt_lim_ln; auto.
    + intros z Hz. assert (Z : 0 < z) by lra. unfold ef. apply Rmult_le_reg_r with z; auto.
      replace (- (- (exp (- z) / z) + / z) * z) with (exp (- z) - 1) by (field; lra).
      assert (exp (- z) <= 1) by (rewrite <- exp_0; apply exp_le; lra). lra.
Qed.

Lemma near_small x : 0 < x -> x <= exp (IZR (-1476394997) / O1) -> near x.
Proof.
  intros Hx Lx. destruct table_good as [K _]. destruct first_bounds as (X1 & X2 & _). apply N_bounds in K. cbn [fst snd] in K.
  set (t0 := IZR (-1476394997) / O1) in *. set (x0 := exp t0) in *.
  assert (T0 : -54999999 / 10000000 - 1 / 1000000 <= t0 <= -54999999 / 10000000) by (unfold t0, one; lra).
  assert (K0 : 49433 / 10000 <= KE x0 <= 49608 / 10000) by (unfold one in K; lra).
  assert (E0 : E1 x0 = exp (- x0) * KE x0) by (unfold KE; rewrite <- Rmult_assoc, (Rmult_comm (exp (- x0))), exp_cancel; ring).
  pose proof (exp_below1 x0) as e1. pose proof (exp_above2 x0 ltac:(lra)) as e2.
  assert (e3 : 995912 / 1000000 <= exp (- x0) <= 995923 / 1000000) by (split; [lra|]; assert (x0 ^ 2 <= (40870 / 10000000) ^ 2) by (apply pow_incr; lra); lra).
  assert (B0 : 4923 / 1000 <= E1 x0 <= 49407 / 10000).
  { rewrite E0. split; [apply Rle_trans with (995912 / 1000000 * (49433 / 10000)); [lra|apply Rmult_le_compat; lra]|].
    apply Rle_trans with (995923 / 1000000 * (49608 / 10000)); [apply Rmult_le_compat; lra|lra]. }
  pose proof (ln_E1 x x0 Hx Lx) as [A1 A2]. unfold x0 in A1, A2 at 2. rewrite ln_exp in A1, A2. fold x0 in A1, A2.
  assert (Ll : ln x <= t0). { rewrite <- (ln_exp t0). fold x0. destruct Lx as [L| ->]; [left; apply ln_increasing; auto|right; auto]. }
  set (l := - ln x). assert (l0 : 54999 / 10000 <= l) by (unfold l; lra).
  assert (B1 : l - 582 / 1000 <= E1 x <= l - 559 / 1000) by (unfold l; lra).
  pose proof (den_bounds x Hx) as [D1 D2]. assert (D3 : 1 - x <= e_den x) by (eapply Rle_trans; [apply Rmax_r|exact D1]).
  pose proof G_bounds as G.
  (* the argument *)
  pose proof (h_bounds x Hx) as [H1 _]. pose proof b_bounds as Bb.
  assert (S1 : x * sqrt x <= x). { assert (sqrt x <= 1). { rewrite <- sqrt_1. apply sqrt_le_1; lra. } pose proof (sqrt_pos x). nra. }
  assert (S0 : 0 <= x * sqrt x) by (apply Rmult_le_pos; [lra|apply sqrt_pos]).
  assert (H2 : 99 / 100 <= 1 / (1 + x * sqrt x)). { apply Rmult_le_reg_r with (1 + x * sqrt x); [lra|]. replace (1 / (1 + x * sqrt x) * (1 + x * sqrt x)) with 1 by (field; lra). lra. }
  set (B := e_h x + e_b * x) in *. assert (B2 : 99 / 100 < B) by (unfold B; nra).
  assert (Q : 0 < (1 - e_G) / B ^ 2 <= 1).
  { split; [apply Rdiv_lt_0_compat; [lra|apply pow_lt; lra]|]. apply Rmult_le_reg_r with (B ^ 2); [apply pow_lt; lra|].
    replace ((1 - e_G) / B ^ 2 * B ^ 2) with (1 - e_G) by (field; lra). nra. }
  assert (gx : 0 < e_G / x) by (apply Rdiv_lt_0_compat; lra).
  assert (A3 : e_G / x <= e_arg x) by (unfold e_arg; fold B; lra).
  assert (A4 : e_arg x <= e_G / x * (1 + x / e_G)). { replace (e_G / x * (1 + x / e_G)) with (1 + e_G / x) by (field; lra). unfold e_arg. fold B. lra. }
  assert (lnG : ln (e_G / x) = l - euler_gamma) by (unfold Rdiv; rewrite ln_mult by (try apply Rinv_0_lt_compat; lra); rewrite ln_Rinv by auto; unfold e_G, l; rewrite ln_exp; ring).
  assert (J : forall u v, 0 < u -> u <= v -> ln u <= ln v) by (intros u v u0 [uv| ->]; [left; apply ln_increasing; auto|right; auto]).
  assert (x / e_G <= 73 / 10000). { apply Rmult_le_reg_r with e_G; [lra|]. replace (x / e_G * e_G) with x by (field; lra). nra. }
  assert (0 < x / e_G) by (apply Rdiv_lt_0_compat; lra).
  assert (L1 : l - euler_gamma <= ln (e_arg x)) by (rewrite <- lnG; apply J; auto).
  assert (L2 : ln (e_arg x) <= l - euler_gamma + x / e_G).
  { eapply Rle_trans; [apply J; [lra|exact A4]|]. rewrite ln_mult by lra. rewrite lnG. apply Rplus_le_compat_l.
    rewrite <- (ln_exp (x / e_G)) at 2. apply J; [lra|]. left. apply exp_ineq1. lra. }
  unfold near. split; [lra|]. unfold euler_gamma in *.
  assert (K1 : E1 x <= KE x).
  { unfold KE. pose proof (exp_ineq1 x ltac:(lra)). rewrite <- (Rmult_1_l (E1 x)) at 1. apply Rmult_le_compat_r; lra. }
  assert (K2 : (1 - 4088 / 1000000) * KE x <= E1 x).
  { unfold KE. rewrite <- Rmult_assoc. rewrite <- (Rmult_1_l (E1 x)) at 2. apply Rmult_le_compat_r; [lra|].
    apply Rle_trans with (exp (- x) * exp x); [|rewrite Rmult_comm, exp_cancel; lra].
    apply Rmult_le_compat_r; [left; apply exp_pos|]. pose proof (exp_below1 x). lra. }
  split.
  - apply Rle_trans with (99 / 100 * KE x); [|lra].
    rewrite <- (Rmult_1_r (99 / 100 * KE x)) at 2. apply Rmult_le_compat_l; lra.
  - apply Rle_trans with (101 / 100 * E1 x * (1 - 4088 / 1000000)); [lra|].
    apply Rmult_le_compat; lra.
Qed.

(** * Large arguments *)
Lemma two_ratio w : 0 < w -> 2 * w / (2 + w) = w * / (1 + w / 2).
Proof. intros. field. lra. Qed.

Lemma near_large x : 10 <= x -> near x.
Proof.
  intros Hx. pose proof G_bounds as G. pose proof b_bounds as Bb. pose proof (h_bounds x ltac:(lra)) as [_ H1]. pose proof hinf_bounds as Hf.
  (* h *)
  assert (S1 : 3 * x <= x * sqrt x). { assert (3 <= sqrt x). { replace 3 with (sqrt (3 * 3)) by (apply sqrt_square; lra). apply sqrt_le_1; lra. } nra. }
  assert (H2 : e_h x <= 112 / 100).
  { assert (1 / (1 + x * sqrt x) <= 1 / 31). { unfold Rdiv. apply Rmult_le_compat_l; [lra|]. apply Rinv_le_contravar; lra. } lra. }
  assert (Q : 20 / 47 * 10 <= e_q x).
  { unfold e_q. apply Rmult_le_compat_l; [lra|]. apply Rle_trans with x; auto. rewrite <- (Rpower_1 x) at 1 by lra. apply Rle_Rpower; [lra|apply p_bounds]. }
  assert (H3 : 87 / 100 <= e_h x).
  { unfold e_h. assert (0 < 1 / (1 + x * sqrt x)) by (apply Rdiv_lt_0_compat; lra). set (q := e_q x) in *.
    assert (809 / 1000 <= q / (1 + q)). { apply Rmult_le_reg_r with (1 + q); [lra|]. replace (q / (1 + q) * (1 + q)) with q by (field; lra). lra. }
    replace (e_hinf * q / (1 + q)) with (e_hinf * (q / (1 + q))) by (field; lra). nra. }
  set (y := / x). assert (y0 : 0 < y) by (apply Rinv_0_lt_compat; lra).
  assert (y1 : y <= 1 / 10) by (replace (1 / 10) with (/ 10) by field; apply Rinv_le_contravar; lra).
  assert (xy : x = / y) by (unfold y; rewrite Rinv_inv; auto).
  set (h := e_h x) in *. set (u := / (h * y + e_b) ^ 2). set (ph := (1 - e_G) / e_G). set (s := 1 - ph * y * u).
  assert (P : 7810 / 10000 <= ph <= 7812 / 10000).
  { unfold ph. split; apply Rmult_le_reg_r with e_G; try lra; replace ((1 - e_G) / e_G * e_G) with (1 - e_G) by (field; lra); nra. }
  assert (c0 : 0 < h * y + e_b) by nra.
  assert (Ew : e_arg x = 1 + e_G * y * s).
  { unfold e_arg. fold h. unfold s, ph, u. rewrite xy. field. repeat split; nra. }
  assert (U1 : 920 / 1000 - 2 * y <= u).
  { unfold u. set (c := h * y + e_b) in *. assert (C : c <= 10421 / 10000 + 112 / 100 * y) by (unfold c; nra).
    apply Rmult_le_reg_r with (c ^ 2); [apply pow_lt; auto|]. replace (/ c ^ 2 * c ^ 2) with 1 by (field; lra).
    assert (C2 : c ^ 2 <= (10421 / 10000 + 112 / 100 * y) ^ 2) by (apply pow_incr; lra).
    apply Rle_trans with ((920 / 1000 - 2 * y) * (10421 / 10000 + 112 / 100 * y) ^ 2); [apply Rmult_le_compat_l; lra|]. nra. }
  assert (U2 : u <= 922 / 1000 - 135 / 100 * y).
  { unfold u. set (c := h * y + e_b) in *. assert (C : 10420 / 10000 + 87 / 100 * y <= c) by (unfold c; nra).
    apply Rmult_le_reg_r with (c ^ 2); [apply pow_lt; auto|]. replace (/ c ^ 2 * c ^ 2) with 1 by (field; lra).
    assert (C2 : (10420 / 10000 + 87 / 100 * y) ^ 2 <= c ^ 2) by (apply pow_incr; lra).
    apply Rle_trans with ((922 / 1000 - 135 / 100 * y) * (10420 / 10000 + 87 / 100 * y) ^ 2); [|apply Rmult_le_compat_l; lra].
    assert (0 <= (1 / 10 - y) * y) by nra. assert (0 <= y * y * y) by (apply Rmult_le_pos; nra). nra. }
  assert (u0 : 0 < u) by (apply Rinv_0_lt_compat, pow_lt; auto).
  assert (S2 : s <= 1 - 7185 / 10000 * y + 157 / 100 * (y * y)).
  { unfold s. assert (ph * y * (920 / 1000 - 2 * y) <= ph * y * u) by (apply Rmult_le_compat_l; nra). assert (0 <= y * y) by nra. nra. }
  assert (S3 : 1 - 7205 / 10000 * y + 105 / 100 * (y * y) <= s).
  { unfold s. assert (ph * y * u <= ph * y * (922 / 1000 - 135 / 100 * y)) by (apply Rmult_le_compat_l; nra). assert (0 <= y * y) by nra. nra. }
  assert (s0 : 9 / 10 <= s) by nra. assert (s1 : s <= 1) by nra.
  set (w := e_G * y * s) in *. assert (w0 : 0 < w) by (unfold w; apply Rmult_lt_0_compat; [apply Rmult_lt_0_compat|]; lra).
  unfold near. rewrite Ew. split; [lra|].
  pose proof (KE_lower x ltac:(lra)) as K1. pose proof (KE_upper x ltac:(lra)) as K2.
  replace ((x + 3) / (x ^ 2 + 4 * x + 2)) with (y * ((1 + 3 * y) / (1 + 4 * y + 2 * y ^ 2))) in K1 by (rewrite xy; field; repeat split; nra).
  replace ((x + 1) / (x * (x + 2))) with (y * ((1 + y) / (1 + 2 * y))) in K2 by (rewrite xy; field; repeat split; nra).
  pose proof (KE_pos x ltac:(lra)) as Kp. pose proof (den_bounds x ltac:(lra)) as [D1 _]. assert (D2 : e_G <= e_den x) by (eapply Rle_trans; [apply Rmax_l|exact D1]).
  assert (D3 : e_den x <= e_G * (1 + / 1000000)).
  { unfold e_den. assert (Z : exp (- x / (1 - e_G)) <= / 2 ^ 20).
    { eapply Rle_trans; [|apply exp16]. apply exp_le. assert (16 <= x / (1 - e_G)). { apply Rmult_le_reg_r with (1 - e_G); [lra|]. replace (x / (1 - e_G) * (1 - e_G)) with x by (field; lra). nra. }
      replace (- x / (1 - e_G)) with (- (x / (1 - e_G))) by (field; lra). lra. }
    pose proof (exp_pos (- x / (1 - e_G))). assert (E20 : / 2 ^ 20 <= 954 / 1000000000) by (simpl; lra). nra. }
  split.
  - eapply Rle_trans; [|apply ln_lower; lra].
    apply Rle_trans with (99 / 100 * (y * ((1 + y) / (1 + 2 * y))) * (e_G * (1 + / 1000000))).
    { apply Rmult_le_compat; [nra|lra|lra|auto]. }
    rewrite (two_ratio w w0).
    replace (w * / (1 + w / 2)) with (e_G * y * (s / (1 + w / 2))) by (unfold w at 2; unfold Rdiv; ring).
    replace (99 / 100 * (y * ((1 + y) / (1 + 2 * y))) * (e_G * (1 + / 1000000))) with (e_G * y * ((99 / 100 * (1 + / 1000000)) * ((1 + y) / (1 + 2 * y)))) by ring.
    apply Rmult_le_compat_l; [nra|]. set (k := w / 2). assert (k0 : 0 < k <= 2808 / 10000 * y * s).
    { unfold k. split; [lra|]. unfold w. assert (0 < y * s) by (apply Rmult_lt_0_compat; lra). nra. }
    apply Rmult_le_reg_r with ((1 + 2 * y) * (1 + k)); [apply Rmult_lt_0_compat; lra|].
    replace (s / (1 + k) * ((1 + 2 * y) * (1 + k))) with (s * (1 + 2 * y)) by (field; lra).
    replace (99 / 100 * (1 + / 1000000) * ((1 + y) / (1 + 2 * y)) * ((1 + 2 * y) * (1 + k))) with (990001 / 1000000 * (1 + y) * (1 + k) - 1 / 100000000 * (1 + y) * (1 + k)) by (field; lra).
    apply Rle_trans with (990001 / 1000000 * (1 + y) * (1 + 2808 / 10000 * y * s)).
    { assert (0 < (1 + y) * (1 + k)) by (apply Rmult_lt_0_compat; lra).
      assert (990001 / 1000000 * (1 + y) * (1 + k) <= 990001 / 1000000 * (1 + y) * (1 + 2808 / 10000 * y * s)) by (apply Rmult_le_compat_l; lra). lra. }
    set (m := 1 - 7205 / 10000 * y + 105 / 100 * (y * y)) in *.
    assert (M : 990001 / 1000000 * (1 + y) <= m * (1 + 2 * y - 990001 / 1000000 * (1 + y) * (2808 / 10000) * y)).
    { unfold m. assert (0 <= y * y) by nra. assert (0 <= y * y * y) by nra. assert (0 <= (1 / 10 - y) * y) by nra. assert (0 <= (1 / 10 - y) * (y * y)) by nra. nra. }
    assert (m * (1 + 2 * y - 990001 / 1000000 * (1 + y) * (2808 / 10000) * y) <= s * (1 + 2 * y - 990001 / 1000000 * (1 + y) * (2808 / 10000) * y)) by (apply Rmult_le_compat_r; nra).
    lra.
  - eapply Rle_trans; [apply ln_upper; lra|].
    apply Rle_trans with (101 / 100 * (y * ((1 + 3 * y) / (1 + 4 * y + 2 * y ^ 2))) * e_G).
    2:{ assert (0 <= y * ((1 + 3 * y) / (1 + 4 * y + 2 * y ^ 2))) by (apply Rmult_le_pos; [lra|left; apply Rdiv_lt_0_compat; nra]). apply Rmult_le_compat; nra. }
    replace (101 / 100 * (y * ((1 + 3 * y) / (1 + 4 * y + 2 * y ^ 2))) * e_G) with (e_G * y * (101 / 100 * ((1 + 3 * y) / (1 + 4 * y + 2 * y ^ 2)))) by ring.
    unfold w. replace (e_G * y * s - (e_G * y * s) ^ 2 / 2 + (e_G * y * s) ^ 3 / 3) with (e_G * y * (s - e_G / 2 * y * s ^ 2 + e_G ^ 2 / 3 * y ^ 2 * s ^ 3)) by field.
    apply Rmult_le_compat_l; [nra|].
    apply Rmult_le_reg_r with (1 + 4 * y + 2 * y ^ 2); [nra|].
    replace (101 / 100 * ((1 + 3 * y) / (1 + 4 * y + 2 * y ^ 2)) * (1 + 4 * y + 2 * y ^ 2)) with (101 / 100 * (1 + 3 * y)) by (field; nra).
    assert (s2 : 1 - 1441 / 1000 * y <= s ^ 2) by nra.
    assert (s3 : s ^ 3 <= 1) by (rewrite <- (pow1 3); apply pow_incr; lra).
    assert (g2 : 0 <= e_G ^ 2 / 3 <= 1051 / 10000) by nra.
    assert (C1 : e_G ^ 2 / 3 * y ^ 2 * s ^ 3 <= 1051 / 10000 * (y * y)).
    { assert (0 <= y * y) by nra. assert (0 <= s ^ 3) by (apply pow_le; lra). replace (e_G ^ 2 / 3 * y ^ 2 * s ^ 3) with ((e_G ^ 2 / 3 * s ^ 3) * (y * y)) by ring. apply Rmult_le_compat_r; auto. nra. }
    assert (C2 : 2807 / 10000 * y * (1 - 1441 / 1000 * y) <= e_G / 2 * y * s ^ 2).
    { apply Rmult_le_compat; nra. }
    apply Rle_trans with ((1 - 7185 / 10000 * y + 157 / 100 * (y * y) - 2807 / 10000 * y * (1 - 1441 / 1000 * y) + 1051 / 10000 * (y * y)) * (1 + 4 * y + 2 * y ^ 2)).
    { apply Rmult_le_compat_r; [nra|]. lra. }
    assert (0 <= y * y) by nra. assert (0 <= y * y * y) by nra. assert (0 <= (1 / 10 - y) * y) by nra. assert (0 <= (1 / 10 - y) * (y * y)) by nra. assert (0 <= (1 / 10 - y) * (y * y * y)) by nra. nra.
Qed.

Lemma near_all x : 0 < x -> near x.
Proof.
  intros Hx. destruct first_bounds as (_ & _ & F). destruct table_good as [_ M].
  destruct (Rle_dec x (exp (IZR (-1476394997) / O1))) as [A|A]; [apply near_small; auto|].
  destruct (Rle_dec 10 x) as [B|B]; [apply near_large; auto|].
  rewrite <- (exp_ln x Hx). apply M.
  - rewrite <- (ln_exp (IZR (-1476394997) / O1)). left. apply ln_increasing; [apply exp_pos|lra].
  - rewrite <- (ln_exp (IZR 620085903 / O1)). apply ln_increasing; lra.
Qed.

Lemma exp1_near x : 0 < x -> 99 / 100 * E1 x <= exp1 x <= 101 / 100 * E1 x.
Proof.
  intros Hx. destruct (near_all x Hx) as [_ [L U]]. pose proof (den_bounds x Hx) as [D _]. pose proof G_bounds as G.
  assert (d0 : 0 < e_den x) by (eapply Rlt_le_trans; [|eapply Rle_trans; [apply Rmax_l|exact D]]; lra).
  assert (E : E1 x = exp (- x) * KE x) by (unfold KE; rewrite <- Rmult_assoc, (Rmult_comm (exp (- x))), exp_cancel; ring).
  pose proof (exp_pos (- x)) as P. change (exp1 x) with (exp (- x) * ln (e_arg x) / e_den x). rewrite E.
  split; apply Rmult_le_reg_r with (e_den x); auto.
  - replace (exp (- x) * ln (e_arg x) / e_den x * e_den x) with (exp (- x) * ln (e_arg x)) by (field; lra).
    replace (99 / 100 * (exp (- x) * KE x) * e_den x) with (exp (- x) * (99 / 100 * KE x * e_den x)) by ring. apply Rmult_le_compat_l; lra.
  - replace (exp (- x) * ln (e_arg x) / e_den x * e_den x) with (exp (- x) * ln (e_arg x)) by (field; lra).
    replace (101 / 100 * (exp (- x) * KE x) * e_den x) with (exp (- x) * (101 / 100 * KE x * e_den x)) by ring. apply Rmult_le_compat_l; lra.
Qed.

Lemma arg_above_1 x : 0 < x -> 1 < e_arg x.
Proof.
  intros Hx. destruct (near_all x Hx) as [A [L _]]. pose proof (KE_pos x Hx). pose proof (den_bounds x Hx) as [D _]. pose proof G_bounds as G.
  assert (d0 : 0 < e_den x) by (eapply Rlt_le_trans; [|eapply Rle_trans; [apply Rmax_l|exact D]]; lra).
  assert (0 < ln (e_arg x)) by (eapply Rlt_le_trans; [|exact L]; apply Rmult_lt_0_compat; [lra|auto]).
  rewrite <- exp_0, <- (exp_ln (e_arg x) A). apply exp_increasing; auto.
Qed.
