(** The Colebrook-White iteration and the continuity of the Nusselt number. *)
From Coq Require Import Reals Ranalysis5 Lra Lia List Bool Psatz.
From Verif Require Import Base Conv_Model Conv_Spec.
From Coquelicot Require Import Coquelicot.
Local Open Scope R_scope.

(** * Logarithms *)

Lemma ln_le_minus z : 0 < z -> ln z <= z - 1.
Proof.
  intros H. pose proof (exp_ineq1_le (ln z)) as E. rewrite exp_ln in E; lra.
Qed.

Lemma ln10_gt2 : 2 < ln 10.
Proof.
  apply exp_lt_inv. rewrite exp_ln by lra. replace 2 with (1 + 1) by ring. rewrite exp_plus.
  pose proof exp_le_3. pose proof (exp_pos 1). nra.
Qed.

Lemma ln_incr x y : 0 < x -> x <= y -> ln x <= ln y.
Proof. intros H [L|E]; [left; apply ln_increasing; lra|subst; lra]. Qed.

Lemma log10_incr x y : 0 < x -> x <= y -> log10 x <= log10 y.
Proof.
  intros H L. unfold log10. pose proof ln10_gt2. apply Rmult_le_compat_r; [left; apply Rinv_0_lt_compat; lra|].
  apply ln_incr; auto.
Qed.

(** * The iteration in terms of x = 1 / sqrt f *)

Definition gx (Re E x : R) : R := - 2 * log10 (E / (37 / 10) + 251 / 100 * x / Re).

Lemma sqrt_inv2 x : 0 < x -> sqrt (1 / x ^ 2) = 1 / x.
Proof.
  intros H. assert (P : 0 < 1 / x) by (apply Rdiv_lt_0_compat; lra).
  replace (1 / x ^ 2) with ((1 / x) ^ 2) by (field; lra). apply sqrt_pow2. lra.
Qed.

Lemma pass_x Re E x : 0 < Re -> 0 < x -> colebrook_pass Re E (1 / x ^ 2) = 1 / (gx Re E x) ^ 2.
Proof.
  intros HR H. unfold colebrook_pass, gx. rewrite sqrt_inv2 by auto.
  replace (251 / 100 / (Re * (1 / x))) with (251 / 100 * x / Re) by (field; lra). reflexivity.
Qed.

Lemma arg_pos Re E x : 0 < Re -> 0 <= E -> 0 < x -> 0 < E / (37 / 10) + 251 / 100 * x / Re.
Proof.
  intros. assert (0 < 251 / 100 * x / Re) by (apply Rdiv_lt_0_compat; lra). lra.
Qed.

Lemma gx_decr Re E x y : 0 < Re -> 0 <= E -> 0 < x -> x <= y -> gx Re E y <= gx Re E x.
Proof.
  intros HR HE H L. unfold gx. pose proof (log10_incr (E / (37 / 10) + 251 / 100 * x / Re) (E / (37 / 10) + 251 / 100 * y / Re) (arg_pos Re E x HR HE H)) as I.
  assert (251 / 100 * x / Re <= 251 / 100 * y / Re).
  { apply Rmult_le_compat_r; [left; apply Rinv_0_lt_compat; lra|lra]. }
  specialize (I ltac:(lra)). lra.
Qed.

Lemma gx_lip1 Re E x y : 0 < Re -> 0 <= E -> 2 <= x -> x <= y -> gx Re E x - gx Re E y <= / 2 * (y - x).
Proof.
  intros HR HE H L. unfold gx, log10. pose proof ln10_gt2 as G.
  set (a := E / (37 / 10) + 251 / 100 * x / Re). set (b := E / (37 / 10) + 251 / 100 * y / Re).
  assert (Pa : 0 < a) by (apply arg_pos; lra). assert (Pb : 0 < b) by (apply arg_pos; lra).
  assert (D : ln b - ln a <= (b - a) / a).
  { rewrite <- ln_div by auto. replace ((b - a) / a) with (b / a - 1) by (field; lra).
    apply ln_le_minus. apply Rdiv_lt_0_compat; auto. }
  assert (Q : (b - a) / a <= (y - x) / x).
  { apply (Rmult_le_reg_r a); auto. replace ((b - a) / a * a) with (b - a) by (field; lra).
    replace (b - a) with ((y - x) / x * (251 / 100 * x / Re)) by (unfold a, b; field; lra).
    apply Rmult_le_compat_l; [apply Rmult_le_pos; [lra|left; apply Rinv_0_lt_compat; lra]|].
    unfold a. assert (0 <= E / (37 / 10)) by (unfold Rdiv; apply Rmult_le_pos; lra). lra. }
  assert (X : (y - x) / x <= (y - x) / 2).
  { unfold Rdiv. apply Rmult_le_compat_l; [lra|]. apply Rinv_le_contravar; lra. }
  replace (-2 * (ln a / ln 10) - -2 * (ln b / ln 10)) with (2 / ln 10 * (ln b - ln a)) by (field; lra).
  assert (2 / ln 10 <= 1). { apply (Rmult_le_reg_r (ln 10)); [lra|]. unfold Rdiv. rewrite Rmult_assoc, Rinv_l; lra. }
  assert (0 <= 2 / ln 10) by (left; apply Rdiv_lt_0_compat; lra).
  assert (0 <= (y - x) / 2) by lra.
  apply Rle_trans with (2 / ln 10 * ((y - x) / 2)); [apply Rmult_le_compat_l; lra|].
  replace (/ 2 * (y - x)) with (1 * ((y - x) / 2)) by field. apply Rmult_le_compat_r; lra.
Qed.

Lemma gx_lip Re E x y : 0 < Re -> 0 <= E -> 2 <= x -> 2 <= y -> Rabs (gx Re E x - gx Re E y) <= / 2 * Rabs (x - y).
Proof.
  intros HR HE Hx Hy. destruct (Rle_dec x y) as [L|L].
  - pose proof (gx_lip1 Re E x y HR HE Hx L). pose proof (gx_decr Re E x y HR HE ltac:(lra) L).
    rewrite Rabs_pos_eq by lra. rewrite Rabs_left1 by lra. lra.
  - pose proof (gx_lip1 Re E y x HR HE Hy ltac:(lra)). pose proof (gx_decr Re E y x HR HE ltac:(lra) ltac:(lra)).
    rewrite Rabs_left1 by lra. rewrite Rabs_pos_eq by lra. lra.
Qed.

(** x + 2 log10 (...) is increasing at least as fast as x. *)
Lemma miss_expands Re E x y : 0 < Re -> 0 <= E -> 0 < x -> 0 < y ->
  Rabs (x - y) <= Rabs ((x - gx Re E x) - (y - gx Re E y)).
Proof.
  intros HR HE Hx Hy. destruct (Rle_dec x y) as [L|L].
  - pose proof (gx_decr Re E x y HR HE Hx L). rewrite !Rabs_left1 by lra. lra.
  - pose proof (gx_decr Re E y x HR HE Hy ltac:(lra)). rewrite !Rabs_pos_eq by lra. lra.
Qed.

(** * The interval the iterates stay in *)

Definition top (Re E : R) : R := Rmax 8 (gx Re E 2).

Lemma log10_tenth : log10 (/ 10) = - 1.
Proof. unfold log10. rewrite ln_Rinv by lra. pose proof ln10_gt2. field. lra. Qed.

Lemma gx_ge2 Re E x : 0 < Re -> 0 <= E -> 0 < x -> E / (37 / 10) + 251 / 100 * x / Re <= / 10 -> 2 <= gx Re E x.
Proof.
  intros HR HE Hx H. unfold gx. pose proof (log10_incr _ _ (arg_pos Re E x HR HE Hx) H) as I.
  rewrite log10_tenth in I. lra.
Qed.

Lemma gx8 Re E : 2300 <= Re -> 0 <= E <= / 10 -> 2 <= gx Re E 8.
Proof.
  intros HR HE. apply gx_ge2; try lra.
  assert (251 / 100 * 8 / Re <= 251 / 100 * 8 / 2300).
  { unfold Rdiv. apply Rmult_le_compat_l; [lra|]. apply Rinv_le_contravar; lra. }
  lra.
Qed.

Lemma gx2_bound Re E : 2300 <= Re -> 0 <= E <= / 10 -> 251 / 100 * gx Re E 2 / Re <= / 20.
Proof.
  intros HR HE. set (y := Re / (502 / 100)). assert (Y : 458 <= y) by (unfold y; lra).
  assert (B : gx Re E 2 <= ln y).
  { unfold gx, log10. pose proof ln10_gt2.
    assert (A : ln (/ y) <= ln (E / (37 / 10) + 251 / 100 * 2 / Re)).
    { apply ln_incr; [apply Rinv_0_lt_compat; lra|]. unfold y.
      replace (/ (Re / (502 / 100))) with (251 / 100 * 2 / Re) by (field; lra).
      assert (0 <= E / (37 / 10)) by (unfold Rdiv; apply Rmult_le_pos; lra). lra. }
    rewrite ln_Rinv in A by lra. assert (0 <= ln y) by (rewrite <- ln_1; apply ln_incr; lra).
    set (u := ln (E / (37 / 10) + 251 / 100 * 2 / Re)) in *.
    replace (-2 * (u / ln 10)) with (- u * (2 / ln 10)) by (field; lra).
    assert (2 / ln 10 <= 1). { apply (Rmult_le_reg_r (ln 10)); [lra|]. unfold Rdiv. rewrite Rmult_assoc, Rinv_l; lra. }
    assert (0 <= 2 / ln 10) by (left; apply Rdiv_lt_0_compat; lra).
    apply Rle_trans with (ln y * (2 / ln 10)); [apply Rmult_le_compat_r; lra|].
    rewrite <- (Rmult_1_r (ln y)) at 2. apply Rmult_le_compat_l; lra. }
  assert (S1 : ln y <= 2 * sqrt y).
  { assert (P : 0 < sqrt y) by (apply sqrt_lt_R0; lra).
    rewrite <- (sqrt_def y) at 1 by lra. rewrite ln_mult by auto.
    pose proof (ln_le_minus (sqrt y) P). lra. }
  assert (S2 : 20 <= sqrt y).
  { replace 20 with (sqrt (20 ^ 2)) by (apply sqrt_pow2; lra). apply sqrt_le_1_alt. lra. }
  assert (S3 : sqrt y * sqrt y = y) by (apply sqrt_def; lra).
  apply (Rmult_le_reg_r Re); [lra|]. unfold Rdiv. rewrite Rmult_assoc, Rinv_l, Rmult_1_r by lra.
  replace Re with (y * (502 / 100)) at 2 by (unfold y; field).
  assert (20 * sqrt y <= y) by nra. lra.
Qed.

Lemma gx_top Re E : 2300 <= Re -> 0 <= E <= / 10 -> 2 <= gx Re E (top Re E).
Proof.
  intros HR HE. unfold top. pose proof (Rmax_l 8 (gx Re E 2)).
  destruct (Rle_dec 8 (gx Re E 2)) as [L|L].
  - rewrite Rmax_right by auto. apply gx_ge2; try lra. pose proof (gx2_bound Re E HR HE). lra.
  - rewrite Rmax_left by lra. apply gx8; auto.
Qed.

Lemma gx_range Re E x : 2300 <= Re -> 0 <= E <= / 10 -> 2 <= x <= top Re E -> 2 <= gx Re E x <= top Re E.
Proof.
  intros HR HE Hx. split.
  - eapply Rle_trans; [apply (gx_top Re E); auto|]. apply gx_decr; lra.
  - eapply Rle_trans; [apply (gx_decr Re E 2 x); lra|]. unfold top. apply Rmax_r.
Qed.

(** * The loop *)

Lemma stop_of x x' : 0 < x -> 0 < x' -> (1 / x' ^ 2 - 1 / x ^ 2) / (1 / x' ^ 2) = (x - x') * (x + x') / x ^ 2.
Proof. intros. field. lra. Qed.

Lemma loop_more n k Re E tol f df v : colebrook_loop n Re E tol f df = Some v ->
  colebrook_loop (n + k) Re E tol f df = Some v.
Proof.
  revert f df. induction n as [|n IH]; intros f df.
  - cbn. destruct (Rltb tol (Rabs (df / f))) eqn:Q; [discriminate|]. intros H. destruct k; cbn; rewrite Q; auto.
  - cbn. destruct (Rltb tol (Rabs (df / f))); auto.
Qed.

Section Loop.
  Variables Re E tol : R.
  Hypothesis HR : 2300 <= Re.
  Hypothesis HE : 0 <= E <= / 10.
  Hypothesis Ht : 0 < tol <= / 2.
  Local Notation g := (gx Re E).
  Local Notation U := (top Re E).

  Definition ok (f : R) : Prop := exists y, f = 1 / y ^ 2 /\ 2 <= y <= U /\ Rabs (y - g y) <= tol * y.

  Lemma U8 : 8 <= U. Proof. apply Rmax_l. Qed.

  (** a state of the loop: the last two values *)
  Lemma loop_ok n x v : 2 <= x <= U ->
    colebrook_loop n Re E tol (1 / g x ^ 2) (1 / g x ^ 2 - 1 / x ^ 2) = Some v -> ok v.
  Proof.
    revert x. induction n as [|n IH]; intros x Hx; pose proof (gx_range Re E x HR HE Hx) as Hg; cbn [colebrook_loop];
      rewrite stop_of by lra;
      destruct (Rltb tol (Rabs ((x - g x) * (x + g x) / x ^ 2))) eqn:Q; intros H; try discriminate.
    - apply Rltb_false in Q. injection H as <-.
      exists (g x). split; auto. split; auto.
      assert (A : Rabs (x - g x) <= tol * x).
      { apply (Rmult_le_reg_r ((x + g x) / x ^ 2)); [apply Rdiv_lt_0_compat; [lra|nra]|].
        apply Rle_trans with tol.
        - rewrite <- (Rabs_pos_eq ((x + g x) / x ^ 2)); [|left; apply Rdiv_lt_0_compat; [lra|nra]].
          rewrite <- Rabs_mult. replace ((x - g x) * ((x + g x) / x ^ 2)) with ((x - g x) * (x + g x) / x ^ 2) by (field; lra). auto.
        - replace (tol * x * ((x + g x) / x ^ 2)) with (tol + tol * (g x / x)) by (field; lra).
          assert (0 < g x / x) by (apply Rdiv_lt_0_compat; lra). nra. }
      pose proof (gx_lip Re E x (g x) ltac:(lra) ltac:(lra) ltac:(lra) ltac:(lra)) as L.
      assert (x <= 2 * g x). { apply Rabs_le_between in A. nra. }
      assert (0 <= Rabs (x - g x)) by apply Rabs_pos. nra.
    - rewrite pass_x in H by lra. apply (IH (g x)); auto.
    - apply Rltb_false in Q. injection H as <-.
      exists (g x). split; auto. split; auto.
      assert (A : Rabs (x - g x) <= tol * x).
      { apply (Rmult_le_reg_r ((x + g x) / x ^ 2)); [apply Rdiv_lt_0_compat; [lra|nra]|].
        apply Rle_trans with tol.
        - rewrite <- (Rabs_pos_eq ((x + g x) / x ^ 2)); [|left; apply Rdiv_lt_0_compat; [lra|nra]].
          rewrite <- Rabs_mult. replace ((x - g x) * ((x + g x) / x ^ 2)) with ((x - g x) * (x + g x) / x ^ 2) by (field; lra). auto.
        - replace (tol * x * ((x + g x) / x ^ 2)) with (tol + tol * (g x / x)) by (field; lra).
          assert (0 < g x / x) by (apply Rdiv_lt_0_compat; lra). nra. }
      pose proof (gx_lip Re E x (g x) ltac:(lra) ltac:(lra) ltac:(lra) ltac:(lra)) as L.
      assert (x <= 2 * g x). { apply Rabs_le_between in A. nra. }
      assert (0 <= Rabs (x - g x)) by apply Rabs_pos. nra.
  Qed.

  Lemma loop_ends n x : 2 <= x <= U -> Rabs (x - g x) * (U / 2) <= tol * 2 ^ n ->
    exists v, colebrook_loop n Re E tol (1 / g x ^ 2) (1 / g x ^ 2 - 1 / x ^ 2) = Some v.
  Proof.
    pose proof U8 as HU.
    revert x. induction n as [|n IH]; intros x Hx B; pose proof (gx_range Re E x HR HE Hx) as Hg; cbn [colebrook_loop];
      rewrite stop_of by lra;
      destruct (Rltb tol (Rabs ((x - g x) * (x + g x) / x ^ 2))) eqn:Q; eauto.
    - exfalso. apply Rltb_true in Q. cbn in B.
      assert (Rabs ((x - g x) * (x + g x) / x ^ 2) <= Rabs (x - g x) * (U / 2)).
      { replace ((x - g x) * (x + g x) / x ^ 2) with ((x - g x) * ((x + g x) / x ^ 2)) by (field; lra).
        rewrite Rabs_mult. apply Rmult_le_compat_l; [apply Rabs_pos|].
        rewrite Rabs_pos_eq; [|left; apply Rdiv_lt_0_compat; [lra|nra]].
        apply (Rmult_le_reg_r (x ^ 2)); [nra|]. unfold Rdiv at 1. rewrite Rmult_assoc, Rinv_l by nra.
        assert (4 <= x ^ 2) by nra. assert (U / 2 * 4 <= U / 2 * x ^ 2) by (apply Rmult_le_compat_l; lra). lra. }
      lra.
    - rewrite pass_x by lra. apply IH; auto.
      pose proof (gx_lip Re E x (g x) ltac:(lra) ltac:(lra) ltac:(lra) ltac:(lra)) as L. cbn in B. nra.
  Qed.
End Loop.

Lemma big_pow a b : 0 < b -> exists n, a <= b * 2 ^ n.
Proof.
  intros Hb. destruct (Pow_x_infinity 2 ltac:(rewrite Rabs_pos_eq; lra) (a / b)) as [N H].
  exists N. specialize (H N (Nat.le_refl _)). rewrite Rabs_pos_eq in H by (apply pow_le; lra).
  apply Rge_le in H. apply (Rmult_le_compat_l b) in H; [|lra]. replace (b * (a / b)) with a in H by (field; lra). auto.
Qed.

(** 0.02 is between 1/8^2 and 1/2^2 *)
Lemma start_x : exists x, 2 <= x <= 8 /\ 2 / 100 = 1 / x ^ 2.
Proof.
  exists (sqrt 50). split.
  - split.
    + replace 2 with (sqrt (2 ^ 2)) by (apply sqrt_pow2; lra). apply sqrt_le_1_alt. lra.
    + replace 8 with (sqrt (8 ^ 2)) by (apply sqrt_pow2; lra). apply sqrt_le_1_alt. lra.
  - rewrite pow2_sqrt by lra. lra.
Qed.

Lemma first_pass n Re E tol : tol <= / 2 -> colebrook_loop (S n) Re E tol (2 / 100) (10 ^ 99)
  = colebrook_loop n Re E tol (colebrook_pass Re E (2 / 100)) (colebrook_pass Re E (2 / 100) - 2 / 100).
Proof.
  intros Ht. cbn [colebrook_loop].
  assert (Q : Rltb tol (Rabs (10 ^ 99 / (2 / 100))) = true).
  { apply Rltb_true. assert (P : 1 <= 10 ^ 99) by (apply pow_R1_Rle; lra).
    rewrite Rabs_pos_eq; lra. }
  rewrite Q. reflexivity.
Qed.

Lemma loop_terminates Re E tol : 2300 <= Re -> 0 <= E <= / 10 -> 0 < tol <= / 2 ->
  exists N v, colebrook_loop N Re E tol (2 / 100) (10 ^ 99) = Some v.
Proof.
  intros HR HE Ht. destruct start_x as [x [Hx Ex]].
  assert (Hx' : 2 <= x <= top Re E) by (pose proof (U8 Re E); lra).
  destruct (big_pow (Rabs (x - gx Re E x) * (top Re E / 2)) tol ltac:(lra)) as [n Hn].
  destruct (loop_ends Re E tol HR HE Ht n x Hx' Hn) as [v Hv].
  exists (S n), v. rewrite first_pass by lra. rewrite Ex, pass_x by lra. auto.
Qed.

Lemma loop_result n Re E tol v : 2300 <= Re -> 0 <= E <= / 10 -> 0 < tol <= / 2 ->
  colebrook_loop n Re E tol (2 / 100) (10 ^ 99) = Some v -> ok Re E tol v.
Proof.
  intros HR HE Ht H. destruct start_x as [x [Hx Ex]].
  assert (Hx' : 2 <= x <= top Re E) by (pose proof (U8 Re E); lra).
  apply (loop_more n 1) in H. rewrite Nat.add_comm in H. cbn [Nat.add] in H.
  rewrite first_pass in H by lra. rewrite Ex, pass_x in H by lra.
  apply (loop_ok Re E tol HR HE Ht n x v Hx' H).
Qed.

(** * The exact friction factor *)

Lemma colebrook_x Re E f : 0 < Re -> colebrook Re E f -> exists x, 0 < x /\ f = 1 / x ^ 2 /\ x = gx Re E x.
Proof.
  intros HR [Hf H]. assert (P : 0 < sqrt f) by (apply sqrt_lt_R0; auto).
  exists (1 / sqrt f). split; [apply Rdiv_lt_0_compat; lra|]. split.
  - replace ((1 / sqrt f) ^ 2) with (1 / (sqrt f * sqrt f)) by (field; lra). rewrite sqrt_def by lra. field. lra.
  - unfold gx, log10. rewrite H at 1. replace (251 / 100 / (Re * sqrt f)) with (251 / 100 * (1 / sqrt f) / Re) by (field; lra). reflexivity.
Qed.

Lemma x_colebrook Re E x : 0 < Re -> 0 < x -> x = gx Re E x -> colebrook Re E (1 / x ^ 2).
Proof.
  intros HR H Q. assert (P : 0 < 1 / x ^ 2) by (apply Rdiv_lt_0_compat; [lra|nra]).
  split; auto. rewrite sqrt_inv2 by auto. replace (1 / (1 / x)) with x by (field; lra).
  replace (251 / 100 / (Re * (1 / x))) with (251 / 100 * x / Re) by (field; lra). exact Q.
Qed.

Lemma x_unique Re E x y : 0 < Re -> 0 <= E -> 0 < x -> 0 < y -> x = gx Re E x -> y = gx Re E y -> x = y.
Proof.
  intros HR HE Hx Hy Qx Qy. pose proof (miss_expands Re E x y HR HE Hx Hy) as M.
  replace (x - gx Re E x - (y - gx Re E y)) with 0 in M by lra. rewrite Rabs_R0 in M.
  apply Rminus_diag_uniq. destruct (Req_dec (x - y) 0) as [?|N]; auto.
  pose proof (Rabs_pos_lt _ N). lra.
Qed.

Lemma cont_ln x : 0 < x -> continuity_pt ln x.
Proof. intros H. apply derivable_continuous_pt. exists (/ x). apply derivable_pt_lim_ln; auto. Qed.

Lemma x_exists Re E : 2300 <= Re -> 0 <= E <= / 10 -> exists x, 2 <= x /\ x = gx Re E x.
Proof.
  intros HR HE. destruct (Req_dec (gx Re E 2) 2) as [Q|N]; [exists 2; lra|].
  assert (G2 : 2 < gx Re E 2).
  { pose proof (gx_range Re E 2 HR HE ltac:(pose proof (U8 Re E); lra)). lra. }
  set (u := gx Re E 2) in *. pose proof (gx_decr Re E 2 u ltac:(lra) ltac:(lra) ltac:(lra) ltac:(lra)) as D.
  fold u in D. destruct (Req_dec (gx Re E u) u) as [Q|N']; [exists u; lra|].
  destruct (IVT_interv (fun x => x - gx Re E x) 2 u) as [z [Hz Ez]].
  - intros a Ha. unfold gx, log10.
    apply continuity_pt_minus; [apply derivable_continuous_pt, derivable_pt_id|].
    apply continuity_pt_mult; [apply continuity_pt_const; intros ? ?; reflexivity|].
    apply continuity_pt_mult; [|apply continuity_pt_const; intros ? ?; reflexivity].
    apply (continuity_pt_comp (fun x => E / (37 / 10) + 251 / 100 * x / Re) ln).
    + apply continuity_pt_plus; [apply continuity_pt_const; intros ? ?; reflexivity|].
      apply continuity_pt_mult; [|apply continuity_pt_const; intros ? ?; reflexivity].
      apply continuity_pt_mult; [apply continuity_pt_const; intros ? ?; reflexivity|].
      apply derivable_continuous_pt, derivable_pt_id.
    + apply cont_ln, arg_pos; lra.
  - lra.
  - fold u. lra.
  - lra.
  - exists z. cbv beta in Ez. split; lra.
Qed.

Lemma root_ge2 Re E x : 2300 <= Re -> 0 <= E <= / 10 -> 0 < x -> x = gx Re E x -> 2 <= x.
Proof.
  intros HR HE Hx Q. destruct (x_exists Re E HR HE) as [y [Hy Qy]].
  rewrite (x_unique Re E x y); auto; lra.
Qed.

(** * Continuity *)

Lemma cont_max a x : continuity_pt (fun y => Rmax y a) x.
Proof.
  apply (continuity_pt_ext (fun y => (y + a + Rabs (y - a)) / 2)).
  { intros y. unfold Rmax. destruct (Rle_dec y a); [rewrite Rabs_left1 by lra|rewrite Rabs_pos_eq by lra]; field. }
  apply continuity_pt_mult; [|apply continuity_pt_const; intros ? ?; reflexivity].
  apply continuity_pt_plus.
  - apply continuity_pt_plus; [apply derivable_continuous_pt, derivable_pt_id|apply continuity_pt_const; intros ? ?; reflexivity].
  - apply (continuity_pt_comp (fun y => y - a) Rabs); [|apply Rcontinuity_abs].
    apply continuity_pt_minus; [apply derivable_continuous_pt, derivable_pt_id|apply continuity_pt_const; intros ? ?; reflexivity].
Qed.

(** the weight of the turbulent value *)
Definition weight (Re : R) : R := (Rmax 2300 (Rmin Re 4000) - 2300) / (4000 - 2300).

Lemma cont_min a x : continuity_pt (fun y => Rmin y a) x.
Proof.
  apply (continuity_pt_ext (fun y => - Rmax (- y) (- a))).
  { intros y. unfold Rmax, Rmin. destruct (Rle_dec (- y) (- a)), (Rle_dec y a); lra. }
  apply continuity_pt_opp. apply (continuity_pt_comp Ropp (fun y => Rmax y (- a))); [|apply cont_max].
  apply continuity_pt_opp, derivable_continuous_pt, derivable_pt_id.
Qed.

Lemma cont_weight x : continuity_pt weight x.
Proof.
  unfold weight. apply continuity_pt_mult; [|apply continuity_pt_const; intros ? ?; reflexivity].
  apply continuity_pt_minus; [|apply continuity_pt_const; intros ? ?; reflexivity].
  apply (continuity_pt_ext (fun y => Rmax (Rmin y 4000) 2300)); [intros; apply Rmax_comm|].
  apply (continuity_pt_comp (fun y => Rmin y 4000) (fun y => Rmax y 2300)); [apply cont_min|apply cont_max].
Qed.

Lemma nusselt_weight lam Re Pr f :
  nusselt lam Re Pr f = (1 - weight Re) * lam + weight Re * nusselt_turbulent (Rmax Re 4000) Pr f.
Proof.
  unfold nusselt, weight. destruct (Rleb 4000 Re) eqn:A.
  - apply Rleb_true in A. rewrite (Rmax_left Re 4000), (Rmin_right Re 4000), (Rmax_right 2300 4000) by lra.
    replace ((4000 - 2300) / (4000 - 2300)) with 1 by lra. ring.
  - apply Rleb_false in A. rewrite (Rmax_right Re 4000), (Rmin_left Re 4000) by lra.
    destruct (Rltb 2300 Re) eqn:B.
    + apply Rltb_true in B. rewrite (Rmax_right 2300 Re) by lra. reflexivity.
    + apply Rltb_false in B. rewrite (Rmax_left 2300 Re) by lra. replace ((2300 - 2300) / (4000 - 2300)) with 0 by lra. ring.
Qed.

Definition denom (Pr f : R) : R := 1 + 127 / 10 * sqrt (125 / 1000 * f) * (Rpower Pr (2 / 3) - 1).

Lemma cont_nusselt lam Pr (F : R -> R) Re0 :
  continuity_pt (fun Re => F (Rmax Re 2300)) Re0 -> 0 < F (Rmax Re0 2300) -> 0 < denom Pr (F (Rmax Re0 2300)) ->
  continuity_pt (fun Re => nusselt lam Re Pr (F Re)) Re0.
Proof.
  intros HF HP HD.
  apply (continuity_pt_ext (fun Re => (1 - weight Re) * lam + weight Re * nusselt_turbulent (Rmax Re 4000) Pr (F (Rmax Re 2300)))).
  { intros Re. rewrite nusselt_weight. destruct (Rle_dec 2300 Re) as [L|L]; [rewrite (Rmax_left Re 2300) by lra; auto|].
    unfold weight. rewrite (Rmin_left Re 4000), (Rmax_left 2300 Re) by lra. replace ((2300 - 2300) / (4000 - 2300)) with 0 by lra. ring. }
  apply continuity_pt_plus.
  - apply continuity_pt_mult; [|apply continuity_pt_const; intros ? ?; reflexivity].
    apply continuity_pt_minus; [apply continuity_pt_const; intros ? ?; reflexivity|apply cont_weight].
  - apply continuity_pt_mult; [apply cont_weight|]. unfold nusselt_turbulent.
    apply continuity_pt_div; [| |unfold denom in HD; lra].
    + apply continuity_pt_mult; [|apply continuity_pt_const; intros ? ?; reflexivity].
      apply continuity_pt_mult.
      * apply continuity_pt_mult; [apply continuity_pt_const; intros ? ?; reflexivity|auto].
      * apply continuity_pt_minus; [apply cont_max|apply continuity_pt_const; intros ? ?; reflexivity].
    + apply continuity_pt_plus; [apply continuity_pt_const; intros ? ?; reflexivity|].
      apply continuity_pt_mult; [|apply continuity_pt_const; intros ? ?; reflexivity].
      apply continuity_pt_mult; [apply continuity_pt_const; intros ? ?; reflexivity|].
      apply (continuity_pt_comp (fun Re => 125 / 1000 * F (Rmax Re 2300)) sqrt).
      * apply continuity_pt_mult; [apply continuity_pt_const; intros ? ?; reflexivity|auto].
      * apply continuity_pt_sqrt. lra.
Qed.

Lemma denom_pos_ge1 Pr f : 1 <= Pr -> 1 <= denom Pr f.
Proof.
  intros H. unfold denom. assert (1 <= Rpower Pr (2 / 3)).
  { rewrite <- (Rpower_O Pr) by lra. apply Rle_Rpower; lra. }
  pose proof (sqrt_pos (125 / 1000 * f)). nra.
Qed.

Lemma denom_pos Pr f : / 2 <= Pr -> 0 < f <= / 4 -> 0 < denom Pr f.
Proof.
  intros H Hf. assert (P : 62 / 100 <= Rpower Pr (2 / 3)).
  { apply Rle_trans with (Rpower (/ 2) (2 / 3)); [|apply Rle_Rpower_l; lra].
    apply Rnot_lt_le. intros L. assert (0 < Rpower (/ 2) (2 / 3)) by apply exp_pos.
    set (z := Rpower (/ 2) (2 / 3)) in *.
    assert (C3 : z * (z * z) = / 4).
    { unfold z. rewrite <- !Rpower_plus. replace (2 / 3 + (2 / 3 + 2 / 3)) with (INR 2) by (cbn; field).
      rewrite Rpower_pow by lra. lra. }
    assert (z * z <= 62 / 100 * (62 / 100)) by (apply Rmult_le_compat; lra).
    assert (z * (z * z) <= 62 / 100 * (62 / 100 * (62 / 100))) by (apply Rmult_le_compat; nra). lra. }
  unfold denom. assert (S : sqrt (125 / 1000 * f) <= 18 / 100).
  { replace (18 / 100) with (sqrt ((18 / 100) ^ 2)) by (apply sqrt_pow2; lra). apply sqrt_le_1_alt. lra. }
  pose proof (sqrt_pos (125 / 1000 * f)). nra.
Qed.

Section Exact.
  Variables (E : R) (F : R -> R).
  Hypothesis HE : 0 <= E <= / 10.
  Hypothesis HF : forall Re, 2300 <= Re -> colebrook Re E (F Re).

  Lemma F_small Re : 2300 <= Re -> 0 < F Re <= / 4.
  Proof.
    intros HR. destruct (colebrook_x Re E (F Re) ltac:(lra) (HF Re HR)) as [x [Hx [Q Qx]]].
    pose proof (root_ge2 Re E x HR HE Hx Qx). assert (4 <= x ^ 2) by nra. rewrite Q. split; [apply Rdiv_lt_0_compat; lra|].
    unfold Rdiv. rewrite Rmult_1_l. apply Rinv_le_contravar; lra.
  Qed.

  Lemma F_cont Re0 : continuity_pt (fun Re => F (Rmax Re 2300)) Re0.
  Proof.
    assert (I : forall Re, 2300 <= Rmax Re 2300) by (intros; apply Rmax_r).
    set (X := fun Re => 1 / sqrt (F (Rmax Re 2300))).
    assert (HX : forall Re, 0 < X Re /\ F (Rmax Re 2300) = 1 / X Re ^ 2 /\ X Re = gx (Rmax Re 2300) E (X Re)).
    { intros Re. specialize (I Re). destruct (colebrook_x (Rmax Re 2300) E (F (Rmax Re 2300)) ltac:(lra) (HF _ I)) as [x [Hx [Q Qx]]].
      assert (X Re = x). { unfold X. rewrite Q, sqrt_inv2 by auto. field. lra. } rewrite H. auto. }
    assert (CX : continuity_pt X Re0).
    { apply continuity_pt_locally. intros eps.
      assert (K : continuity_pt (fun Re => gx (Rmax Re 2300) E (X Re0)) Re0).
      { unfold gx, log10. apply continuity_pt_mult; [apply continuity_pt_const; intros ? ?; reflexivity|].
        apply continuity_pt_mult; [|apply continuity_pt_const; intros ? ?; reflexivity].
        apply (continuity_pt_comp (fun Re => E / (37 / 10) + 251 / 100 * X Re0 / Rmax Re 2300) ln).
        - apply continuity_pt_plus; [apply continuity_pt_const; intros ? ?; reflexivity|].
          apply continuity_pt_div; [apply continuity_pt_const; intros ? ?; reflexivity|apply cont_max|].
          specialize (I Re0). lra.
        - apply cont_ln, arg_pos; [specialize (I Re0); lra|lra|apply HX]. }
      pose proof (proj1 (continuity_pt_locally _ _) K eps) as L. revert L. apply filter_imp. intros Re L.
      destruct (HX Re) as [P1 [_ Q1]], (HX Re0) as [P0 [_ Q0]]. pose proof (I Re).
      apply Rle_lt_trans with (2 := L).
      pose proof (miss_expands (Rmax Re 2300) E (X Re) (X Re0) ltac:(lra) ltac:(lra) P1 P0) as M.
      replace (X Re - gx (Rmax Re 2300) E (X Re) - (X Re0 - gx (Rmax Re 2300) E (X Re0)))
        with (gx (Rmax Re 2300) E (X Re0) - gx (Rmax Re0 2300) E (X Re0)) in M by lra. exact M. }
    apply (continuity_pt_ext (fun Re => 1 / (X Re * X Re))).
    { intros Re. destruct (HX Re) as [P [Q _]]. rewrite Q. f_equal. ring. }
    destruct (HX Re0) as [P0 _].
    apply continuity_pt_div; [apply continuity_pt_const; intros ? ?; reflexivity|apply continuity_pt_mult; auto|].
    apply Rgt_not_eq. nra.
  Qed.

  Lemma exact_continuous lam Pr Re0 : / 2 <= Pr -> continuity_pt (fun Re => nusselt lam Re Pr (F Re)) Re0.
  Proof.
    intros HP. pose proof (F_small (Rmax Re0 2300) (Rmax_r _ _)). apply cont_nusselt; [apply F_cont|lra|].
    apply denom_pos; auto.
  Qed.
End Exact.

(** * The friction factor of the code against the exact one *)

Lemma code_root Re E tol f fx : 2300 <= Re -> 0 <= E <= / 10 -> ok Re E tol f -> colebrook Re E fx ->
  exists y x, f = 1 / y ^ 2 /\ fx = 1 / x ^ 2 /\ 2 <= y /\ 2 <= x /\ Rabs (y - x) <= tol * y.
Proof.
  intros HR HE [y [Qf [Hy B]]] Hc. destruct (colebrook_x Re E fx ltac:(lra) Hc) as [x [Hx [Q Qx]]].
  exists y, x. repeat split; auto; try lra; [apply (root_ge2 Re E); auto|].
  pose proof (miss_expands Re E y x ltac:(lra) ltac:(lra) ltac:(lra) Hx) as M.
  replace (y - gx Re E y - (x - gx Re E x)) with (y - gx Re E y) in M by lra. lra.
Qed.

Lemma nusselt_x Re Pr x : 1 <= Pr -> 0 < x -> exists B, 0 <= B /\ forall z, 0 < z ->
  nusselt_turbulent Re Pr (1 / z ^ 2) = 125 / 1000 * (Re - 1000) * Pr / (z * (z + B)).
Proof.
  intros HP Hx. exists (127 / 10 * sqrt (125 / 1000) * (Rpower Pr (2 / 3) - 1)).
  assert (1 <= Rpower Pr (2 / 3)). { rewrite <- (Rpower_O Pr) by lra. apply Rle_Rpower; lra. }
  pose proof (sqrt_pos (125 / 1000)) as S0.
  assert (HB : 0 <= 127 / 10 * sqrt (125 / 1000) * (Rpower Pr (2 / 3) - 1)) by (apply Rmult_le_pos; lra).
  split; auto. intros z Hz. unfold nusselt_turbulent. rewrite sqrt_mult_alt by lra. rewrite sqrt_inv2 by auto.
  set (B := 127 / 10 * sqrt (125 / 1000) * (Rpower Pr (2 / 3) - 1)) in *.
  replace (1 + 127 / 10 * (sqrt (125 / 1000) * (1 / z)) * (Rpower Pr (2 / 3) - 1)) with ((z + B) / z) by (unfold B; field; lra).
  field. lra.
Qed.

Lemma turb_close Re Pr y x t : 1000 <= Re -> 1 <= Pr -> 0 < y -> 0 < x -> 0 <= t < 1 -> Rabs (y - x) <= t * y ->
  (1 - t) ^ 2 * nusselt_turbulent Re Pr (1 / x ^ 2) <= nusselt_turbulent Re Pr (1 / y ^ 2)
  <= (1 + t) ^ 2 * nusselt_turbulent Re Pr (1 / x ^ 2).
Proof.
  intros HR HP Hy Hx Ht D. destruct (nusselt_x Re Pr x HP Hx) as [B [HB Q]]. rewrite (Q x Hx), (Q y Hy).
  set (A := 125 / 1000 * (Re - 1000) * Pr). assert (HA : 0 <= A) by (unfold A; nra).
  apply Rabs_le_between in D.
  assert (Py : 0 < y * (y + B)) by nra. assert (Px : 0 < x * (x + B)) by nra.
  assert (L : (1 - t) ^ 2 * (y * (y + B)) <= x * (x + B)).
  { replace ((1 - t) ^ 2 * (y * (y + B))) with (((1 - t) * y) * ((1 - t) * (y + B))) by ring. apply Rmult_le_compat; nra. }
  assert (U : x * (x + B) <= (1 + t) ^ 2 * (y * (y + B))).
  { replace ((1 + t) ^ 2 * (y * (y + B))) with (((1 + t) * y) * ((1 + t) * (y + B))) by ring. apply Rmult_le_compat; nra. }
  split.
  - apply (Rmult_le_reg_r (x * (x + B) * (y * (y + B)))); [nra|].
    replace ((1 - t) ^ 2 * (A / (x * (x + B))) * (x * (x + B) * (y * (y + B)))) with (A * ((1 - t) ^ 2 * (y * (y + B)))) by (field; lra).
    replace (A / (y * (y + B)) * (x * (x + B) * (y * (y + B)))) with (A * (x * (x + B))) by (field; lra).
    apply Rmult_le_compat_l; auto.
  - apply (Rmult_le_reg_r (x * (x + B) * (y * (y + B)))); [nra|].
    replace ((1 + t) ^ 2 * (A / (x * (x + B))) * (x * (x + B) * (y * (y + B)))) with (A * ((1 + t) ^ 2 * (y * (y + B)))) by (field; lra).
    replace (A / (y * (y + B)) * (x * (x + B) * (y * (y + B)))) with (A * (x * (x + B))) by (field; lra).
    apply Rmult_le_compat_l; auto.
Qed.

Lemma weight_01 Re : 0 <= weight Re <= 1.
Proof.
  unfold weight, Rmax, Rmin. destruct (Rle_dec Re 4000), (Rle_dec 2300 Re), (Rle_dec 2300 4000); lra.
Qed.

Lemma nusselt_close lam Re Pr y x t : 0 <= lam -> 1 <= Pr -> 0 < y -> 0 < x -> 0 <= t < 1 -> Rabs (y - x) <= t * y ->
  (1 - t) ^ 2 * nusselt lam Re Pr (1 / x ^ 2) <= nusselt lam Re Pr (1 / y ^ 2)
  <= (1 + t) ^ 2 * nusselt lam Re Pr (1 / x ^ 2).
Proof.
  intros Hl HP Hy Hx Ht D. rewrite !nusselt_weight. pose proof (Rmax_r Re 4000).
  pose proof (turb_close (Rmax Re 4000) Pr y x t ltac:(lra) HP Hy Hx Ht D) as [L U]. pose proof (weight_01 Re).
  set (w := weight Re) in *. set (a := nusselt_turbulent (Rmax Re 4000) Pr (1 / x ^ 2)) in *.
  set (b := nusselt_turbulent (Rmax Re 4000) Pr (1 / y ^ 2)) in *.
  assert (0 <= (1 - w) * lam) by (apply Rmult_le_pos; lra).
  assert ((1 - t) ^ 2 <= 1) by nra. assert (1 <= (1 + t) ^ 2) by nra.
  split.
  - assert (w * ((1 - t) ^ 2 * a) <= w * b) by (apply Rmult_le_compat_l; lra). nra.
  - assert (w * b <= w * ((1 + t) ^ 2 * a)) by (apply Rmult_le_compat_l; lra). nra.
Qed.

Lemma nusselt_pos lam Re Pr f : 0 < lam -> 1 <= Pr -> 0 < f -> 0 < nusselt lam Re Pr f.
Proof.
  intros Hl HP Hf. rewrite nusselt_weight. pose proof (Rmax_r Re 4000). pose proof (weight_01 Re).
  assert (T : 0 < nusselt_turbulent (Rmax Re 4000) Pr f).
  { unfold nusselt_turbulent. apply Rdiv_lt_0_compat.
    - repeat apply Rmult_lt_0_compat; lra.
    - pose proof (denom_pos_ge1 Pr f HP) as P. unfold denom in P. lra. }
  destruct (Req_dec (weight Re) 0) as [Q|N]; [rewrite Q; lra|].
  assert (0 < weight Re * nusselt_turbulent (Rmax Re 4000) Pr f) by (apply Rmult_lt_0_compat; lra).
  assert (0 <= (1 - weight Re) * lam) by (apply Rmult_le_pos; lra). lra.
Qed.

Lemma nusselt_laminar lam Re Pr f : Re <= 2300 -> nusselt lam Re Pr f = lam.
Proof.
  intros H. unfold nusselt. assert (A : Rleb 4000 Re = false) by (apply Rleb_false; lra).
  assert (B : Rltb 2300 Re = false) by (apply Rltb_false; lra). rewrite A, B. auto.
Qed.
