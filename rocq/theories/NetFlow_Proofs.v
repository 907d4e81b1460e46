(** Effect of the flow rate on a network of boreholes with the same U-tube (C142). *)
From Coq Require Import Reals Lra Lia List ZArith.
From Coquelicot Require Import Coquelicot.
From Verif Require Import Base Net_Model Net_Spec Net_Proofs Net_Coef_Proofs Net_Heat_Proofs Net_Cache_Proofs Net_More_Proofs
  Net_Equiv_Proofs Net_Extra_Proofs Bore_Model Pipe_Model Pipe_Spec Pipe_Main_Proofs
  Pipe_Flow_Proofs Pipe_Props Flow_Proofs NetR_Spec NetR_Proofs.
Import ListNotations.
Local Open Scope R_scope.

(* ------------------------------------------------------------------ *)
(* theta(x) with tanh theta = tanh x / k                                *)

Definition theta (k x : R) : R := / 2 * (ln (k * cosh x + sinh x) - ln (k * cosh x - sinh x)).

Lemma cosh_sinh x : cosh x - sinh x = exp (- x).
Proof. unfold cosh, sinh. field. Qed.
Lemma cosh_sinh_sum x : cosh x + sinh x = exp x.
Proof. unfold cosh, sinh. field. Qed.
Lemma cosh_sq x : cosh x ^ 2 - sinh x ^ 2 = 1.
Proof.
  replace (cosh x ^ 2 - sinh x ^ 2) with ((cosh x - sinh x) * (cosh x + sinh x)) by ring.
  rewrite cosh_sinh, cosh_sinh_sum, <- exp_plus. replace (- x + x) with 0 by ring. apply exp_0.
Qed.

Lemma cosh_positive x : 0 < cosh x.
Proof. unfold cosh. pose proof (exp_pos x). pose proof (exp_pos (- x)). lra. Qed.

Lemma den_pos k x : 1 <= k -> 0 < k * cosh x + sinh x /\ 0 < k * cosh x - sinh x.
Proof.
  intros Hk. pose proof (cosh_positive x). pose proof (exp_pos x). pose proof (exp_pos (- x)).
  rewrite <- cosh_sinh_sum in H0. rewrite <- cosh_sinh in H1. nra.
Qed.

Lemma cosh_incr x y : 0 <= x <= y -> cosh x <= cosh y.
Proof.
  intros H. assert (E : cosh y - cosh x = (exp y - exp x) * (1 - exp (- x) * exp (- y)) / 2).
  { assert (exp x * exp (- x) = 1) by (rewrite <- exp_plus; replace (x + - x) with 0 by ring; apply exp_0).
    assert (exp y * exp (- y) = 1) by (rewrite <- exp_plus; replace (y + - y) with 0 by ring; apply exp_0).
    unfold cosh. replace ((exp y - exp x) * (1 - exp (- x) * exp (- y)) / 2)
      with ((exp y - exp x - exp (- x) * (exp y * exp (- y)) + (exp x * exp (- x)) * exp (- y)) / 2) by field.
    rewrite H0, H1. field. }
  assert (M : forall a b, a <= b -> exp a <= exp b) by (intros a b [L| ->]; [left; apply exp_increasing; auto|right; auto]).
  assert (0 <= exp y - exp x) by (pose proof (M x y ltac:(lra)); lra).
  assert (exp (- x) * exp (- y) <= 1) by (rewrite <- exp_plus, <- exp_0; apply M; lra).
  assert (0 <= (exp y - exp x) * (1 - exp (- x) * exp (- y))) by (apply Rmult_le_pos; lra). lra.
Qed.

Definition dtheta (k x : R) : R := k / (k ^ 2 * cosh x ^ 2 - sinh x ^ 2).

Lemma dtheta_pos k x : 1 <= k -> 0 < dtheta k x.
Proof.
  intros Hk. destruct (den_pos k x Hk). apply Rdiv_lt_0_compat; [lra|].
  replace (k ^ 2 * cosh x ^ 2 - sinh x ^ 2) with ((k * cosh x + sinh x) * (k * cosh x - sinh x)) by ring.
  apply Rmult_lt_0_compat; assumption.
Qed.

Lemma theta_derive k x : 1 <= k -> is_derive (theta k) x (dtheta k x).
Proof.
  intros Hk. destruct (den_pos k x Hk) as [A B]. unfold theta.
  assert (Ds : is_derive sinh x (cosh x)) by (apply is_derive_Reals, derivable_pt_lim_sinh).
  assert (Dc : is_derive cosh x (sinh x)) by (apply is_derive_Reals, derivable_pt_lim_cosh).
  assert (D1 : is_derive (fun y => k * cosh y + sinh y) x (k * sinh x + cosh x)).
  { apply (is_derive_plus (V := R_NormedModule)); auto. apply is_derive_scal; auto. }
  assert (D2 : is_derive (fun y => k * cosh y - sinh y) x (k * sinh x - cosh x)).
  { apply (is_derive_minus (V := R_NormedModule)); auto. apply is_derive_scal; auto. }
  assert (L1 : is_derive (fun y => ln (k * cosh y + sinh y)) x ((k * sinh x + cosh x) * / (k * cosh x + sinh x))).
  { apply (is_derive_comp ln (fun y => k * cosh y + sinh y)); auto. apply is_derive_Reals. apply derivable_pt_lim_ln; auto. }
  assert (L2 : is_derive (fun y => ln (k * cosh y - sinh y)) x ((k * sinh x - cosh x) * / (k * cosh x - sinh x))).
  { apply (is_derive_comp ln (fun y => k * cosh y - sinh y)); auto. apply is_derive_Reals. apply derivable_pt_lim_ln; auto. }
  assert (E : dtheta k x = / 2 * ((k * sinh x + cosh x) * / (k * cosh x + sinh x) - (k * sinh x - cosh x) * / (k * cosh x - sinh x))).
  { unfold dtheta. transitivity (k * (cosh x ^ 2 - sinh x ^ 2) / (k ^ 2 * cosh x ^ 2 - sinh x ^ 2)); [rewrite cosh_sq; f_equal; ring|].
    assert (k ^ 2 * cosh x ^ 2 - sinh x ^ 2 <> 0).
    { replace (k ^ 2 * cosh x ^ 2 - sinh x ^ 2) with ((k * cosh x + sinh x) * (k * cosh x - sinh x)) by ring.
      apply Rmult_integral_contrapositive_currified; lra. }
    field. repeat split; lra. }
  rewrite E. apply is_derive_scal. apply (is_derive_minus (V := R_NormedModule)); auto.
Qed.

Lemma dtheta_down k x y : 1 <= k -> 0 <= x <= y -> dtheta k y <= dtheta k x.
Proof.
  intros Hk H. unfold dtheta.
  assert (E : forall z, k ^ 2 * cosh z ^ 2 - sinh z ^ 2 = (k ^ 2 - 1) * cosh z ^ 2 + 1) by (intros z; pose proof (cosh_sq z); lra).
  rewrite !E. assert (C : cosh x <= cosh y).
  { apply cosh_incr; lra. }
  pose proof (cosh_positive x). assert (1 <= k ^ 2) by nra.
  assert (0 <= (k ^ 2 - 1) * cosh x ^ 2) by (apply Rmult_le_pos; [lra|apply pow2_ge_0]).
  assert ((k ^ 2 - 1) * cosh x ^ 2 <= (k ^ 2 - 1) * cosh y ^ 2) by (apply Rmult_le_compat_l; [lra|nra]).
  apply Rmult_le_compat_l; [lra|]. apply Rinv_le_contravar; lra.
Qed.

Lemma theta_0 k : 1 <= k -> theta k 0 = 0.
Proof. intros Hk. unfold theta. rewrite sinh_0, cosh_0. replace (k * 1 + 0) with (k * 1 - 0) by ring. ring. Qed.

Lemma theta_mvt k x y : 1 <= k -> x < y -> exists c, x <= c <= y /\ theta k y - theta k x = dtheta k c * (y - x).
Proof.
  intros Hk L. destruct (MVT_gen (theta k) x y (dtheta k)) as (c & Hc & E).
  - intros z _. apply theta_derive; auto.
  - intros z _. apply continuity_pt_filterlim, (ex_derive_continuous (theta k)). eexists. apply theta_derive; auto.
  - exists c. rewrite Rmin_left, Rmax_right in Hc by lra. auto.
Qed.

Lemma theta_up k x y : 1 <= k -> x < y -> theta k x < theta k y.
Proof.
  intros Hk L. destruct (theta_mvt k x y Hk L) as (c & _ & E). pose proof (dtheta_pos k c Hk).
  assert (0 < dtheta k c * (y - x)) by (apply Rmult_lt_0_compat; lra). lra.
Qed.

Lemma theta_ratio k x y : 1 <= k -> 0 < x -> x < y -> theta k y * x <= theta k x * y.
Proof.
  intros Hk H L. destruct (theta_mvt k 0 x Hk H) as (c & Hc & E). destruct (theta_mvt k x y Hk L) as (c' & Hc' & E').
  rewrite (theta_0 k Hk) in E. pose proof (dtheta_down k c c' Hk ltac:(lra)). pose proof (dtheta_pos k c Hk).
  assert (theta k x = dtheta k c * x) by lra. assert (theta k y = dtheta k c * x + dtheta k c' * (y - x)) by lra.
  rewrite H2, H3. assert (dtheta k c' * (y - x) * x <= dtheta k c * (y - x) * x); [|lra].
  apply Rmult_le_compat_r; [lra|]. apply Rmult_le_compat_r; lra.
Qed.

Lemma theta_exp k x : 1 <= k -> exp (-2 * theta k x) = (k * cosh x - sinh x) / (k * cosh x + sinh x).
Proof.
  intros Hk. destruct (den_pos k x Hk) as [A B]. unfold theta.
  replace (-2 * (/ 2 * (ln (k * cosh x + sinh x) - ln (k * cosh x - sinh x))))
    with (ln (k * cosh x - sinh x) + - ln (k * cosh x + sinh x)) by field.
  rewrite exp_plus, exp_Ropp, !exp_ln by auto. reflexivity.
Qed.

(* ------------------------------------------------------------------ *)
(* t (1 + A) / (1 - A) grows, with A(t) a mean of exp(-2 L t)           *)

Section Mean.
Variables (q : nat) (L : nat -> nat).
Hypothesis q0 : (0 < q)%nat.
Hypothesis L1 : forall k, (k < q)%nat -> (1 <= L k)%nat.

Definition amean (t : R) : R := sumn q (fun k => exp (-2 * INR (L k) * t)) / INR q.
Definition dmean (t : R) : R := sumn q (fun k => -2 * INR (L k) * exp (-2 * INR (L k) * t)) / INR q.

Lemma sum_derive n t : is_derive (fun t => sumn n (fun k => exp (-2 * INR (L k) * t))) t
  (sumn n (fun k => -2 * INR (L k) * exp (-2 * INR (L k) * t))).
Proof.
  induction n as [|n IH]; cbn [sumn].
  - apply (is_derive_const (V := R_NormedModule) 0 t).
  - apply (is_derive_plus (V := R_NormedModule)); auto. auto_derive; auto.
    match goal with |- ?a = ?b => change (@eq R a b) end. ring.
Qed.

Lemma amean_derive t : is_derive amean t (dmean t).
Proof.
  unfold amean, dmean, Rdiv. pose proof (is_derive_scal _ t (/ INR q) _ (sum_derive q t)) as D.
  eapply is_derive_ext; [|match type of D with is_derive _ _ ?d => match goal with |- is_derive _ _ ?e => replace e with d by apply Rmult_comm end end; exact D].
  intros s. cbv beta. match goal with |- ?a = ?b => change (@eq R a b) end. ring.
Qed.

Lemma q_pos : 0 < INR q.
Proof. apply lt_0_INR; auto. Qed.

Lemma amean_lt1 t : 0 < t -> 0 < amean t < 1.
Proof.
  intros Ht. pose proof q_pos. unfold amean.
  assert (B : forall k, (k < q)%nat -> 0 < exp (-2 * INR (L k) * t) < 1).
  { intros k Hk. split; [apply exp_pos|]. rewrite <- exp_0. apply exp_increasing.
    assert (1 <= INR (L k)) by (change 1 with (INR 1); apply le_INR; auto). nra. }
  assert (S : 0 < sumn q (fun k => exp (-2 * INR (L k) * t)) < sumn q (fun _ => 1)).
  { clear - q0 B. induction q as [|n IH]; [lia|]. cbn [sumn]. destruct n as [|n].
    - cbn [sumn]. specialize (B O ltac:(lia)). lra.
    - destruct IH; [lia|intros; apply B; lia|]. specialize (B (S n) ltac:(lia)). lra. }
  rewrite sumn_const, Rmult_1_r in S. split; [apply Rdiv_lt_0_compat; lra|].
  apply Rmult_lt_reg_r with (INR q); auto. unfold Rdiv. rewrite Rmult_assoc, Rinv_l by lra. lra.
Qed.

Lemma sinh_gt z : 0 < z -> z < sinh z.
Proof.
  intros Hz. assert (E : sinh z = 2 * sinh (z / 2) * cosh (z / 2)).
  { replace z with (z / 2 + z / 2) at 1 by field. unfold sinh, cosh.
    replace (- (z / 2 + z / 2)) with (- (z / 2) + - (z / 2)) by ring. rewrite !exp_plus. field. }
  pose proof (sinh_ge (z / 2) ltac:(lra)). pose proof (cosh_gt1 (z / 2) ltac:(lra)). rewrite E. nra.
Qed.

(* 2 z exp(-z) < 1 - exp(-2z) *)
Lemma exp_gap z : 0 < z -> 2 * z * exp (- z) < 1 - exp (- z) ^ 2.
Proof.
  intros Hz. pose proof (sinh_gt z Hz) as S. unfold sinh in S. pose proof (exp_pos (- z)) as P.
  assert (E : exp z * exp (- z) = 1) by (rewrite <- exp_plus; replace (z + - z) with 0 by ring; apply exp_0).
  assert (z * 2 < exp z - exp (- z)) by lra. assert (z * 2 * exp (- z) < (exp z - exp (- z)) * exp (- z)) by (apply Rmult_lt_compat_r; auto).
  lra.
Qed.

Lemma jensen2 (y : nat -> R) : sumn q y ^ 2 <= INR q * sumn q (fun k => y k ^ 2).
Proof.
  assert (A : forall k l, (k < q)%nat -> (l < q)%nat -> (y k - y l) * (- y k - - y l) <= 0).
  { intros k l _ _. replace ((y k - y l) * (- y k - - y l)) with (- (y k - y l) ^ 2) by ring. pose proof (pow2_ge_0 (y k - y l)). lra. }
  pose proof (chebyshev q y (fun k => - y k) A) as C.
  rewrite sumn_opp in C. rewrite (sumn_ext q (fun k => y k * - y k) (fun k => - (y k ^ 2))) in C by (intros; ring).
  rewrite sumn_opp in C. lra.
Qed.

Lemma mean_gap t : 0 < t -> - 2 * t * dmean t < 1 - amean t ^ 2.
Proof.
  intros Ht. pose proof q_pos as Q. unfold dmean, amean.
  set (y := fun k => exp (- (2 * INR (L k) * t))).
  assert (Y : forall k, exp (-2 * INR (L k) * t) = y k) by (intros k; unfold y; f_equal; ring).
  rewrite (sumn_ext q (fun k => exp (-2 * INR (L k) * t)) y) by auto.
  rewrite (sumn_ext q (fun k => -2 * INR (L k) * exp (-2 * INR (L k) * t)) (fun k => -2 * INR (L k) * y k)) by (intros; rewrite Y; auto).
  pose proof (jensen2 y) as J.
  assert (S : sumn q (fun k => 2 * (2 * INR (L k) * t) * y k) < sumn q (fun k => 1 - y k ^ 2)).
  { assert (B : forall k, (k < q)%nat -> 2 * (2 * INR (L k) * t) * y k < 1 - y k ^ 2).
    { intros k Hk. apply exp_gap. assert (1 <= INR (L k)) by (change 1 with (INR 1); apply le_INR; auto). nra. }
    clear - q0 B. induction q as [|n IH]; [lia|]. cbn [sumn]. destruct n as [|n].
    - cbn [sumn]. specialize (B O ltac:(lia)). lra.
    - assert (I := IH ltac:(lia) ltac:(intros; apply B; lia)). specialize (B (S n) ltac:(lia)). lra. }
  rewrite sumn_minus, sumn_const, Rmult_1_r in S.
  rewrite (sumn_ext q (fun k => 2 * (2 * INR (L k) * t) * y k) (fun k => (-2 * INR (L k) * y k) * (-2 * t))) in S by (intros; ring).
  rewrite sumn_scal_r in S. set (d := sumn q (fun k => -2 * INR (L k) * y k)) in *.
  set (s := sumn q y) in *. set (s2 := sumn q (fun k => y k ^ 2)) in *.
  apply Rmult_lt_reg_r with (INR q ^ 2); [apply pow_lt; auto|].
  replace (- 2 * t * (d / INR q) * INR q ^ 2) with (d * (-2 * t) * INR q) by (field; lra).
  replace ((1 - (s / INR q) ^ 2) * INR q ^ 2) with (INR q ^ 2 - s ^ 2) by (field; lra).
  assert (d * (-2 * t) * INR q < (INR q - s2) * INR q) by (apply Rmult_lt_compat_r; auto). nra.
Qed.

Definition hmean (t : R) : R := t * (1 + amean t) / (1 - amean t).
Definition dhmean (t : R) : R := ((1 - amean t ^ 2) + 2 * t * dmean t) / (1 - amean t) ^ 2.

Lemma hmean_derive t : 0 < t -> is_derive hmean t (dhmean t).
Proof.
  intros Ht. pose proof (amean_lt1 t Ht) as A. pose proof (amean_derive t) as D. unfold hmean.
  assert (E : Derive amean t = dmean t) by (apply is_derive_unique; exact D).
  auto_derive.
  - repeat split; try (eexists; exact D). lra.
  - change (Derive (fun x => amean x) t) with (Derive amean t). rewrite E. unfold dhmean. match goal with |- ?a = ?b => change (@eq R a b) end. field. lra.
Qed.

Lemma hmean_up x y : 0 < x -> x < y -> hmean x < hmean y.
Proof.
  intros Hx L0. destruct (MVT_gen hmean x y dhmean) as (c & Hc & E).
  - intros z Hz. rewrite Rmin_left, Rmax_right in Hz by lra. apply hmean_derive; lra.
  - intros z Hz. rewrite Rmin_left, Rmax_right in Hz by lra.
    apply continuity_pt_filterlim, (ex_derive_continuous hmean). eexists. apply hmean_derive; lra.
  - rewrite Rmin_left, Rmax_right in Hc by lra. assert (0 < dhmean c).
    { pose proof (mean_gap c ltac:(lra)). pose proof (amean_lt1 c ltac:(lra)). apply Rdiv_lt_0_compat; [lra|apply pow_lt; lra]. }
    assert (0 < dhmean c * (y - x)) by (apply Rmult_lt_0_compat; lra). lra.
Qed.

Lemma amean_down x y : 0 < x -> x < y -> amean y < amean x.
Proof.
  intros Hx L0. unfold amean. pose proof q_pos as Q. apply Rmult_lt_compat_r; [apply Rinv_0_lt_compat; auto|].
  assert (B : forall k, (k < q)%nat -> exp (-2 * INR (L k) * y) < exp (-2 * INR (L k) * x)).
  { intros k Hk. apply exp_increasing. assert (1 <= INR (L k)) by (change 1 with (INR 1); apply le_INR; auto). nra. }
  clear - q0 B. induction q as [|n IH]; [lia|]. cbn [sumn]. destruct n as [|n].
  - cbn [sumn]. specialize (B O ltac:(lia)). lra.
  - assert (I := IH ltac:(lia) ltac:(intros; apply B; lia)). specialize (B (S n) ltac:(lia)). lra.
Qed.

(* x (1 + A(theta x)) / (1 - A(theta x)) grows *)
Lemma composed_up k x y : 1 <= k -> 0 < x -> x < y ->
  x * (1 + amean (theta k x)) / (1 - amean (theta k x)) < y * (1 + amean (theta k y)) / (1 - amean (theta k y)).
Proof.
  intros Hk Hx L0. assert (T0 := theta_up k 0 x Hk Hx). rewrite (theta_0 k Hk) in T0.
  pose proof (theta_up k x y Hk L0) as T1. pose proof (theta_ratio k x y Hk Hx L0) as TR.
  pose proof (hmean_up _ _ T0 T1) as HU. unfold hmean in HU.
  pose proof (amean_lt1 _ T0) as A1. pose proof (amean_lt1 (theta k y) ltac:(lra)) as A2.
  set (tx := theta k x) in *. set (ty := theta k y) in *. set (fx := (1 + amean tx) / (1 - amean tx)).
  set (fy := (1 + amean ty) / (1 - amean ty)).
  assert (H1 : tx * fx < ty * fy) by (unfold fx, fy, Rdiv in *; rewrite <- !Rmult_assoc; exact HU).
  assert (Fx : 0 < fx) by (apply Rdiv_lt_0_compat; lra). assert (Fy : 0 < fy) by (apply Rdiv_lt_0_compat; lra).
  assert (G : x * fx < y * fy).
  { apply Rmult_lt_reg_l with tx; auto. apply Rlt_le_trans with (x * (ty * fy)); [|].
    - replace (tx * (x * fx)) with (x * (tx * fx)) by ring. apply Rmult_lt_compat_l; auto.
    - replace (x * (ty * fy)) with ((ty * x) * fy) by ring. replace (tx * (y * fy)) with ((tx * y) * fy) by ring.
      apply Rmult_le_compat_r; lra. }
  unfold fx, fy, Rdiv in *. rewrite <- !Rmult_assoc in G. exact G.
Qed.
End Mean.

(* ------------------------------------------------------------------ *)
(* U-tubes                                                              *)

Definition kap (u : utube) (d e : nat) : R := 2 * root u d e / wall u d e.

Lemma wall_pos u m cp d e : good_flow u m cp 1 None d e -> 0 < wall u d e.
Proof. intros (_ & _ & [W _] & _). exact W. Qed.

Lemma kap_ge1 u m cp d e : good_flow u m cp 1 None d e -> 0 <= cond u d e -> 1 <= kap u d e.
Proof.
  intros G C0. pose proof (wall_pos _ _ _ _ _ G) as W0.
  assert (wall u d e / 2 <= root u d e).
  { unfold root. rewrite <- (sqrt_pow2 (wall u d e / 2)) by lra. apply sqrt_le_1_alt. nra. }
  unfold kap. apply Rmult_le_reg_r with (wall u d e); auto. unfold Rdiv. rewrite Rmult_assoc, Rinv_l by lra. lra.
Qed.

Lemma factor_eta u m cp d e : good_flow u m cp 1 None d e -> 0 < m \/ u_reversible u = true -> 0 <= cond u d e ->
  fst (outlet u m cp 1 None) = exp (-2 * theta (kap u d e) (eta u m cp d e)).
Proof.
  intros G P C0. pose proof (kap_ge1 _ _ _ _ _ G C0) as K1. pose proof (eta_positive _ _ _ _ _ G) as E0.
  rewrite (theta_exp _ _ K1). destruct (den_pos _ (eta u m cp d e) K1) as [D1 D2].
  pose proof (fluid_rise u m cp d e 1 0 G P) as F. rewrite (ratio_eta u m cp d e G P) in F.
  unfold get_outlet_temperature in F. cbn [sumn] in F. set (a := fst (outlet u m cp 1 None)) in *.
  pose proof (sinh_pos _ E0) as S0. pose proof (wall_pos _ _ _ _ _ G) as W0.
  set (x := eta u m cp d e) in *. assert (KR : root u d e / wall u d e = kap u d e / 2) by (unfold kap; field; lra).
  rewrite KR in F. set (k := kap u d e) in *.
  assert (F' : (a - 1) * (1 / 2 + k / 2 * (cosh x / sinh x)) = -1) by lra.
  apply (f_equal (fun z => z * (2 * sinh x))) in F'.
  replace ((a - 1) * (1 / 2 + k / 2 * (cosh x / sinh x)) * (2 * sinh x)) with ((a - 1) * (k * cosh x + sinh x)) in F' by (field; lra).
  apply Rmult_eq_reg_r with (k * cosh x + sinh x); [|lra]. unfold Rdiv. rewrite Rmult_assoc, Rinv_l by lra. lra.
Qed.

Lemma exp_power x n : exp x ^ n = exp (INR n * x).
Proof.
  induction n as [|n IH]; [cbn [pow INR]; rewrite Rmult_0_l, exp_0; reflexivity|].
  cbn [pow]. rewrite IH, <- exp_plus, S_INR. f_equal. ring.
Qed.

Lemma circuit_amean N t : circuit_mean N (exp (-2 * t)) = amean (nInlets N) (circuit_len N) t.
Proof.
  unfold circuit_mean, amean. f_equal. apply sumn_ext. intros k Hk. rewrite exp_power. f_equal. ring.
Qed.

Section Two.
Variables (N : net) (u : utube) (d e : nat).
Hypothesis W : wf N.
Hypothesis C0 : 0 <= cond u d e.
Definition share (x : R) : R := x / INR (nInlets N).
Definition fmean (x cp : R) : R := amean (nInlets N) (circuit_len N) (theta (kap u d e) (eta u (share x) cp d e)).

Lemma share_flow x cp : good_flow u (share x) cp 1 None d e -> x <> 0 /\ 0 < cp /\ 0 < Rabs x * cp
  /\ Rabs (share x) * cp = Rabs x * cp / INR (nInlets N).
Proof.
  intros G. pose proof (inlets_pos N W) as I0. pose proof (rate_pos _ _ _ _ _ G) as R0.
  assert (E : Rabs (share x) * cp = Rabs x * cp / INR (nInlets N)) by (unfold share; rewrite (flow_share N x W); field; lra).
  assert (X : 0 < Rabs x * cp).
  { rewrite E in R0. apply Rmult_lt_reg_r with (/ INR (nInlets N)); [apply Rinv_0_lt_compat; auto|]. rewrite Rmult_0_l. exact R0. }
  assert (Hx : x <> 0) by (intros Q; rewrite Q, Rabs_R0 in X; lra).
  split; auto. split; [|split; auto]. assert (0 < Rabs x) by (apply Rabs_pos_lt; auto). nra.
Qed.

Lemma inlets_nat : (0 < nInlets N)%nat.
Proof. apply INR_lt. exact (inlets_pos N W). Qed.

Lemma theta_positive x cp : good_flow u (share x) cp 1 None d e -> 0 < theta (kap u d e) (eta u (share x) cp d e).
Proof.
  intros G. pose proof (kap_ge1 _ _ _ _ _ G C0) as K1. rewrite <- (theta_0 _ K1). apply theta_up; auto.
  apply (eta_positive _ _ _ _ _ G).
Qed.

Lemma fmean_factor x cp : good_flow u (share x) cp 1 None d e -> 0 < share x \/ u_reversible u = true ->
  circuit_mean N (fst (outlet u (share x) cp 1 None)) = fmean x cp /\ 0 < fmean x cp < 1
  /\ 0 < fst (outlet u (share x) cp 1 None) < 1.
Proof.
  intros G P. rewrite (factor_eta _ _ _ _ _ G P C0), circuit_amean. split; [reflexivity|]. split.
  - apply amean_lt1; [exact inlets_nat|intros; apply circuit_pos; auto|apply theta_positive; auto].
  - split; [apply exp_pos|]. rewrite <- exp_0. apply exp_increasing. pose proof (theta_positive x cp G). lra.
Qed.

Lemma network_R x cp : good_flow u (share x) cp 1 None d e -> 0 < share x \/ u_reversible u = true ->
  network_thermal_resistance N (repeat (net_pipe u) (nB N)) (INR (nB N) * bH (u_b u)) [x] [cp]
  = Some (1/2 * (INR (nB N) * bH (u_b u)) * (1 + fmean x cp) / (Rabs x * cp * (1 - fmean x cp))).
Proof.
  intros G P. destruct (share_flow x cp G) as (Hx & Hc & _ & _). destruct (fmean_factor x cp G P) as (E & _ & A).
  rewrite (resistance_formula N (net_pipe u) _ x cp W Hx ltac:(lra) ltac:(cbn [net_pipe p_out]; unfold share in A; lra)).
  cbn [net_pipe p_out]. fold (share x). rewrite E. reflexivity.
Qed.

Lemma flow_compare x1 x2 cp1 cp2 : good_flow u (share x1) cp1 1 None d e -> good_flow u (share x2) cp2 1 None d e ->
  Rabs x1 * cp1 < Rabs x2 * cp2 ->
  fmean x1 cp1 < fmean x2 cp2
  /\ (1 + fmean x2 cp2) / (Rabs x2 * cp2 * (1 - fmean x2 cp2)) < (1 + fmean x1 cp1) / (Rabs x1 * cp1 * (1 - fmean x1 cp1)).
Proof.
  intros G1 G2 L. destruct (share_flow _ _ G1) as (_ & _ & X1 & S1). destruct (share_flow _ _ G2) as (_ & _ & X2 & S2).
  pose proof (kap_ge1 _ _ _ _ _ G1 C0) as K1. pose proof (inlets_pos N W) as I0.
  assert (H0 : 0 < bH (u_b u)) by apply G1. pose proof (root_pos _ _ _ _ _ G1) as R0.
  assert (E1 : eta u (share x1) cp1 d e = bH (u_b u) * root u d e * INR (nInlets N) / (Rabs x1 * cp1)).
  { unfold eta. rewrite S1. field. repeat split; try lra; intros Z; rewrite Z in X1; lra. }
  assert (E2 : eta u (share x2) cp2 d e = bH (u_b u) * root u d e * INR (nInlets N) / (Rabs x2 * cp2)).
  { unfold eta. rewrite S2. field. repeat split; try lra; intros Z; rewrite Z in X2; lra. }
  assert (Q : 0 < bH (u_b u) * root u d e * INR (nInlets N)) by (repeat apply Rmult_lt_0_compat; auto).
  assert (EL : eta u (share x2) cp2 d e < eta u (share x1) cp1 d e).
  { rewrite E1, E2. apply Rmult_lt_compat_l; auto. apply Rinv_lt_contravar; [apply Rmult_lt_0_compat; auto|auto]. }
  pose proof (eta_positive _ _ _ _ _ G2) as Z2.
  assert (CP := fun k Hk => circuit_pos N k W Hk).
  split.
  - apply amean_down; [exact inlets_nat|exact CP|apply theta_positive; auto|apply theta_up; auto].
  - pose proof (composed_up (nInlets N) (circuit_len N) inlets_nat CP (kap u d e) _ _ K1 Z2 EL) as U.
    fold (fmean x1 cp1) in U. fold (fmean x2 cp2) in U. rewrite E1, E2 in U.
    pose proof (amean_lt1 _ _ inlets_nat CP _ (theta_positive _ _ G1)) as A1. fold (fmean x1 cp1) in A1.
    pose proof (amean_lt1 _ _ inlets_nat CP _ (theta_positive _ _ G2)) as A2. fold (fmean x2 cp2) in A2.
    apply Rmult_lt_reg_l with (bH (u_b u) * root u d e * INR (nInlets N)); auto.
    match type of U with ?a < ?b => match goal with |- ?c < ?f => replace c with a; [replace f with b; [exact U|]|] end end;
      field; repeat split; try lra; intros Z; rewrite Z in *; lra.
Qed.
End Two.

(* ------------------------------------------------------------------ *)
(* Outlet temperature and heat at one wall temperature                  *)

Lemma uniform_factor u m cp n r d e t T : good_flow u m cp n r d e ->
  get_outlet_temperature u t n (fun _ => T) m cp r - T = fst (outlet u m cp 1 None) * (t - T).
Proof.
  intros G. rewrite (uniform_outlet u m cp n r d e t T G). apply one_segment in G.
  destruct (equil u m cp 1 None d e G 1 (fun _ => 1) 1 eq_refl (fun _ _ => eq_refl)) as [E _].
  unfold get_outlet_temperature in *. cbn [sumn] in *.
  set (a := fst (outlet u m cp 1 None)) in *. set (b := snd (outlet u m cp 1 None) 0%nat) in *.
  assert (B : b = 1 - a) by lra. rewrite B. ring.
Qed.

Lemma scalar_fmt_s N ps x cp s : wf N -> x <> 0 -> length ps = nB N ->
  exists F, good_args N ps (mkargs [x] [cp] (SegN s) RNone) F
  /\ (forall i, (i < nB N)%nat -> nth i (f_mb F) 0 = x / INR (nInlets N) /\ nth i (f_cpb F) 0 = cp
        /\ nth i (f_seg F) O = s /\ nth i (f_rat F) None = None)
  /\ (forall k, (k < nInlets N)%nat -> nth k (f_m F) 0 = x / INR (nInlets N)).
Proof.
  intros W Hx Lp. assert (exists r, format_dir [x] = Some r) as [rv Hr].
  { unfold format_dir. simpl. destruct (Rleb 0 x) eqn:E1; [eexists; reflexivity|].
    apply Rleb_false in E1. assert (Q : Rleb x 0 = true) by (apply Rleb_true; lra). rewrite Q. eexists; reflexivity. }
  assert (EF : exists F, format_inputs N (mkargs [x] [cp] (SegN s) RNone) = Some F
    /\ f_m F = repeat (x / INR (nInlets N)) (nInlets N) /\ f_seg F = repeat s (nB N) /\ f_rat F = repeat None (nB N)).
  { unfold format_inputs. cbn [g_m g_cp g_n g_r format_flow format_cp format_seg format_rat]. rewrite Hr. eexists.
    split; [reflexivity|]. cbn [f_m f_seg f_rat]. auto. }
  destruct EF as (F & Hf & E1 & E2 & E3). exists F. split; [|split].
  - split; [exact Hf|]. split; [exact Lp|]. rewrite E3. apply repeat_length.
  - intros i Hi. rewrite (mb_nth N _ F i W Hf Hi), E1, E2, E3.
    destruct (cpb_nth N _ F W Hf) as [c [C1 C2]]. rewrite (C2 i Hi), <- (C1 cp) by (cbn; auto).
    assert (nth i (n_circ N) O < nInlets N)%nat by (apply W; auto).
    rewrite !nth_repeat_lt by auto. auto.
  - intros k Hk. rewrite E1. apply nth_repeat_lt; auto.
Qed.

Lemma uniform_network N u x cp s d e t T : wf N -> good_flow u (share N x) cp s None d e -> t <> T ->
  let g := mkargs [x] [cp] (SegN s) RNone in
  exists F o h, good_args N (repeat (net_pipe u) (nB N)) g F
  /\ fresh N (repeat (net_pipe u) (nB N)) NetOutlet g = Some o /\ fresh N (repeat (net_pipe u) (nB N)) NetHeat g = Some h
  /\ let out := apply_coefs (seg_total (f_seg F)) o t (fun _ => T) O in
     out - T = circuit_mean N (fst (outlet u (share N x) cp 1 None)) * (t - T)
     /\ apply_coefs (seg_total (f_seg F)) h t (fun _ => T) O = Rabs x * cp * (out - t).
Proof.
  intros W G Ht g. destruct (share_flow N u d e W x cp (one_segment _ _ _ _ _ _ _ G)) as (Hx & Hc & X0 & _).
  set (ps := repeat (net_pipe u) (nB N)).
  destruct (scalar_fmt_s N ps x cp s W Hx ltac:(apply repeat_length)) as (F & GA & HF & Hm).
  fold g in GA.
  destruct (fresh_some_all N ps g F W GA) as (i & o & qb & qf & h & no & Hi & Ho & Hb & Hf & Hh & Hn).
  exists F, no, h. split; [exact GA|]. split; [exact Hn|]. split; [exact Hh|].
  assert (Hi' := Hi). assert (Ho' := Ho).
  rewrite (fresh_direct N ps _ g F W GA) in Hi'; cbn [direct] in Hi'. rewrite (fresh_direct N ps _ g F W GA) in Ho'; cbn [direct] in Ho'.
  destruct (ends_exist N (f_rev F) W) as [E HE]. set (K := seg_total (f_seg F)). cbv zeta.
  assert (I0 := inlets_pos N W).
  assert (EM : well_mixed N F E) by (right; left; exists (x / INR (nInlets N)); exact Hm).
  assert (TF : total_flow N F = Rabs x).
  { unfold total_flow. rewrite (sumn_ext _ _ (fun _ => Rabs (x / INR (nInlets N)))) by (intros k Hk; rewrite Hm by auto; reflexivity).
    rewrite sumn_const, (flow_share N x W). field; lra. }
  assert (A0 : 0 < Rabs x) by (apply Rabs_pos_lt; auto).
  split.
  - set (a := fst (outlet u (share N x) cp 1 None)).
    set (ti := apply_coefs K i t (fun _ => T)). set (to := apply_coefs K o t (fun _ => T)).
    assert (Cn : connected (n_c N) (f_rev F) t ti to) by exact (coefs_connected N ps g F i o t (fun _ => T) W GA Hi' Ho').
    assert (Cn1 : connected (n_c N) (f_rev F) 1 (fun j => (ti j - T) / (t - T)) (fun j => (to j - T) / (t - T))).
    { intros j Hj. destruct (Cn j Hj) as [A B]. split; [intros l Fl; rewrite (A l Fl); auto|intros Q; rewrite (B Q); field; lra]. }
    assert (Po : forall j, (j < nB N)%nat -> (to j - T) / (t - T) = a * ((ti j - T) / (t - T))).
    { intros j Hj. unfold to, K. rewrite (in_out_consistent N ps g F i o t (fun _ => T) W GA Hi' Ho' j Hj). fold K. fold ti. unfold bore_outlet.
      destruct (HF j Hj) as (F1 & F2 & F3 & F4). rewrite F1, F2, F3, F4. unfold ps. rewrite nth_repeat_lt by auto.
      cbn [net_pipe p_out]. fold (share N x).
      pose proof (uniform_factor u (share N x) cp s None d e (ti j) T G) as UF. fold a in UF. unfold get_outlet_temperature in UF.
      rewrite UF. field. lra. }
    pose proof (mean_factor N (f_rev F) a _ _ E W Cn1 Po HE) as MF. unfold mean_out in MF.
    unfold K. rewrite (outlet_mixture N ps g F E t (fun _ => T) no o W GA HE EM Hn Ho). fold K. rewrite TF.
    rewrite (sumn_ext _ _ (fun k => Rabs (x / INR (nInlets N)) * to (E k))) by (intros k Hk; rewrite Hm by auto; reflexivity).
    rewrite sumn_scal, (flow_share N x W), <- MF.
    rewrite (sumn_ext (nInlets N) (fun k => (to (E k) - T) / (t - T)) (fun k => (to (E k) - T) * / (t - T))) by reflexivity.
    rewrite sumn_scal_r, sumn_minus, sumn_const. field. repeat split; lra.
  - rewrite <- TF. apply (heat_balance N ps g F E t (fun _ => T) cp h no W GA HE EM); auto. rewrite TF; lra. cbn; auto.
Qed.
