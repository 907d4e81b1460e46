(** The response of one vertical borehole to its own heat extraction slows down. *)
From Coq Require Import Reals Lra Lia List Bool Psatz.
From Verif Require Import Base FLS_Model FLS_Spec FLS_Erf_Proofs FLS_Proofs FLS_Sol_Proofs FLS_Line_Proofs Under_Spec.
From Coquelicot Require Import Coquelicot.
Local Open Scope R_scope.

Section Self.
Variables (H D r : R) (img : bool).
Hypothesis HH : 0 < H.
Hypothesis HD : 0 <= D.
Hypothesis Hr : 0 < r.

Let f := fls_integrand r H D H D true img.

(** s times the integrand without the exponential. *)
Definition scaled (s : R) : R := comb true img (kern s) H D H D / s.

Lemma f_scaled s : 0 < s -> s * f s = scaled s * exp (- r ^ 2 * s ^ 2).
Proof. intros P. unfold f, scaled. rewrite integrand_comb. field. lra. Qed.

Lemma f_pos s : 0 < s -> 0 < f s.
Proof. intros P. apply integrand_pos; auto; lra. Qed.

Lemma scaled_pos s : 0 < s -> 0 < scaled s.
Proof.
  intros P. pose proof (f_scaled s P) as E. pose proof (f_pos s P). pose proof (exp_pos (- r ^ 2 * s ^ 2)) as X.
  assert (0 < s * f s) by nra. rewrite E in H1.
  apply (Rmult_lt_reg_r (exp (- r ^ 2 * s ^ 2))); lra.
Qed.

Lemma term_derive q s : 0 < s -> is_derive (fun s : R => kern s q / s) s ((1 - exp (- (q ^ 2 * s ^ 2))) / (sqrt PI * s ^ 2)).
Proof.
  intros P. unfold kern.
  assert (S0 : sqrt PI <> 0) by (apply Rgt_not_eq, sqrt_lt_R0, PI_RGT_0).
  evar_last.
  - apply (is_derive_div (fun s : R => erfint (q * s)) (fun s : R => s) s (q * erf (q * s)) 1); [|apply (is_derive_id (K := R_AbsRing) s)|lra].
    apply (is_derive_comp erfint (fun s : R => q * s) s (erf (q * s)) q).
    + apply erfint_derive.
    + auto_derive; [exact I|ring].
  - unfold minus, plus, opp, scal, mult; cbn. unfold mult; cbn. unfold erfint.
    replace (- (q * s) ^ 2) with (- (q ^ 2 * s ^ 2)) by ring. cbn. field. split; [lra|exact S0].
Qed.

Definition slope (s : R) : R := comb true img (fun q => (1 - exp (- (q ^ 2 * s ^ 2))) / (sqrt PI * s ^ 2)) H D H D.

Lemma scaled_derive s : 0 < s -> is_derive scaled s (slope s).
Proof.
  intros P.
  apply (is_derive_ext (fun s : R => comb true img (fun q => kern s q / s) H D H D)).
  { intros t. match goal with |- ?a = ?b => change (@eq R a b) end. unfold scaled, comb. destruct img; unfold Rdiv; ring. }
  unfold slope, comb.
  apply @is_derive_plus.
  - apply @is_derive_minus; [apply @is_derive_plus; [apply @is_derive_minus|]|]; apply term_derive; exact P.
  - destruct img; [|apply (is_derive_const (V := R_NormedModule) 0 s)].
    apply @is_derive_minus; [apply @is_derive_plus; [apply @is_derive_minus|]|]; apply term_derive; exact P.
Qed.

Lemma unit_poly a b c : 0 <= a <= 1 -> 0 <= b <= 1 -> 0 <= c <= 1 ->
  0 <= 2 - 2 * a - 2 * (a * b * c) + c + a ^ 4 * b ^ 2 * c.
Proof.
  intros A B C.
  assert (K : 0 <= 3 - 2 * a - 2 * (a * b) + a ^ 4 * b ^ 2).
  { assert (0 <= (1 - a) ^ 2 * (a ^ 2 + 2 * a + 3)) by (apply Rmult_le_pos; [apply pow2_ge_0|nra]).
    assert (0 <= a ^ 4 <= a).
    { split; [apply pow_le; lra|]. assert (0 <= a ^ 3 <= 1) by (split; [apply pow_le; lra|]; replace 1 with (1 ^ 3) by ring; apply pow_incr; lra).
      replace (a ^ 4) with (a * a ^ 3) by ring. nra. }
    assert (a ^ 4 * (1 - b ^ 2) <= 2 * a * (1 - b)).
    { replace (1 - b ^ 2) with ((1 - b) * (1 + b)) by ring.
      assert (a ^ 4 * (1 + b) <= 2 * a) by nra.
      nra. }
    nra. }
  nra.
Qed.

Lemma slope_nonneg s : 0 < s -> 0 <= slope s.
Proof.
  intros P. assert (S0 : 0 < sqrt PI) by (apply sqrt_lt_R0, PI_RGT_0).
  assert (I : 0 < / (sqrt PI * s ^ 2)) by (apply Rinv_0_lt_compat, Rmult_lt_0_compat; [exact S0|apply pow_lt; exact P]).
  assert (U : forall x, 0 <= x -> 0 <= exp (- x) <= 1).
  { intros x X. split; [left; apply exp_pos|]. rewrite <- exp_0. destruct X as [X| <-]; [left; apply exp_increasing; lra|rewrite Ropp_0; lra]. }
  set (a := exp (- (H ^ 2 * s ^ 2))). set (b := exp (- (4 * H * D * s ^ 2))). set (c := exp (- (4 * D ^ 2 * s ^ 2))).
  assert (S2 : 0 < s ^ 2) by (apply pow_lt; exact P).
  assert (A : 0 <= a <= 1) by (apply U; nra).
  assert (B : 0 <= b <= 1) by (apply U; apply Rmult_le_pos; [nra|lra]).
  assert (C : 0 <= c <= 1) by (apply U; apply Rmult_le_pos; [nra|lra]).
  assert (E1 : exp (- ((D + D + H) ^ 2 * s ^ 2)) = a * b * c).
  { unfold a, b, c. rewrite <- !exp_plus. f_equal. ring. }
  assert (E2 : exp (- ((D + D + H + H) ^ 2 * s ^ 2)) = a ^ 4 * b ^ 2 * c).
  { replace (a ^ 4 * b ^ 2 * c) with (a * a * a * a * b * b * c) by ring.
    unfold a, b, c. rewrite <- !exp_plus. f_equal. ring. }
  assert (E3 : exp (- ((D + D) ^ 2 * s ^ 2)) = c) by (unfold c; f_equal; ring).
  unfold slope, comb, Rdiv.
  replace (D - D + H - H) with 0 by ring. replace (D - D + H) with H by ring. replace (D - D - H) with (- H) by ring.
  replace (D - D) with 0 by ring.
  replace ((- H) ^ 2) with (H ^ 2) by ring. replace (0 ^ 2 * s ^ 2) with 0 by ring. rewrite Ropp_0, exp_0.
  fold a. set (i := / (sqrt PI * s ^ 2)) in *.
  destruct img.
  - rewrite E1, E2, E3. pose proof (unit_poly a b c A B C).
    match goal with |- 0 <= ?e => replace e with ((2 - 2 * a - 2 * (a * b * c) + c + a ^ 4 * b ^ 2 * c) * i) by ring end.
    apply Rmult_le_pos; lra.
  - match goal with |- 0 <= ?e => replace e with ((2 - 2 * a) * i) by ring end. apply Rmult_le_pos; lra.
Qed.

Lemma scaled_incr s t : 0 < s -> s <= t -> scaled s <= scaled t.
Proof.
  intros P [L| <-]; [|lra].
  destruct (MVT_gen scaled s t slope) as (c & (C1 & C2) & E).
  - intros x (X & _). rewrite Rmin_left in X by lra. apply scaled_derive. lra.
  - intros x (X & _). rewrite Rmin_left in X by lra.
    apply continuity_pt_filterlim. apply (ex_derive_continuous scaled). exists (slope x). apply scaled_derive. lra.
  - rewrite Rmin_left in C1 by lra. pose proof (slope_nonneg c ltac:(lra)). nra.
Qed.

(** ** Rate of the response *)
Variable alpha : R.
Hypothesis Ha : 0 < alpha.

Let g (t : R) : R := fls t alpha r H D H D true img.

Lemma lower_sq t : 0 < t -> lower alpha t ^ 2 = / (4 * alpha * t).
Proof.
  intros P. unfold lower. unfold Rdiv. rewrite Rmult_1_l, pow_inv, pow2_sqrt; [reflexivity|nra].
Qed.

Lemma lower_derive t : 0 < t -> is_derive (lower alpha) t (- (lower alpha t / (2 * t))).
Proof.
  intros P. unfold lower.
  assert (Q : 0 < 4 * alpha * t) by nra. pose proof (sqrt_lt_R0 _ Q) as S. pose proof (pow2_sqrt _ (Rlt_le _ _ Q)) as E.
  auto_derive; [repeat split; auto; lra|].
  set (x := sqrt (4 * alpha * t)) in *.
  apply (Rmult_eq_reg_r (2 * t * x)); [|nra]. field_simplify; [|lra|lra].
  replace (x ^ 2) with (4 * alpha * t) by lra. field. lra.
Qed.

Definition rate (t : R) : R := (1/2) / H * (scaled (lower alpha t) * (exp (- (r ^ 2 / (4 * alpha) / t)) / (2 * t))).

Lemma g_derive t : 0 < t -> is_derive g t (rate t).
Proof.
  intros P. set (b := lower alpha (t / 2)).
  assert (Lb : lower alpha t < b) by (apply lower_lt; lra).
  pose proof (lower_pos alpha t Ha P) as Lt.
  apply (is_derive_ext_loc (fun u : R => (1/2) / H * (RInt f (lower alpha u) b + quad_inf f b))).
  { exists (mkposreal (t / 2) ltac:(lra)). intros u Hu.
    assert (U : t / 2 < u) by (unfold ball in Hu; cbn in Hu; unfold AbsRing_ball, abs, minus, plus, opp in Hu; cbn in Hu; apply Rabs_def2 in Hu; lra).
    pose proof (lower_lt alpha (t / 2) u Ha ltac:(lra) U) as Lu. fold b in Lu.
    pose proof (lower_pos alpha u Ha ltac:(lra)) as Pu.
    unfold g, fls. fold f. f_equal. symmetry.
    apply (quad_chasles f (lower alpha u) b); [lra|]. apply integrand_conv; [exact Pu|lra]. }
  evar_last.
  - apply @is_derive_scal. apply (is_derive_plus (fun u : R => RInt f (lower alpha u) b) (fun _ => quad_inf f b) t).
    + apply (is_derive_comp (fun a : R => RInt f a b) (lower alpha) t (- f (lower alpha t))).
      * apply (is_derive_RInt' f (fun a => RInt f a b) (lower alpha t) b).
        -- exists (mkposreal (lower alpha t) Lt). intros a Pa.
           apply (RInt_correct (V := R_CompleteNormedModule)). apply (ex_RInt_continuous (V := R_CompleteNormedModule)).
           intros z (Z & _). apply integrand_cont.
           assert (0 < a) by (unfold ball in Pa; cbn in Pa; unfold AbsRing_ball, abs, minus, plus, opp in Pa; cbn in Pa; apply Rabs_def2 in Pa; lra).
           assert (0 < b) by lra. pose proof (Rmin_glb_lt a b 0 H0 H1). lra.
        -- apply integrand_cont. exact Lt.
      * apply lower_derive. exact P.
    + apply (is_derive_const (V := R_NormedModule) (quad_inf f b) t).
  - transitivity ((1/2) / H * (lower alpha t * f (lower alpha t) / (2 * t))).
    + unfold scal, plus, zero, mult; cbn. unfold mult; cbn. match goal with |- ?a = ?b => change (@eq R a b) end. field. split; lra.
    + unfold rate. rewrite f_scaled by exact Lt. pose proof (lower_sq t P) as L2.
      replace (- (r ^ 2 / (4 * alpha) / t)) with (- r ^ 2 * lower alpha t ^ 2) by (rewrite L2; field; lra).
      match goal with |- ?a = ?b => change (@eq R a b) end. field. split; lra.
Qed.

Lemma decay k t u : 0 <= k -> k <= t -> 0 < t -> t <= u -> exp (- (k / u)) / (2 * u) <= exp (- (k / t)) / (2 * t).
Proof.
  intros K KT T U.
  assert (E : exp (- (k / t)) = exp (- (k / u)) * exp (- (k / t - k / u))) by (rewrite <- exp_plus; f_equal; ring).
  rewrite E. pose proof (exp_pos (- (k / u))) as X. set (x := exp (- (k / u))) in *.
  pose proof (exp_ineq1_le (- (k / t - k / u))) as Y. set (y := exp (- (k / t - k / u))) in *.
  assert (Z : t / u <= y).
  { apply Rle_trans with (1 - (k / t - k / u)); [|lra].
    assert (k / t - k / u <= 1 - t / u).
    { replace (k / t - k / u) with (k / t * (1 - t / u)) by (field; lra).
      assert (k / t <= 1) by (apply (Rmult_le_reg_r t); [lra|]; unfold Rdiv; rewrite Rmult_assoc, Rinv_l; lra).
      assert (0 <= 1 - t / u) by (assert (t / u <= 1) by (apply (Rmult_le_reg_r u); [lra|]; unfold Rdiv; rewrite Rmult_assoc, Rinv_l; lra); lra).
      nra. }
    lra. }
  apply (Rmult_le_reg_r (2 * u)); [lra|]. replace (x / (2 * u) * (2 * u)) with x by (field; lra).
  replace (x * y / (2 * t) * (2 * u)) with (x * (y * (u / t))) by (field; lra).
  assert (1 <= y * (u / t)).
  { apply Rle_trans with (t / u * (u / t)); [right; field; lra|]. apply Rmult_le_compat_r; [|exact Z].
    left. apply Rdiv_lt_0_compat; lra. }
  nra.
Qed.

Lemma rate_pos t : 0 < t -> 0 < rate t.
Proof.
  intros P. unfold rate. pose proof (lower_pos alpha t Ha P).
  apply Rmult_lt_0_compat; [apply Rdiv_lt_0_compat; lra|]. apply Rmult_lt_0_compat; [apply scaled_pos; assumption|].
  apply Rdiv_lt_0_compat; [apply exp_pos|lra].
Qed.

Lemma rate_decr t u : r ^ 2 / (4 * alpha) <= t -> t <= u -> rate u <= rate t.
Proof.
  intros K U. assert (K0 : 0 < r ^ 2 / (4 * alpha)) by (apply Rdiv_lt_0_compat; [apply pow_lt; exact Hr|lra]).
  assert (T : 0 < t) by lra. unfold rate.
  apply Rmult_le_compat_l; [left; apply Rdiv_lt_0_compat; lra|].
  pose proof (lower_pos alpha t Ha T). pose proof (lower_pos alpha u Ha ltac:(lra)).
  apply Rmult_le_compat.
  - left. apply scaled_pos; assumption.
  - left. apply Rdiv_lt_0_compat; [apply exp_pos|lra].
  - apply scaled_incr; [assumption|]. destruct U as [U| <-]; [left; apply lower_lt; assumption|lra].
  - apply decay; lra.
Qed.

Lemma g_mvt t u : 0 < t -> t < u -> exists c, t <= c <= u /\ g u - g t = rate c * (u - t).
Proof.
  intros T U. destruct (MVT_gen g t u rate) as (c & C & E).
  - intros x (X & _). rewrite Rmin_left in X by lra. apply g_derive. lra.
  - intros x (X & _). rewrite Rmin_left in X by lra.
    apply continuity_pt_filterlim. apply (ex_derive_continuous g). exists (rate x). apply g_derive. lra.
  - rewrite Rmin_left, Rmax_right in C by lra. exists c. auto.
Qed.

Lemma g_concave t1 t2 t3 : r ^ 2 / (4 * alpha) <= t1 -> t1 < t2 -> t2 < t3 ->
  (g t3 - g t2) / (t3 - t2) <= (g t2 - g t1) / (t2 - t1).
Proof.
  intros K A B. assert (K0 : 0 < r ^ 2 / (4 * alpha)) by (apply Rdiv_lt_0_compat; [apply pow_lt; exact Hr|lra]).
  destruct (g_mvt t1 t2 ltac:(lra) A) as (c & C & E1). destruct (g_mvt t2 t3 ltac:(lra) B) as (d & Dd & E2).
  rewrite E1, E2. replace (rate d * (t3 - t2) / (t3 - t2)) with (rate d) by (field; lra).
  replace (rate c * (t2 - t1) / (t2 - t1)) with (rate c) by (field; lra). apply rate_decr; lra.
Qed.

(** ** The first time step *)
Lemma four q : 663 / 1000 <= q -> q <= 1 -> q <= q ^ 2 + q ^ 4 + q ^ 8.
Proof.
  intros A B.
  assert (Q2 : 4395 / 10000 <= q ^ 2) by nra.
  assert (Q3 : 2913 / 10000 <= q ^ 3) by (replace (q ^ 3) with (q * q ^ 2) by ring; nra).
  assert (Q4 : 1931 / 10000 <= q ^ 4) by (replace (q ^ 4) with (q ^ 2 * q ^ 2) by ring; nra).
  assert (Q7 : 562 / 10000 <= q ^ 7) by (replace (q ^ 7) with (q ^ 3 * q ^ 4) by ring; nra).
  replace (q ^ 2 + q ^ 4 + q ^ 8) with (q * (q + q ^ 3 + q ^ 7)) by ring. nra.
Qed.

Lemma exp_04 x : 0 <= x -> x <= 4 / 10 -> 663 / 1000 <= exp (- x) <= 1.
Proof.
  intros A B. split.
  - assert (E : exp (- x) = exp (- x / 8) ^ 8).
    { replace (exp (- x / 8) ^ 8) with (exp (- x / 8) * exp (- x / 8) * exp (- x / 8) * exp (- x / 8)
        * exp (- x / 8) * exp (- x / 8) * exp (- x / 8) * exp (- x / 8)) by ring.
      rewrite <- !exp_plus. f_equal. field. }
    rewrite E. pose proof (exp_ineq1_le (- x / 8)) as Y.
    apply Rle_trans with ((95 / 100) ^ 8); [cbn; lra|]. apply pow_incr. lra.
  - rewrite <- exp_0. destruct A as [A| <-]; [left; apply exp_increasing; lra|rewrite Ropp_0; lra].
Qed.

(** The integrand at distances growing by the square root of two. *)
Lemma f_four s : 0 < s -> r ^ 2 * s ^ 2 <= 4 / 10 ->
  f s <= sqrt 2 * f (sqrt 2 * s) + (2 * f (2 * s) + 2 * sqrt 2 * f (2 * sqrt 2 * s)).
Proof.
  intros P X. assert (S : 1 < sqrt 2) by (rewrite <- sqrt_1; apply sqrt_lt_1; lra).
  assert (S2 : sqrt 2 * sqrt 2 = 2) by (apply sqrt_sqrt; lra).
  set (z := sqrt 2) in *.
  assert (Y : 0 <= r ^ 2 * s ^ 2) by (apply Rmult_le_pos; apply pow2_ge_0).
  destruct (exp_04 _ Y X) as (Q1 & Q2). set (q := exp (- (r ^ 2 * s ^ 2))) in *.
  pose proof (four q Q1 Q2) as F.
  assert (E0 : s * f s = scaled s * q) by (rewrite f_scaled by exact P; unfold q; do 2 f_equal; ring).
  assert (E1 : z * s * f (z * s) = scaled (z * s) * q ^ 2).
  { rewrite f_scaled by nra. f_equal. unfold q. replace (exp (- (r ^ 2 * s ^ 2)) ^ 2) with (exp (- (r ^ 2 * s ^ 2)) * exp (- (r ^ 2 * s ^ 2))) by ring.
    rewrite <- exp_plus. f_equal. replace ((z * s) ^ 2) with (z * z * s ^ 2) by ring. rewrite S2. ring. }
  assert (E2 : 2 * s * f (2 * s) = scaled (2 * s) * q ^ 4).
  { rewrite f_scaled by nra. f_equal. unfold q.
    replace (exp (- (r ^ 2 * s ^ 2)) ^ 4) with (exp (- (r ^ 2 * s ^ 2)) * exp (- (r ^ 2 * s ^ 2)) * exp (- (r ^ 2 * s ^ 2)) * exp (- (r ^ 2 * s ^ 2))) by ring.
    rewrite <- !exp_plus. f_equal. ring. }
  assert (E3 : 2 * z * s * f (2 * z * s) = scaled (2 * z * s) * q ^ 8).
  { rewrite f_scaled by nra. f_equal. unfold q. set (e := exp (- (r ^ 2 * s ^ 2))).
    replace (e ^ 8) with (e * e * e * e * e * e * e * e) by ring. unfold e.
    rewrite <- !exp_plus. f_equal. replace ((2 * z * s) ^ 2) with (4 * (z * z) * s ^ 2) by ring. rewrite S2. ring. }
  pose proof (scaled_pos s P) as Ps.
  pose proof (scaled_incr s (z * s) P ltac:(nra)) as I1.
  pose proof (scaled_incr s (2 * s) P ltac:(nra)) as I2.
  pose proof (scaled_incr s (2 * z * s) P ltac:(nra)) as I3.
  assert (G : s * f s <= z * s * f (z * s) + (2 * s * f (2 * s) + 2 * z * s * f (2 * z * s))).
  { rewrite E0, E1, E2, E3.
    assert (0 <= q ^ 2) by (apply pow_le; lra). assert (0 <= q ^ 4) by (apply pow_le; lra). assert (0 <= q ^ 8) by (apply pow_le; lra).
    apply Rle_trans with (scaled s * (q ^ 2 + q ^ 4 + q ^ 8)); [apply Rmult_le_compat_l; lra|]. nra. }
  apply (Rmult_le_reg_l s); [exact P|]. lra.
Qed.

Lemma ex_f a b : 0 < a -> 0 < b -> ex_RInt f a b.
Proof.
  intros A B. apply (ex_RInt_continuous (V := R_CompleteNormedModule)). intros z (Z & _). apply integrand_cont.
  pose proof (Rmin_glb_lt a b 0 A B). lra.
Qed.

Lemma scale_f c a b : 0 < c -> 0 < a -> 0 < b -> RInt (fun s => c * f (c * s)) a b = RInt f (c * a) (c * b)
  /\ ex_RInt (fun s => c * f (c * s)) a b.
Proof.
  intros C A B.
  assert (E : ex_RInt f (c * a + 0) (c * b + 0)) by (rewrite !Rplus_0_r; apply ex_f; nra).
  split.
  - pose proof (RInt_comp_lin f c 0 a b E) as Q. rewrite !Rplus_0_r in Q. rewrite <- Q.
    apply RInt_ext. intros x _. rewrite Rplus_0_r. reflexivity.
  - apply (ex_RInt_ext (fun y => scal c (f (c * y + 0)))).
    + intros x _. rewrite Rplus_0_r. reflexivity.
    + apply (ex_RInt_comp_lin f c 0 a b E).
Qed.

Lemma first_step dt : r ^ 2 <= 8 / 5 * (alpha * dt) -> 0 < dt -> g (2 * dt) - g dt <= g dt.
Proof.
  intros K P. set (a := lower alpha (2 * dt)). set (z := sqrt 2).
  assert (S2 : z * z = 2) by (apply sqrt_sqrt; lra).
  assert (S : 1 < z) by (unfold z; rewrite <- sqrt_1; apply sqrt_lt_1; lra).
  pose proof (lower_pos alpha (2 * dt) Ha ltac:(lra)) as Pa. fold a in Pa.
  assert (La : lower alpha dt = z * a).
  { unfold a, lower, z. replace (4 * alpha * (2 * dt)) with (2 * (4 * alpha * dt)) by ring.
    assert (0 < 4 * alpha * dt) by nra. pose proof (sqrt_lt_R0 _ H0).
    rewrite (sqrt_mult 2 (4 * alpha * dt)) by lra. pose proof (sqrt_lt_R0 2 ltac:(lra)). field. split; lra. }
  unfold g, fls. fold f. fold a. rewrite La.
  set (c := 1 / 2 / H). assert (C : 0 < c) by (apply Rdiv_lt_0_compat; lra).
  assert (Cv : forall x, 0 < x -> converges f x) by (intros x X; apply integrand_conv; [exact X|lra]).
  assert (za : 0 < z * a) by nra.
  destruct (quad_chasles f a (z * a) ltac:(nra) (Cv a Pa)) as (_ & E1).
  destruct (quad_chasles f (z * a) (2 * a) ltac:(nra) (Cv _ za)) as (_ & E2).
  destruct (quad_chasles f (2 * a) (2 * z * a) ltac:(nra) (Cv (2 * a) ltac:(nra))) as (_ & E3).
  destruct (quad_chasles f (2 * z * a) (4 * a) ltac:(nra) (Cv (2 * z * a) ltac:(nra))) as (_ & E4).
  assert (E5 : 0 < quad_inf f (4 * a)).
  { apply quad_pos; [apply Cv; lra|intros; apply f_pos; lra|intros; apply integrand_cont; lra]. }
  destruct (scale_f z a (z * a)) as (F1 & X1); [lra|lra|lra|].
  destruct (scale_f 2 a (z * a)) as (F2 & X2); [lra|lra|lra|].
  destruct (scale_f (2 * z) a (z * a)) as (F3 & X3); [nra|lra|lra|].
  replace (z * (z * a)) with (2 * a) in F1 by (rewrite <- S2; ring).
  replace (2 * (z * a)) with (2 * z * a) in F2 by ring.
  replace (2 * z * (z * a)) with (4 * a) in F3 by (replace (2 * z * (z * a)) with (2 * (z * z) * a) by ring; rewrite S2; ring).
  assert (I : RInt f a (z * a) <= RInt f (z * a) (2 * a) + (RInt f (2 * a) (2 * z * a) + RInt f (2 * z * a) (4 * a))).
  { rewrite <- F1, <- F2, <- F3.
    set (f1 := fun s : R => z * f (z * s)) in *. set (f2 := fun s : R => 2 * f (2 * s)) in *.
    set (f3 := fun s : R => 2 * z * f (2 * z * s)) in *.
    assert (X23 : ex_RInt (fun s : R => f2 s + f3 s) a (z * a)) by (apply (ex_RInt_plus (V := R_NormedModule)); assumption).
    assert (X123 : ex_RInt (fun s : R => f1 s + (f2 s + f3 s)) a (z * a)) by (apply (ex_RInt_plus (V := R_NormedModule) f1 (fun s : R => f2 s + f3 s)); assumption).
    assert (P2 : RInt (fun s : R => f2 s + f3 s) a (z * a) = RInt f2 a (z * a) + RInt f3 a (z * a))
      by (apply (RInt_plus (V := R_CompleteNormedModule)); assumption).
    assert (P1 : RInt (fun s : R => f1 s + (f2 s + f3 s)) a (z * a) = RInt f1 a (z * a) + RInt (fun s : R => f2 s + f3 s) a (z * a))
      by (apply (RInt_plus (V := R_CompleteNormedModule) f1 (fun s : R => f2 s + f3 s)); assumption).
    rewrite <- P2, <- P1.
    apply RInt_le; [nra|apply ex_f; lra|exact X123|].
    intros s (S3 & S4). apply f_four; [lra|].
    assert (L2 : (z * a) ^ 2 = / (4 * alpha * dt)) by (rewrite <- La; apply lower_sq; exact P).
    assert (s ^ 2 <= / (4 * alpha * dt)) by (rewrite <- L2; apply pow_incr; lra).
    assert (0 < 4 * alpha * dt) by nra.
    apply Rle_trans with (r ^ 2 * / (4 * alpha * dt)); [apply Rmult_le_compat_l; [apply pow2_ge_0|assumption]|].
    apply (Rmult_le_reg_r (4 * alpha * dt)); [assumption|]. rewrite Rmult_assoc, Rinv_l; lra. }
  rewrite E1, E2, E3, E4. nra.
Qed.

Lemma g_slowing dt : 0 < dt -> r ^ 2 <= 8 / 5 * (alpha * dt) -> slowing dt g.
Proof.
  intros P K k. assert (K2 : r ^ 2 / (4 * alpha) <= dt).
  { apply (Rmult_le_reg_r (4 * alpha)); [lra|]. unfold Rdiv. rewrite Rmult_assoc, Rinv_l by lra. pose proof (Rmult_lt_0_compat _ _ Ha P). lra. }
  assert (Ik : 0 <= INR k) by apply pos_INR.
  split.
  - unfold rise. rewrite !S_INR. destruct (g_mvt ((INR k + 1) * dt) ((INR k + 1 + 1) * dt)) as (c & C & E); [nra|nra|].
    rewrite E. pose proof (rate_pos c ltac:(nra)). nra.
  - destruct k as [|k].
    + unfold rise. cbn [INR]. rewrite Rmult_1_l. replace (1 + 1) with 2 by ring. apply first_step; assumption.
    + unfold rise. rewrite !S_INR in *. set (n := INR k) in *. assert (N : 0 <= n) by apply pos_INR.
      destruct (g_mvt ((n + 1 + 1) * dt) ((n + 1 + 1 + 1) * dt)) as (c & C & E); [nra|nra|].
      destruct (g_mvt ((n + 1) * dt) ((n + 1 + 1) * dt)) as (d & Dd & E2); [nra|nra|].
      rewrite E, E2. replace ((n + 1 + 1 + 1) * dt - (n + 1 + 1) * dt) with dt by ring.
      replace ((n + 1 + 1) * dt - (n + 1) * dt) with dt by ring.
      apply Rmult_le_compat_r; [lra|]. apply rate_decr; [|lra]. nra.
Qed.
End Self.
