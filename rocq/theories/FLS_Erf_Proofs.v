(** The error function and its integral. *)
From Coq Require Import Reals Lra Lia List Bool Psatz.
From Verif Require Import Base FLS_Model.
From Coquelicot Require Import Coquelicot.
Local Open Scope R_scope.

(** an equation of reals seen through Coquelicot's structures *)
Ltac eqR := match goal with |- @eq _ ?a ?b => change (@eq R a b) end.

Definition ga (t : R) : R := exp (- t ^ 2).

Lemma ga_cont t : continuous ga t.
Proof. apply (ex_derive_continuous ga). unfold ga. auto_derive. auto. Qed.

Lemma ga_ex a b : ex_RInt ga a b.
Proof. apply (ex_RInt_continuous ga). intros. apply ga_cont. Qed.

Lemma ga_pos t : 0 < ga t.
Proof. apply exp_pos. Qed.

Definition Ga (x : R) : R := RInt ga 0 x.

Lemma Ga_derive x : is_derive Ga x (ga x).
Proof.
  apply (is_derive_RInt ga Ga 0 x); [|apply ga_cont].
  apply filter_forall. intros y. apply (RInt_correct ga 0 y), ga_ex.
Qed.

Lemma Ga_0 : Ga 0 = 0.
Proof. unfold Ga. rewrite RInt_point. reflexivity. Qed.

Lemma spi : 0 < sqrt PI. Proof. apply sqrt_lt_R0, PI_RGT_0. Qed.

Lemma erf_Ga x : erf x = 2 / sqrt PI * Ga x.
Proof. reflexivity. Qed.

Lemma erf_derive x : is_derive erf x (2 / sqrt PI * exp (- x ^ 2)).
Proof.
  apply (is_derive_ext (fun y => 2 / sqrt PI * Ga y)); [intros; symmetry; apply erf_Ga|].
  apply (is_derive_scal Ga x (2 / sqrt PI) (ga x)). apply Ga_derive.
Qed.

Lemma erf_0 : erf 0 = 0.
Proof. rewrite erf_Ga, Ga_0. ring. Qed.

Lemma incr_fun (f df : R -> R) : (forall x, is_derive f x (df x)) -> (forall x, 0 < df x) -> forall x y, x < y -> f x < f y.
Proof.
  intros Hd Hp x y L. apply (incr_function f m_infty p_infty df); auto; cbn; auto; intros; try apply Hp; apply Hd.
Qed.

Lemma Ga_incr x y : x < y -> Ga x < Ga y.
Proof. apply (incr_fun Ga ga); [apply Ga_derive|apply ga_pos]. Qed.

Lemma erf_incr x y : x < y -> erf x < erf y.
Proof.
  intros L. rewrite !erf_Ga. apply Rmult_lt_compat_l; [|apply Ga_incr; auto].
  apply Rdiv_lt_0_compat; [lra|apply spi].
Qed.

(** equal derivatives and one common value *)
Lemma same_fun (f g df : R -> R) a : (forall x, is_derive f x (df x)) -> (forall x, is_derive g x (df x)) -> f a = g a ->
  forall x, f x = g x.
Proof.
  intros Hf Hg E x.
  assert (D : forall y, is_derive (fun z => f z - g z) y 0).
  { intros y. replace 0 with (df y - df y) by ring. apply (is_derive_minus f g); auto. }
  destruct (MVT_gen (fun z => f z - g z) a x (fun _ => 0)) as [c [_ H]].
  - intros; apply D.
  - intros y _. apply continuity_pt_filterlim, (ex_derive_continuous (fun z => f z - g z)). exists 0. apply D.
  - cbv beta in H. lra.
Qed.

Lemma Ga_odd x : Ga (- x) = - Ga x.
Proof.
  enough (E : - Ga (- x) = Ga x) by lra. revert x. apply (same_fun _ _ ga 0).
  - intros x. replace (ga x) with (- (- 1 * ga (- x))) by (unfold ga; replace ((- x) ^ 2) with (x ^ 2) by ring; ring).
    apply (is_derive_opp (fun z => Ga (- z))).
    apply (is_derive_comp Ga (fun z => - z)); [apply Ga_derive|]. apply (is_derive_opp (fun z : R => z) x 1). apply (is_derive_id (K := R_AbsRing)).
  - apply Ga_derive.
  - rewrite Ropp_0, Ga_0. ring.
Qed.

Lemma erf_odd x : erf (- x) = - erf x.
Proof. rewrite !erf_Ga, Ga_odd. ring. Qed.

Lemma erfint_derive x : is_derive erfint x (erf x).
Proof.
  unfold erfint. pose proof spi.
  replace (erf x) with (1 * erf x + x * (2 / sqrt PI * exp (- x ^ 2)) - 1 / sqrt PI * (2 * x * exp (- x ^ 2)))
    by (field; lra).
  apply (is_derive_minus (fun z => z * erf z) (fun z => 1 / sqrt PI * (1 - exp (- z ^ 2)))).
  - apply (is_derive_mult (fun z => z) erf); [auto_derive; auto|apply erf_derive|intros; apply Rmult_comm].
  - apply (is_derive_scal (fun z => 1 - exp (- z ^ 2)) x (1 / sqrt PI)). auto_derive; auto.
    replace (x * (x * 1)) with (x ^ 2) by ring. ring.
Qed.

Lemma erfint_0 : erfint 0 = 0.
Proof. unfold erfint. rewrite erf_0. replace (- 0 ^ 2) with 0 by ring. rewrite exp_0. ring. Qed.

Lemma erfint_even x : erfint (- x) = erfint x.
Proof. unfold erfint. rewrite erf_odd. replace ((- x) ^ 2) with (x ^ 2) by ring. ring. Qed.

(** * The Gaussian integral *)

Definition ha (x t : R) : R := exp (- x ^ 2 * (1 + t ^ 2)) / (1 + t ^ 2).

Lemma one_sq t : 0 < 1 + t ^ 2. Proof. nra. Qed.

Lemma ha_ex x a b : ex_RInt (ha x) a b.
Proof.
  apply (ex_RInt_continuous (ha x)). intros t _. apply (ex_derive_continuous (ha x)). unfold ha. pose proof (one_sq t).
  auto_derive. cbn in *. lra.
Qed.

Definition Ha (x : R) : R := RInt (ha x) 0 1.

Lemma Ha_derive x : is_derive Ha x (RInt (fun t => - 2 * x * exp (- x ^ 2 * (1 + t ^ 2))) 0 1).
Proof.
  unfold Ha.
  apply (is_derive_ext (fun y => RInt (fun t => ha y t) 0 1)); [reflexivity|].
  replace (RInt (fun t => - 2 * x * exp (- x ^ 2 * (1 + t ^ 2))) 0 1)
    with (RInt (fun t => Derive (fun u => ha u t) x) 0 1).
  2:{ apply RInt_ext. intros t _. apply is_derive_unique. unfold ha. pose proof (one_sq t).
      auto_derive; [cbn in *; lra|]. cbn in *. field. lra. }
  apply (is_derive_RInt_param ha).
  - apply filter_forall. intros y t _. unfold ha. pose proof (one_sq t). auto_derive. cbn in *. lra.
  - intros t _.
    apply (continuity_2d_pt_ext (fun u v => - 2 * u * exp (- u ^ 2 * (1 + v ^ 2)))).
    { intros u v. symmetry. apply is_derive_unique. unfold ha. pose proof (one_sq v).
      auto_derive; [cbn in *; lra|]. cbn in *. field. lra. }
    apply continuity_2d_pt_mult.
    + apply continuity_2d_pt_mult; [apply continuity_2d_pt_const|apply continuity_2d_pt_id1].
    + apply (continuity_1d_2d_pt_comp exp (fun u v => - u ^ 2 * (1 + v ^ 2))).
      * apply derivable_continuous_pt, derivable_pt_exp.
      * apply continuity_2d_pt_mult.
        -- apply continuity_2d_pt_opp. apply (continuity_2d_pt_ext (fun u _ => u * u)); [intros; ring|].
           apply continuity_2d_pt_mult; apply continuity_2d_pt_id1.
        -- apply continuity_2d_pt_plus; [apply continuity_2d_pt_const|].
           apply (continuity_2d_pt_ext (fun _ v => v * v)); [intros; ring|].
           apply continuity_2d_pt_mult; apply continuity_2d_pt_id2.
  - apply filter_forall. intros y. apply ha_ex.
Qed.

Lemma Ha_derive' x : is_derive Ha x (- 2 * exp (- x ^ 2) * Ga x).
Proof.
  replace (- 2 * exp (- x ^ 2) * Ga x) with (RInt (fun t => - 2 * x * exp (- x ^ 2 * (1 + t ^ 2))) 0 1); [apply Ha_derive|].
  transitivity (RInt (fun t => scal (- 2 * exp (- x ^ 2)) (x * ga (x * t + 0))) 0 1).
  { apply RInt_ext. intros t _. unfold ga, scal; cbn. unfold mult; cbn.
    replace (- (x * (x * 1)) * (1 + t * (t * 1))) with (- (x * (x * 1)) + - ((x * t + 0) * ((x * t + 0) * 1))) by ring.
    rewrite exp_plus. ring. }
  rewrite (RInt_scal (fun t => x * ga (x * t + 0))).
  2:{ apply (ex_RInt_comp_lin ga x 0 0 1). apply ga_ex. }
  replace (RInt (fun t => x * ga (x * t + 0)) 0 1) with (Ga x); [reflexivity|].
  symmetry. transitivity (RInt ga (x * 0 + 0) (x * 1 + 0)); [apply (RInt_comp_lin ga x 0 0 1), ga_ex|unfold Ga; f_equal; ring].
Qed.

Lemma Gauss_const x : Ga x ^ 2 + Ha x = PI / 4.
Proof.
  rewrite (same_fun (fun x => Ga x ^ 2 + Ha x) (fun _ => PI / 4) (fun _ => 0) 0); auto.
  - intros y. replace 0 with (2 * Ga y * ga y + - 2 * exp (- y ^ 2) * Ga y) by (unfold ga; ring).
    apply (is_derive_plus (fun x => Ga x ^ 2) Ha); [|apply Ha_derive'].
    apply (is_derive_ext (fun z => Ga z * Ga z)); [intros z; change (Ga z * Ga z = Ga z ^ 2); ring|].
    replace (2 * Ga y * ga y) with (ga y * Ga y + Ga y * ga y) by ring.
    apply (is_derive_mult Ga Ga); [apply Ga_derive|apply Ga_derive|intros; apply Rmult_comm].
  - intros y. apply (is_derive_const (PI / 4)).
  - rewrite Ga_0. unfold Ha. rewrite (RInt_ext (ha 0) (fun t => / (1 + t ^ 2))).
    2:{ intros t _. unfold ha. replace (- 0 ^ 2 * (1 + t ^ 2)) with 0 by ring. rewrite exp_0. eqR. field. apply Rgt_not_eq, one_sq. }
    rewrite (is_RInt_unique (fun t => / (1 + t ^ 2)) 0 1 (PI / 4)); [ring|].
    replace (PI / 4) with (minus (atan 1) (atan 0)) by (rewrite atan_1, atan_0; unfold minus, plus, opp; cbn; ring).
    apply (is_RInt_derive atan).
    + intros t _. apply is_derive_Reals.
      apply derivable_pt_lim_atan.
    + intros t _. apply (ex_derive_continuous (fun t => / (1 + t ^ 2))). auto_derive. apply Rgt_not_eq. pose proof (one_sq t). cbn in *. lra.
Qed.

Lemma Ha_small x : 0 <= Ha x <= exp (- x ^ 2).
Proof.
  assert (B : forall t, 0 <= ha x t <= exp (- x ^ 2)).
  { intros t. unfold ha. pose proof (one_sq t). pose proof (exp_pos (- x ^ 2 * (1 + t ^ 2))). split; [left; apply Rdiv_lt_0_compat; lra|].
    apply Rle_trans with (exp (- x ^ 2 * (1 + t ^ 2)) / 1).
    - unfold Rdiv. apply Rmult_le_compat_l; [lra|]. apply Rinv_le_contravar; nra.
    - unfold Rdiv. rewrite Rinv_1, Rmult_1_r. destruct (Req_dec (x ^ 2 * t ^ 2) 0) as [Z|N].
      + right. f_equal. replace (- x ^ 2 * (1 + t ^ 2)) with (- x ^ 2 - x ^ 2 * t ^ 2) by ring. rewrite Z. ring.
      + left. apply exp_increasing. assert (0 <= x ^ 2 * t ^ 2) by (apply Rmult_le_pos; nra). nra. }
  split.
  - apply RInt_ge_0; [lra|apply ha_ex|]. intros t _. apply B.
  - replace (exp (- x ^ 2)) with (RInt (fun _ => exp (- x ^ 2)) 0 1).
    2:{ rewrite RInt_const. unfold scal; cbn. unfold mult; cbn. ring. }
    apply RInt_le; [lra|apply ha_ex|apply ex_RInt_const|]. intros t _. apply B.
Qed.

Lemma spi_sq : sqrt PI * sqrt PI = PI. Proof. apply sqrt_def. pose proof PI_RGT_0; lra. Qed.

Lemma Ga_nonneg x : 0 <= x -> 0 <= Ga x.
Proof. intros [L|<-]; [|rewrite Ga_0; lra]. pose proof (Ga_incr 0 x L). rewrite Ga_0 in H. lra. Qed.

Lemma erf_sq x : erf x ^ 2 = 1 - 4 / PI * Ha x.
Proof.
  rewrite erf_Ga. pose proof (Gauss_const x) as G. pose proof PI_RGT_0. pose proof spi.
  replace ((2 / sqrt PI * Ga x) ^ 2) with (4 / (sqrt PI * sqrt PI) * Ga x ^ 2) by (field; lra).
  rewrite spi_sq. replace (Ga x ^ 2) with (PI / 4 - Ha x) by lra. field. lra.
Qed.

Lemma erf_nonneg x : 0 <= x -> 0 <= erf x.
Proof. intros H. rewrite erf_Ga. apply Rmult_le_pos; [|apply Ga_nonneg; auto]. left; apply Rdiv_lt_0_compat; [lra|apply spi]. Qed.

Lemma erf_le_1 x : erf x <= 1.
Proof.
  pose proof (erf_sq x) as E. pose proof (Ha_small x) as [S _]. pose proof PI_RGT_0.
  assert (0 <= 4 / PI * Ha x) by (apply Rmult_le_pos; auto; left; apply Rdiv_lt_0_compat; lra). nra.
Qed.

Lemma erf_abs_1 x : Rabs (erf x) <= 1.
Proof. apply Rabs_le. pose proof (erf_le_1 x). pose proof (erf_le_1 (- x)) as H1. rewrite erf_odd in H1. lra. Qed.

(** close to 1 with explicit bound *)
Lemma erf_near_1 x : 0 <= x -> 1 - 2 * exp (- x ^ 2) <= erf x.
Proof.
  intros H. pose proof (erf_sq x) as E. pose proof (Ha_small x) as [S0 S1]. pose proof (erf_nonneg x H). pose proof (erf_le_1 x).
  assert (P : 2 < PI) by (pose proof PI2_1; lra). 
  assert (B : 4 / PI * Ha x <= 2 * exp (- x ^ 2)).
  { apply Rmult_le_compat; auto; [left; apply Rdiv_lt_0_compat; lra|].
    apply (Rmult_le_reg_r PI); [lra|]. unfold Rdiv. rewrite Rmult_assoc, Rinv_l; lra. }
  nra.
Qed.

Lemma erf_small x : 0 <= x -> erf x <= 2 * x.
Proof.
  intros H. assert (P : 1 <= sqrt PI).
  { rewrite <- sqrt_1. apply sqrt_le_1_alt. pose proof PI2_1. lra. }
  rewrite erf_Ga. assert (G : Ga x <= x).
  { unfold Ga. replace x with (RInt (fun _ => 1) 0 x) at 2.
    - apply RInt_le; auto; [apply ga_ex|apply ex_RInt_const|]. intros t _. unfold ga. rewrite <- exp_0.
      destruct (Req_dec (t ^ 2) 0) as [Z|N]; [rewrite Z, Ropp_0; lra|]. left. apply exp_increasing. nra.
    - rewrite RInt_const. unfold scal; cbn. unfold mult; cbn. ring. }
  apply Rle_trans with (2 / sqrt PI * x).
  - apply Rmult_le_compat_l; auto. left; apply Rdiv_lt_0_compat; lra.
  - apply Rmult_le_compat_r; auto. apply (Rmult_le_reg_r (sqrt PI)); [lra|]. unfold Rdiv. rewrite Rmult_assoc, Rinv_l; lra.
Qed.

Lemma erfint_bound x : 0 <= erfint x <= Rabs x.
Proof.
  assert (P : forall y, 0 <= y -> 0 <= erfint y <= y).
  { intros y Hy. destruct Hy as [L|<-]; [|rewrite erfint_0; lra].
    destruct (MVT_gen erfint 0 y erf) as [c [Hc E]].
    - intros; apply erfint_derive.
    - intros z _. apply continuity_pt_filterlim, (ex_derive_continuous erfint). eexists. apply erfint_derive.
    - rewrite Rmin_left, Rmax_right in Hc by lra. rewrite erfint_0 in E.
      pose proof (erf_nonneg c ltac:(lra)). pose proof (erf_le_1 c). nra. }
  destruct (Rle_dec 0 x) as [L|L]; [rewrite Rabs_pos_eq by auto; auto|].
  rewrite Rabs_left by lra. rewrite <- erfint_even. apply P. lra.
Qed.
