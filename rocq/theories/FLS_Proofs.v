(** Combinations of a kernel over axial distances; integrals to infinity. *)
From Coq Require Import Reals Lra Lia List Bool Psatz.
From Verif Require Import Base FLS_Model FLS_Spec FLS_Erf_Proofs.
From Coquelicot Require Import Coquelicot.
Local Open Scope R_scope.

(** * The combination of a kernel *)

Definition comb (rea img : bool) (K : R -> R) (H1 D1 H2 D2 : R) : R :=
  (if rea then K (D2 - D1 + H2) - K (D2 - D1) + K (D2 - D1 - H1) - K (D2 - D1 + H2 - H1) else 0)
  + (if img then K (D2 + D1 + H2) - K (D2 + D1) + K (D2 + D1 + H1) - K (D2 + D1 + H2 + H1) else 0).

Lemma inner_comb rea img K H1 D1 H2 D2 : inner (fls_p rea img) (map K (fls_q rea img H1 D1 H2 D2)) = comb rea img K H1 D1 H2 D2.
Proof. unfold inner, comb. destruct rea, img; cbn; ring. Qed.

Lemma comb_ext rea img K L H1 D1 H2 D2 : (forall q, K q = L q) -> comb rea img K H1 D1 H2 D2 = comb rea img L H1 D1 H2 D2.
Proof. intros E. unfold comb. rewrite !E. auto. Qed.

Lemma comb_swap rea img K H1 D1 H2 D2 : (forall q, K (- q) = K q) -> comb rea img K H1 D1 H2 D2 = comb rea img K H2 D2 H1 D1.
Proof.
  intros E. unfold comb.
  replace (D1 - D2 + H1) with (- (D2 - D1 - H1)) by ring. replace (D1 - D2) with (- (D2 - D1)) by ring.
  replace (- (D2 - D1) - H2) with (- (D2 - D1 + H2)) by ring.
  replace (- (D2 - D1 - H1) - H2) with (- (D2 - D1 + H2 - H1)) by ring. rewrite !E.
  replace (D1 + D2 + H1) with (D2 + D1 + H1) by ring. replace (D1 + D2) with (D2 + D1) by ring.
  replace (D2 + D1 + H1 + H2) with (D2 + D1 + H2 + H1) by ring. destruct rea, img; ring.
Qed.

Lemma comb_affine rea img K a b H1 D1 H2 D2 : comb rea img (fun q => K q + (a + b * q)) H1 D1 H2 D2 = comb rea img K H1 D1 H2 D2.
Proof. unfold comb. destruct rea, img; ring. Qed.

Lemma comb_plus rea img K L H1 D1 H2 D2 : comb rea img (fun q => K q + L q) H1 D1 H2 D2 = comb rea img K H1 D1 H2 D2 + comb rea img L H1 D1 H2 D2.
Proof. unfold comb. destruct rea, img; ring. Qed.

Lemma comb_scal rea img c K H1 D1 H2 D2 : comb rea img (fun q => c * K q) H1 D1 H2 D2 = c * comb rea img K H1 D1 H2 D2.
Proof. unfold comb. destruct rea, img; ring. Qed.

Lemma comb_both K H1 D1 H2 D2 : comb true true K H1 D1 H2 D2 = comb true false K H1 D1 H2 D2 + comb false true K H1 D1 H2 D2.
Proof. unfold comb. ring. Qed.

(** splitting the receiving borehole *)
Lemma comb_receiver rea img K H1 D1 D2 hs :
  Rsum (map (fun c => comb rea img K H1 D1 (snd c) (fst c)) (split_at D2 hs)) = comb rea img K H1 D1 (Rsum hs) D2.
Proof.
  revert D2. induction hs as [|h hs IH]; intros D2; cbn [split_at map Rsum fst snd].
  - unfold comb. replace (D2 - D1 + 0) with (D2 - D1) by ring. replace (D2 + D1 + 0) with (D2 + D1) by ring. destruct rea, img; ring.
  - rewrite IH. unfold comb. replace (D2 + h - D1 + Rsum hs) with (D2 - D1 + (h + Rsum hs)) by ring.
    replace (D2 + h - D1) with (D2 - D1 + h) by ring.
    replace (D2 + h + D1 + Rsum hs) with (D2 + D1 + (h + Rsum hs)) by ring.
    replace (D2 + h + D1) with (D2 + D1 + h) by ring. destruct rea, img; ring.
Qed.

(** splitting the emitting borehole *)
Lemma comb_emitter rea img K D1 H2 D2 hs :
  Rsum (map (fun c => comb rea img K (snd c) (fst c) H2 D2) (split_at D1 hs)) = comb rea img K (Rsum hs) D1 H2 D2.
Proof.
  revert D1. induction hs as [|h hs IH]; intros D1; cbn [split_at map Rsum fst snd].
  - unfold comb. replace (D2 - D1 - 0) with (D2 - D1) by ring. replace (D2 - D1 + H2 - 0) with (D2 - D1 + H2) by ring.
    replace (D2 + D1 + 0) with (D2 + D1) by ring. replace (D2 + D1 + H2 + 0) with (D2 + D1 + H2) by ring. destruct rea, img; ring.
  - rewrite IH. unfold comb.
    replace (D2 - (D1 + h) + H2 - Rsum hs) with (D2 - D1 + H2 - (h + Rsum hs)) by ring.
    replace (D2 - (D1 + h) + H2) with (D2 - D1 + H2 - h) by ring.
    replace (D2 - (D1 + h) - Rsum hs) with (D2 - D1 - (h + Rsum hs)) by ring.
    replace (D2 - (D1 + h)) with (D2 - D1 - h) by ring.
    replace (D2 + (D1 + h) + H2 + Rsum hs) with (D2 + D1 + H2 + (h + Rsum hs)) by ring.
    replace (D2 + (D1 + h) + Rsum hs) with (D2 + D1 + (h + Rsum hs)) by ring.
    replace (D2 + (D1 + h) + H2) with (D2 + D1 + H2 + h) by ring.
    replace (D2 + (D1 + h)) with (D2 + D1 + h) by ring. destruct rea, img; ring.
Qed.

(** * Integrals to infinity *)

Lemma quad_is f a : ex_finite_lim (fun b => RInt f a b) p_infty -> is_lim (fun b => RInt f a b) p_infty (quad_inf f a).
Proof. intros [l H]. unfold quad_inf. rewrite (is_lim_unique _ _ _ H). exact H. Qed.

Lemma quad_unique f a l : is_lim (fun b => RInt f a b) p_infty (Finite l) -> quad_inf f a = l.
Proof. intros H. unfold quad_inf. rewrite (is_lim_unique _ _ _ H). auto. Qed.

Lemma after a (P : R -> Prop) : (forall b, a <= b -> P b) -> Rbar_locally' p_infty P.
Proof. intros H. exists a. intros b L. apply H. lra. Qed.

Lemma ex_after (f : R -> R) a b c : (forall b, a <= b -> ex_RInt f a b) -> a <= b -> b <= c -> ex_RInt f b c.
Proof. intros H L M. apply (ex_RInt_Chasles_2 f a); [lra|apply H; lra]. Qed.

Lemma quad_ext f g a : (forall s, a < s -> f s = g s) -> quad_inf f a = quad_inf g a.
Proof.
  intros E. unfold quad_inf. f_equal. apply Lim_ext_loc. apply (after a). intros b L.
  apply RInt_ext. intros s. rewrite Rmin_left, Rmax_right by auto. intros. symmetry. apply E. lra.
Qed.

Lemma conv_ext f g a : (forall s, a < s -> f s = g s) -> converges f a -> converges g a.
Proof.
  intros E [H [l Hl]]. split.
  - intros b L. apply (ex_RInt_ext f); [|apply H; auto]. intros s. rewrite Rmin_left, Rmax_right by auto. intros. apply E. lra.
  - exists l. revert Hl. apply is_lim_ext_loc. apply (after a). intros b L.
    apply RInt_ext. intros s. rewrite Rmin_left, Rmax_right by auto. intros. apply E. lra.
Qed.

Lemma conv_plus f g a : converges f a -> converges g a -> converges (fun s => f s + g s) a /\
  quad_inf (fun s => f s + g s) a = quad_inf f a + quad_inf g a.
Proof.
  intros [Hf Lf] [Hg Lg].
  assert (L : is_lim (fun b => RInt (fun s => f s + g s) a b) p_infty (Finite (quad_inf f a + quad_inf g a))).
  { apply (is_lim_ext_loc (fun b => RInt f a b + RInt g a b)).
    - apply (after a). intros b Hb. symmetry. apply (RInt_plus f g a b); auto.
    - apply (is_lim_plus _ _ _ (quad_inf f a) (quad_inf g a)); [apply quad_is; auto|apply quad_is; auto|reflexivity]. }
  split; [split|apply quad_unique; auto].
  - intros b Hb. apply (ex_RInt_plus f g); auto.
  - eexists. exact L.
Qed.

Lemma conv_scal c f a : converges f a -> converges (fun s => c * f s) a /\ quad_inf (fun s => c * f s) a = c * quad_inf f a.
Proof.
  intros [Hf Lf].
  assert (L : is_lim (fun b => RInt (fun s => c * f s) a b) p_infty (Finite (c * quad_inf f a))).
  { apply (is_lim_ext_loc (fun b => c * RInt f a b)).
    - apply (after a). intros b Hb. symmetry. apply (RInt_scal f a b c); auto.
    - apply (is_lim_scal_l _ c _ (quad_inf f a)). apply quad_is; auto. }
  split; [split|apply quad_unique; auto].
  - intros b Hb. apply (ex_RInt_scal f); auto.
  - eexists. exact L.
Qed.

Lemma conv_zero a : converges (fun _ => 0) a /\ quad_inf (fun _ => 0) a = 0.
Proof.
  assert (L : is_lim (fun b => RInt (fun _ => 0) a b) p_infty (Finite 0)).
  { apply (is_lim_ext (fun _ => 0)); [|apply is_lim_const]. intros b. rewrite RInt_const. unfold scal; cbn. unfold mult; cbn. ring. }
  split; [split|apply quad_unique; auto].
  - intros. apply ex_RInt_const.
  - eexists. exact L.
Qed.

Lemma conv_sum {A} (F : A -> R -> R) (l : list A) a : (forall x, In x l -> converges (F x) a) ->
  converges (fun s => Rsum (map (fun x => F x s) l)) a /\
  quad_inf (fun s => Rsum (map (fun x => F x s) l)) a = Rsum (map (fun x => quad_inf (F x) a) l).
Proof.
  induction l as [|x l IH]; intros H; [apply conv_zero|]. cbn [map Rsum].
  destruct IH as [C E]; [intros y Hy; apply H; right; auto|].
  destruct (conv_plus (F x) (fun s => Rsum (map (fun x => F x s) l)) a) as [C' E']; auto.
  { apply H. left; auto. }
  split; auto. rewrite E', E. auto.
Qed.

Lemma quad_chasles f a b : a <= b -> converges f a -> converges f b /\ quad_inf f a = RInt f a b + quad_inf f b.
Proof.
  intros L [Hf Lf].
  assert (Lb : is_lim (fun c => RInt f b c) p_infty (Finite (quad_inf f a - RInt f a b))).
  { apply (is_lim_ext_loc (fun c => RInt f a c - RInt f a b)).
    - apply (after b). intros c Hc. rewrite <- (RInt_Chasles f a b c).
      + unfold plus; cbn. ring.
      + apply Hf; auto.
      + apply (ex_after f a); auto.
    - apply (is_lim_minus _ _ _ (quad_inf f a) (RInt f a b)); [apply quad_is; auto|apply is_lim_const|reflexivity]. }
  split.
  - split; [intros c Hc; apply (ex_after f a); auto|eexists; exact Lb].
  - rewrite (quad_unique f b _ Lb). ring.
Qed.

(** exponential decay *)
Lemma exp_RInt M c a b : 0 < c -> is_RInt (fun s => M * exp (- c * s)) a b (M / c * (exp (- c * a) - exp (- c * b))).
Proof.
  intros Hc. replace (M / c * (exp (- c * a) - exp (- c * b))) with (minus (- M / c * exp (- c * b)) (- M / c * exp (- c * a)))
    by (unfold minus, plus, opp; cbn; field; lra).
  apply (is_RInt_derive (fun s => - M / c * exp (- c * s))).
  - intros s _. auto_derive; auto. field. lra.
  - intros s _. apply (ex_derive_continuous (fun s => M * exp (- c * s))). auto_derive. auto.
Qed.

Lemma conv_exp f a M c : 0 < c -> (forall s, a <= s -> continuous f s) -> (forall s, a <= s -> Rabs (f s) <= M * exp (- c * s)) ->
  converges f a.
Proof.
  intros Hc Hf B. assert (HM : 0 <= M).
  { pose proof (B a ltac:(lra)). pose proof (Rabs_pos (f a)). pose proof (exp_pos (- c * a)). nra. }
  assert (E : forall b, a <= b -> ex_RInt f a b).
  { intros b L. apply (ex_RInt_continuous f). intros s. rewrite Rmin_left, Rmax_right by auto. intros. apply Hf. lra. }
  split; auto.
  assert (P : forall u v, a <= u -> u <= v -> Rabs (RInt f a v - RInt f a u) <= M / c * exp (- c * u)).
  { intros u v Lu Lv. rewrite <- (RInt_Chasles f a u v); [|apply E; auto|apply (ex_after f a); auto].
    replace (plus (RInt f a u) (RInt f u v) - RInt f a u) with (RInt f u v) by (unfold plus; cbn; ring).
    apply Rle_trans with (RInt (fun s => M * exp (- c * s)) u v).
    - apply (norm_RInt_le f (fun s => M * exp (- c * s)) u v); auto.
      + intros s Hs. apply B. lra.
      + apply (RInt_correct f), (ex_after f a); auto.
      + apply (RInt_correct (fun s => M * exp (- c * s))). eexists. apply exp_RInt; auto.
    - rewrite (is_RInt_unique _ _ _ _ (exp_RInt M c u v Hc)). apply Rmult_le_compat_l.
      + apply Rmult_le_pos; auto. left. apply Rinv_0_lt_compat; auto.
      + pose proof (exp_pos (- c * v)). lra. }
  assert (Lim0 : is_lim (fun u => M / c * exp (- c * u)) p_infty (Finite 0)).
  { replace (Finite 0) with (Rbar_mult (M / c) (Finite 0)) by (cbn; f_equal; ring).
    apply is_lim_scal_l. apply (is_lim_comp exp (fun u => - c * u) p_infty (Finite 0) m_infty).
    - apply is_lim_exp_m.
    - apply is_lim_spec. intros K. exists (- K / c). intros u Hu.
      apply (Rmult_lt_compat_l c) in Hu; auto. replace (c * (- K / c)) with (- K) in Hu by (field; lra). lra.
    - apply (after 0). intros; discriminate. }
  assert (X : exists y : R, filterlim (fun b => RInt f a b) (Rbar_locally' p_infty) (locally y)).
  { apply (proj1 (filterlim_locally_cauchy (F := Rbar_locally' p_infty) (fun b => RInt f a b))). intros eps.
    apply is_lim_spec in Lim0. destruct (Lim0 (mkposreal (eps / 2) ltac:(pose proof (cond_pos eps); lra))) as [m Hm]. cbn in Hm.
    exists (fun u => Rmax m a < u). split; [exists (Rmax m a); auto|].
    intros u v Hu Hv. pose proof (Rmax_l m a). pose proof (Rmax_r m a).
    change (Rabs (RInt f a v - RInt f a u) < eps).
    destruct (Rle_dec u v) as [L|L].
    - pose proof (P u v ltac:(lra) L). pose proof (Hm u ltac:(lra)) as Q. rewrite Rminus_0_r in Q.
      pose proof (Rle_abs (M / c * exp (- c * u))). pose proof (cond_pos eps). lra.
    - rewrite Rabs_minus_sym. pose proof (P v u ltac:(lra) ltac:(lra)). pose proof (Hm v ltac:(lra)) as Q. rewrite Rminus_0_r in Q.
      pose proof (Rle_abs (M / c * exp (- c * v))). pose proof (cond_pos eps). lra. }
  destruct X as [y Hy]. exists y. exact Hy.
Qed.
