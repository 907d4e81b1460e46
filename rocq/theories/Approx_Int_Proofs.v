(** Integrals of exponentials over s and s^2 to infinity. *)
From Coq Require Import Reals Lra Lia List Bool Psatz.
From Coquelicot Require Import Coquelicot.
From Verif Require Import Base FLS_Model FLS_Spec FLS_Erf_Proofs FLS_Proofs FLS_Sol_Proofs FLS_Line_Proofs FLS_Steady_Proofs FLS_Incl_Proofs.
From Verif Require Import Approx_Model Approx_Spec.
Local Open Scope R_scope.

Lemma quad_le f g a : converges f a -> converges g a -> (forall s, a < s -> f s <= g s) -> quad_inf f a <= quad_inf g a.
Proof.
  intros [Ef Lf] [Eg Lg] L.
  apply (is_lim_le_loc (fun b => RInt f a b) (fun b => RInt g a b) p_infty (Finite (quad_inf f a)) (Finite (quad_inf g a))).
  - apply (after a). intros b Hb. apply RInt_le; auto. intros s Hs. apply L. lra.
  - apply quad_is; auto.
  - apply quad_is; auto.
Qed.

Lemma quad_near_le f g h a : converges f a -> converges g a -> converges h a ->
  (forall s, a < s -> Rabs (f s - g s) <= h s) -> Rabs (quad_inf f a - quad_inf g a) <= quad_inf h a.
Proof.
  intros Cf Cg Ch L.
  destruct (conv_plus g h a Cg Ch) as [C1 E1]. destruct (conv_plus f h a Cf Ch) as [C2 E2].
  assert (quad_inf f a <= quad_inf g a + quad_inf h a).
  { rewrite <- E1. apply quad_le; auto. intros s Hs. pose proof (L s Hs) as X. apply Rabs_le_between in X. lra. }
  assert (quad_inf g a <= quad_inf f a + quad_inf h a).
  { rewrite <- E2. apply quad_le; auto. intros s Hs. pose proof (L s Hs) as X. apply Rabs_le_between in X. lra. }
  apply Rabs_le. lra.
Qed.

Lemma comb_quad rea img (K : R -> R -> R) H1 D1 H2 D2 a : (forall q, converges (fun s => K s q) a) ->
  converges (fun s => comb rea img (K s) H1 D1 H2 D2) a /\
  quad_inf (fun s => comb rea img (K s) H1 D1 H2 D2) a = comb rea img (fun q => quad_inf (fun s => K s q) a) H1 D1 H2 D2.
Proof.
  intros C.
  assert (F : forall p q r t, converges (fun s => K s p - K s q + K s r - K s t) a /\
    quad_inf (fun s => K s p - K s q + K s r - K s t) a
    = quad_inf (fun s => K s p) a - quad_inf (fun s => K s q) a + quad_inf (fun s => K s r) a - quad_inf (fun s => K s t) a).
  { intros p q r t.
    destruct (conv_scal (-1) _ a (C q)) as [Cq Eq]. destruct (conv_scal (-1) _ a (C t)) as [Ct Et].
    destruct (conv_plus _ _ a (C p) Cq) as [C1 E1]. destruct (conv_plus _ _ a C1 (C r)) as [C2 E2].
    destruct (conv_plus _ _ a C2 Ct) as [C3 E3]. split.
    - eapply conv_ext; [|exact C3]. intros; cbv beta; ring.
    - transitivity (quad_inf (fun s => K s p + -1 * K s q + K s r + -1 * K s t) a).
      + apply quad_ext. intros; ring.
      + rewrite E3, E2, E1, Eq, Et. ring. }
  unfold comb. destruct rea, img.
  - destruct (F (D2 - D1 + H2) (D2 - D1) (D2 - D1 - H1) (D2 - D1 + H2 - H1)) as [Ca Ea].
    destruct (F (D2 + D1 + H2) (D2 + D1) (D2 + D1 + H1) (D2 + D1 + H2 + H1)) as [Cb Eb].
    destruct (conv_plus _ _ a Ca Cb) as [Cc Ec]. split; [exact Cc|]. rewrite Ec, Ea, Eb. auto.
  - destruct (F (D2 - D1 + H2) (D2 - D1) (D2 - D1 - H1) (D2 - D1 + H2 - H1)) as [Ca Ea].
    destruct (conv_zero a) as [Cb Eb]. destruct (conv_plus _ _ a Ca Cb) as [Cc Ec]. split; [exact Cc|]. rewrite Ec, Ea, Eb. auto.
  - destruct (F (D2 + D1 + H2) (D2 + D1) (D2 + D1 + H1) (D2 + D1 + H2 + H1)) as [Ca Ea].
    destruct (conv_zero a) as [Cb Eb]. destruct (conv_plus _ _ a Cb Ca) as [Cc Ec]. split; [exact Cc|]. rewrite Ec, Ea, Eb. auto.
  - destruct (conv_zero a) as [Cb Eb]. destruct (conv_plus _ _ a Cb Cb) as [Cc Ec]. split; [exact Cc|]. rewrite Ec, Eb. auto.
Qed.

Lemma comb_div rea img K H1 D1 H2 D2 L : L <> 0 ->
  comb rea img K (H1 / L) (D1 / L) (H2 / L) (D2 / L) = comb rea img (fun q => K (q / L)) H1 D1 H2 D2.
Proof.
  intros N. unfold comb.
  replace (D2 / L - D1 / L + H2 / L) with ((D2 - D1 + H2) / L) by (field; auto).
  replace (D2 / L - D1 / L) with ((D2 - D1) / L) by (field; auto).
  replace (D2 / L + D1 / L) with ((D2 + D1) / L) by (field; auto).
  replace ((D2 - D1) / L - H1 / L) with ((D2 - D1 - H1) / L) by (field; auto).
  replace ((D2 - D1 + H2) / L - H1 / L) with ((D2 - D1 + H2 - H1) / L) by (field; auto).
  replace ((D2 + D1) / L + H2 / L) with ((D2 + D1 + H2) / L) by (field; auto).
  replace ((D2 + D1) / L + H1 / L) with ((D2 + D1 + H1) / L) by (field; auto).
  replace ((D2 + D1 + H2) / L + H1 / L) with ((D2 + D1 + H2 + H1) / L) by (field; auto).
  reflexivity.
Qed.

Lemma comb_ends rea img K H1 D1 H2 D2 B : (forall q, Rabs (K q) <= B * Rabs q) ->
  Rabs (comb rea img K H1 D1 H2 D2) <= B * ends rea img H1 D1 H2 D2.
Proof.
  intros L. unfold comb, ends.
  assert (F : forall p q r t, Rabs (K p - K q + K r - K t) <= B * (Rabs p + Rabs q + Rabs r + Rabs t)).
  { intros p q r t. pose proof (L p) as A. pose proof (L q) as A0. pose proof (L r) as A1. pose proof (L t) as A2.
    apply Rabs_le_between in A. apply Rabs_le_between in A0. apply Rabs_le_between in A1. apply Rabs_le_between in A2.
    apply Rabs_le. lra. }
  pose proof (F (D2 - D1 + H2) (D2 - D1) (D2 - D1 - H1) (D2 - D1 + H2 - H1)) as X.
  pose proof (F (D2 + D1 + H2) (D2 + D1) (D2 + D1 + H1) (D2 + D1 + H2 + H1)) as Y.
  replace (D2 + H2 - D1) with (D2 - D1 + H2) by ring. replace (D2 - (D1 + H1)) with (D2 - D1 - H1) by ring.
  replace (D2 + H2 - (D1 + H1)) with (D2 - D1 + H2 - H1) by ring. replace (D2 + H2 + D1) with (D2 + D1 + H2) by ring.
  apply Rabs_le_between in X. apply Rabs_le_between in Y.
  destruct rea, img; apply Rabs_le; lra.
Qed.

Lemma E1_conv x : 0 < x -> converges (fun u => exp (- u) / u) x.
Proof.
  intros Hx. apply (conv_exp _ x (/ x) 1); [lra| |].
  - intros s Hs. apply (ex_derive_continuous (fun u => exp (- u) / u)). auto_derive. lra.
  - intros s Hs. pose proof (exp_pos (- s)). replace (- (1) * s) with (- s) by ring.
    rewrite Rabs_pos_eq by (apply Rmult_le_pos; [lra|left; apply Rinv_0_lt_compat; lra]).
    unfold Rdiv. rewrite Rmult_comm. apply Rmult_le_compat_r; [lra|]. apply Rinv_le_contravar; lra.
Qed.

Lemma E1_pos x : 0 < x -> 0 < E1 x.
Proof.
  intros Hx. apply quad_pos; [apply E1_conv; auto| |].
  - intros s Hs. apply Rdiv_lt_0_compat; [apply exp_pos|lra].
  - intros s Hs. apply (ex_derive_continuous (fun u => exp (- u) / u)). auto_derive. lra.
Qed.

Lemma E1_decr x y : 0 < x -> x <= y -> E1 y <= E1 x.
Proof.
  intros Hx L. destruct (quad_chasles _ x y L (E1_conv x Hx)) as [_ E]. unfold E1. rewrite E.
  assert (0 <= RInt (fun u => exp (- u) / u) x y); [|lra].
  apply RInt_ge_0; auto; [apply (proj1 (E1_conv x Hx)); auto|].
  intros s Hs. apply Rmult_le_pos; [left; apply exp_pos|left; apply Rinv_0_lt_compat; lra].
Qed.

Lemma gauss_le c a s : 0 < c -> 0 < a -> a <= s -> exp (- c * s ^ 2) <= exp (- (c * a) * s).
Proof.
  intros Hc Ha Hs. destruct (Req_dec s a) as [-> |N]; [right; f_equal; ring|].
  left. apply exp_increasing. assert (0 < c * s * (s - a)) by (apply Rmult_lt_0_compat; [apply Rmult_lt_0_compat|]; lra). nra.
Qed.

Lemma over_s c a : 0 < c -> 0 < a -> converges (fun s => exp (- c * s ^ 2) / s) a /\
  quad_inf (fun s => exp (- c * s ^ 2) / s) a = / 2 * E1 (c * a ^ 2).
Proof.
  intros Hc Ha.
  assert (C : converges (fun s => exp (- c * s ^ 2) / s) a).
  { apply (conv_exp _ a (/ a) (c * a)); [apply Rmult_lt_0_compat; auto| |].
    - intros s Hs. apply (ex_derive_continuous (fun s => exp (- c * s ^ 2) / s)). auto_derive. lra.
    - intros s Hs. pose proof (exp_pos (- c * s ^ 2)).
      rewrite Rabs_pos_eq by (apply Rmult_le_pos; [lra|left; apply Rinv_0_lt_compat; lra]).
      unfold Rdiv. rewrite Rmult_comm. apply Rmult_le_compat; [left; apply Rinv_0_lt_compat; lra|lra|apply Rinv_le_contravar; lra|].
      apply gauss_le; auto. }
  split; auto. apply quad_unique.
  assert (Hx : 0 < c * a ^ 2) by (apply Rmult_lt_0_compat; [auto|apply pow_lt; auto]).
  apply (is_lim_ext_loc (fun b => / 2 * RInt (fun u => exp (- u) / u) (c * a ^ 2) (c * b ^ 2))).
  - apply (after a). intros b Hb.
    assert (I : is_RInt (fun s => 2 * c * s * (exp (- (c * s ^ 2)) / (c * s ^ 2))) a b (RInt (fun u => exp (- u) / u) (c * a ^ 2) (c * b ^ 2))).
    { apply (is_RInt_comp (fun u => exp (- u) / u) (fun s => c * s ^ 2) (fun s => 2 * c * s)).
      - intros s. rewrite Rmin_left, Rmax_right by auto. intros Hs.
        apply (ex_derive_continuous (fun u => exp (- u) / u)). auto_derive.
        assert (0 < c * s ^ 2) by (apply Rmult_lt_0_compat; [auto|apply pow_lt; lra]). lra.
      - intros s. rewrite Rmin_left, Rmax_right by auto. intros Hs. split.
        + auto_derive; auto. ring.
        + apply (ex_derive_continuous (fun s => 2 * c * s)). auto_derive. auto. }
    rewrite <- (is_RInt_unique _ _ _ _ I). symmetry. apply is_RInt_unique.
    apply (is_RInt_ext (fun s => / 2 * (2 * c * s * (exp (- (c * s ^ 2)) / (c * s ^ 2))))).
    + intros s. rewrite Rmin_left, Rmax_right by auto. intros Hs.
      match goal with |- ?u = ?v => change (@eq R u v) end. replace (- c * s ^ 2) with (- (c * s ^ 2)) by ring. field. split; lra.
    + rewrite (is_RInt_unique _ _ _ _ I).
      exact (is_RInt_scal (fun s => 2 * c * s * (exp (- (c * s ^ 2)) / (c * s ^ 2))) a b (/ 2) _ I).
  - apply (is_lim_scal_l _ (/ 2) p_infty (Finite (E1 (c * a ^ 2)))).
    apply (is_lim_comp (fun b => RInt (fun u => exp (- u) / u) (c * a ^ 2) b) (fun b => c * b ^ 2) p_infty (Finite (E1 (c * a ^ 2))) p_infty).
    + apply quad_is, E1_conv; auto.
    + apply is_lim_spec. intros M. exists (Rmax 1 (M / c)). intros t Ht. pose proof (Rmax_l 1 (M / c)). pose proof (Rmax_r 1 (M / c)).
      assert (M < c * t). { apply Rmult_lt_reg_r with (/ c); [apply Rinv_0_lt_compat; auto|]. replace (c * t * / c) with t by (field; lra). unfold Rdiv in *; lra. }
      assert (0 < c * t * (t - 1)) by (apply Rmult_lt_0_compat; [apply Rmult_lt_0_compat|]; lra). nra.
    + apply (after 0). intros; discriminate.
Qed.

Lemma erf_lim : is_lim erf p_infty 1.
Proof.
  apply (is_lim_le_le_loc (fun x => 1 - 2 * exp (- x)) (fun _ => 1)).
  - apply (after 1). intros x Hx. split; [|apply erf_le_1]. pose proof (erf_near_1 x ltac:(lra)).
    assert (exp (- x ^ 2) <= exp (- x)); [|lra].
    destruct (Req_dec x 1) as [-> |]; [right; f_equal; ring|left; apply exp_increasing; nra].
  - replace (Finite 1) with (Rbar_plus 1 (Rbar_mult (-2) 0)) by (cbn; f_equal; ring).
    apply (is_lim_ext (fun x => 1 + -2 * exp (- x))); [intros; ring|].
    apply is_lim_plus'; [apply is_lim_const|]. apply (is_lim_scal_l (fun x => exp (- x)) (-2) p_infty 0).
    apply (is_lim_comp exp (fun x => - x) p_infty 0 m_infty); [apply is_lim_exp_m| |apply (after 0); intros; discriminate].
    apply is_lim_spec. intros M. exists (- M). intros. lra.
  - apply is_lim_const.
Qed.

Lemma over_s2 c a : 0 < c -> 0 < a -> converges (fun s => / s ^ 2 * exp (- c ^ 2 * s ^ 2)) a /\
  quad_inf (fun s => / s ^ 2 * exp (- c ^ 2 * s ^ 2)) a = exp (- (c * a) ^ 2) / a - c * sqrt PI * (1 - erf (c * a)).
Proof.
  intros Hc Ha. pose proof spi as P.
  assert (C : forall s, 0 < s -> continuous (fun s => / s ^ 2 * exp (- c ^ 2 * s ^ 2)) s).
  { intros s Hs. apply (ex_derive_continuous (fun s => / s ^ 2 * exp (- c ^ 2 * s ^ 2))). auto_derive. assert (s * (s * 1) <> 0) by nra. auto. }
  assert (L : is_lim (fun b => RInt (fun s => / s ^ 2 * exp (- c ^ 2 * s ^ 2)) a b) p_infty (exp (- (c * a) ^ 2) / a - c * sqrt PI * (1 - erf (c * a)))).
  { apply (is_lim_ext_loc (fun b => (- (exp (- (c * b) ^ 2) / b) - c * sqrt PI * erf (c * b)) + (exp (- (c * a) ^ 2) / a + c * sqrt PI * erf (c * a)))).
    - apply (after a). intros b Hb. symmetry. apply is_RInt_unique.
      replace (- (exp (- (c * b) ^ 2) / b) - c * sqrt PI * erf (c * b) + (exp (- (c * a) ^ 2) / a + c * sqrt PI * erf (c * a)))
        with (minus (- (exp (- (c * b) ^ 2) / b) - c * sqrt PI * erf (c * b)) (- (exp (- (c * a) ^ 2) / a) - c * sqrt PI * erf (c * a)))
        by (unfold minus, plus, opp; cbn; ring).
      apply (is_RInt_derive (fun s => - (exp (- (c * s) ^ 2) / s) - c * sqrt PI * erf (c * s))).
      + intros s. rewrite Rmin_left, Rmax_right by auto. intros Hs.
        assert (D : is_derive (fun s => erf (c * s)) s (c * (2 / sqrt PI * exp (- (c * s) ^ 2)))).
        { apply (is_derive_comp erf (fun s => c * s)); [apply erf_derive|]. auto_derive; auto. ring. }
        assert (D0 : is_derive (fun s => - (exp (- (c * s) ^ 2) / s)) s (exp (- (c * s) ^ 2) / s ^ 2 + 2 * c ^ 2 * exp (- (c * s) ^ 2))).
        { auto_derive; [lra|]. cbn [pow]. field. lra. }
        assert (D1 : is_derive (fun s => c * sqrt PI * erf (c * s)) s (c * sqrt PI * (c * (2 / sqrt PI * exp (- (c * s) ^ 2))))).
        { apply (is_derive_scal (fun s => erf (c * s)) s (c * sqrt PI)). exact D. }
        pose proof (is_derive_minus _ _ _ _ _ D0 D1) as D2.
        match goal with |- is_derive _ _ ?v => match type of D2 with is_derive _ _ ?w => replace v with w end end; [exact D2|].
        unfold minus, plus, opp. cbn -[pow]. replace (- c ^ 2 * s ^ 2) with (- (c * s) ^ 2) by ring. field. lra.
      + intros s. rewrite Rmin_left, Rmax_right by auto. intros Hs. apply C. lra.
    - replace (Finite (exp (- (c * a) ^ 2) / a - c * sqrt PI * (1 - erf (c * a))))
        with (Finite ((0 - c * sqrt PI * 1) + (exp (- (c * a) ^ 2) / a + c * sqrt PI * erf (c * a)))) by (f_equal; ring).
      apply is_lim_plus'; [|apply is_lim_const]. apply is_lim_minus'.
      + apply (is_lim_le_le_loc (fun b => - / b) (fun _ => 0)).
        * apply (after 1). intros b Hb. pose proof (exp_pos (- (c * b) ^ 2)). assert (exp (- (c * b) ^ 2) <= 1).
          { rewrite <- exp_0. destruct (Req_dec (c * b) 0) as [-> |]; [right; f_equal; ring|left; apply exp_increasing; nra]. }
          assert (0 < / b) by (apply Rinv_0_lt_compat; lra). unfold Rdiv. nra.
        * replace (Finite 0) with (Rbar_opp 0) by (cbn; f_equal; ring). apply (is_lim_opp (fun b => / b)).
          replace (Finite 0) with (Rbar_inv p_infty) by reflexivity. apply (is_lim_inv (fun b => b) p_infty p_infty); [apply is_lim_id|discriminate].
        * apply is_lim_const.
      + apply (is_lim_scal_l (fun b => erf (c * b)) (c * sqrt PI) p_infty 1).
        apply (is_lim_comp erf (fun b => c * b) p_infty 1 p_infty); [apply erf_lim| |apply (after 0); intros; discriminate].
        apply is_lim_spec. intros M. exists (M / c). intros t Ht. apply (Rmult_lt_compat_l c) in Ht; auto. replace (c * (M / c)) with M in Ht by (field; lra). auto. }
  split; [|apply quad_unique; exact L]. split.
  - intros b Hb. apply (ex_RInt_continuous (fun s => / s ^ 2 * exp (- c ^ 2 * s ^ 2))). intros s. rewrite Rmin_left, Rmax_right by auto. intros. apply C. lra.
  - eexists. exact L.
Qed.
