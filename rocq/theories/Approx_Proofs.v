(** The approximation between vertical boreholes is close to the line source solution. *)
From Coq Require Import Reals Lra Lia List Bool Psatz.
From Coquelicot Require Import Coquelicot.
From Verif Require Import Base FLS_Model FLS_Spec FLS_Erf_Proofs FLS_Proofs FLS_Sol_Proofs FLS_Line_Proofs FLS_Steady_Proofs FLS_Incl_Proofs.
From Verif Require Import Approx_Model Approx_Spec Approx_Int_Proofs.
Local Open Scope R_scope.

Lemma Rsum_near {A} (f g h : A -> R) l : (forall x, In x l -> Rabs (f x - g x) <= h x) ->
  Rabs (Rsum (map f l) - Rsum (map g l)) <= Rsum (map h l).
Proof.
  induction l as [|x l IH]; intros L; cbn [map Rsum]; [rewrite Rminus_0_r, Rabs_R0; lra|].
  pose proof (L x (or_introl eq_refl)) as A1. pose proof (IH (fun y Y => L y (or_intror Y))) as A2.
  apply Rabs_le_between in A1. apply Rabs_le_between in A2. apply Rabs_le. lra.
Qed.

Section At.
  Variables (d a : R).
  Hypotheses (Hd : 0 < d) (Ha : 0 < a).

  Definition K1 (s q : R) : R := Rabs q / s * exp (- d ^ 2 * s ^ 2) * erf (Rabs q * s).
  Definition K2 (s q : R) : R := / sqrt PI * (/ s ^ 2 * exp (- sqrt (d ^ 2 + q ^ 2) ^ 2 * s ^ 2)).

  Lemma dq_pos q : 0 < d ^ 2 + q ^ 2. Proof. nra. Qed.
  Lemma dq_sq q : sqrt (d ^ 2 + q ^ 2) ^ 2 = d ^ 2 + q ^ 2.
  Proof. rewrite <- Rsqr_pow2. apply Rsqr_sqrt. pose proof (dq_pos q); lra. Qed.

  Lemma kern_split s q : 0 < s ->
    / s ^ 2 * exp (- d ^ 2 * s ^ 2) * kern s q = K1 s q + K2 s q + (- (/ sqrt PI * / s ^ 2 * exp (- d ^ 2 * s ^ 2)) + 0 * q).
  Proof.
    intros Hs. unfold kern, K1, K2. rewrite dq_sq.
    assert (E : erfint (q * s) = erfint (Rabs q * s)).
    { unfold Rabs. destruct (Rcase_abs q); [|auto]. rewrite <- erfint_even. f_equal. ring. }
    rewrite E. unfold erfint. pose proof spi.
    replace (- (d ^ 2 + q ^ 2) * s ^ 2) with (- d ^ 2 * s ^ 2 + - (Rabs q * s) ^ 2).
    2:{ replace ((Rabs q * s) ^ 2) with (Rabs q ^ 2 * s ^ 2) by ring. rewrite pow2_abs. ring. }
    rewrite exp_plus. field. split; lra.
  Qed.

  Lemma K1_conv q : converges (fun s => K1 s q) a.
  Proof.
    assert (D2 : 0 < d ^ 2) by (apply pow_lt; auto).
    apply (conv_exp _ a (Rabs q / a) (d ^ 2 * a)); [apply Rmult_lt_0_compat; auto| |].
    - intros s Hs. unfold K1. apply (continuous_mult (fun s => Rabs q / s * exp (- d ^ 2 * s ^ 2)) (fun s => erf (Rabs q * s))).
      + apply (ex_derive_continuous (fun s => Rabs q / s * exp (- d ^ 2 * s ^ 2))). auto_derive. lra.
      + apply (continuous_comp (fun s => Rabs q * s) erf); [|apply erf_cont].
        apply (ex_derive_continuous (fun s => Rabs q * s)). auto_derive. auto.
    - intros s Hs. unfold K1. rewrite !Rabs_mult. pose proof (erf_abs_1 (Rabs q * s)). pose proof (Rabs_pos (erf (Rabs q * s))).
      pose proof (gauss_le (d ^ 2) a s D2 Ha Hs). pose proof (exp_pos (- d ^ 2 * s ^ 2)). rewrite (Rabs_pos_eq (exp _)) by lra.
      pose proof (Rabs_pos q). unfold Rdiv. rewrite Rabs_mult, (Rabs_pos_eq (Rabs q)) by auto.
      assert (0 < / s) by (apply Rinv_0_lt_compat; lra). rewrite (Rabs_pos_eq (/ s)) by lra.
      assert (/ s <= / a) by (apply Rinv_le_contravar; lra).
      rewrite <- (Rmult_1_r (Rabs q * / a * exp _)). apply Rmult_le_compat; auto.
      + apply Rmult_le_pos; [apply Rmult_le_pos; lra|lra].
      + apply Rmult_le_compat; auto; [apply Rmult_le_pos; lra|lra|]. apply Rmult_le_compat_l; auto.
  Qed.

  Lemma K2_conv q : converges (fun s => K2 s q) a /\
    quad_inf (fun s => K2 s q) a = / sqrt PI * (exp (- (sqrt (d ^ 2 + q ^ 2) * a) ^ 2) / a
                                   - sqrt (d ^ 2 + q ^ 2) * sqrt PI * (1 - erf (sqrt (d ^ 2 + q ^ 2) * a))).
  Proof.
    destruct (over_s2 (sqrt (d ^ 2 + q ^ 2)) a (sqrt_lt_R0 _ (dq_pos q)) Ha) as [C E].
    destruct (conv_scal (/ sqrt PI) _ a C) as [C' E']. split; [exact C'|]. unfold K2. rewrite E', E. auto.
  Qed.

  Lemma fls_split H1 D1 H2 D2 rea img :
    quad_inf (fls_integrand d H1 D1 H2 D2 rea img) a
    = comb rea img (fun q => quad_inf (fun s => K1 s q) a + quad_inf (fun s => K2 s q) a) H1 D1 H2 D2.
  Proof.
    rewrite (quad_ext _ (fun s => comb rea img (fun q => K1 s q + K2 s q) H1 D1 H2 D2)).
    - destruct (comb_quad rea img (fun s q => K1 s q + K2 s q) H1 D1 H2 D2 a) as [_ E].
      + intros q. apply (conv_plus (fun s => K1 s q) (fun s => K2 s q)); [apply K1_conv|apply K2_conv].
      + rewrite E. apply comb_ext. intros q. apply (conv_plus (fun s => K1 s q) (fun s => K2 s q)); [apply K1_conv|apply K2_conv].
    - intros s Hs. rewrite integrand_comb, <- comb_scal.
      rewrite <- (comb_affine rea img (fun q => K1 s q + K2 s q) (- (/ sqrt PI * / s ^ 2 * exp (- d ^ 2 * s ^ 2))) 0).
      apply comb_ext. intros q. apply kern_split. lra.
  Qed.

  (** The sum of exponential integrals is an integral of the sum of exponentials. *)
  Variable ab : list (R * R).
  Hypothesis Hb : forall c, In c ab -> 0 <= snd c.

  Definition KS (s q : R) : R := Rabs q / s * exp (- d ^ 2 * s ^ 2) * exp_sum ab (Rabs q * s).

  Lemma term_pos q c : In c ab -> 0 < d ^ 2 + snd c * q ^ 2.
  Proof. intros Hc. pose proof (Hb c Hc). assert (0 < d ^ 2) by (apply pow_lt; auto). assert (0 <= q ^ 2) by apply pow2_ge_0. nra. Qed.

  Lemma KS_conv q : converges (fun s => KS s q) a /\
    quad_inf (fun s => KS s q) a = Rabs q * Rsum (map (fun c => fst c * (/ 2 * E1 ((d ^ 2 + snd c * q ^ 2) * a ^ 2))) ab).
  Proof.
    destruct (conv_sum (fun c s => fst c * (exp (- (d ^ 2 + snd c * q ^ 2) * s ^ 2) / s)) ab a) as [C E].
    { intros c Hc. apply conv_scal. apply (over_s (d ^ 2 + snd c * q ^ 2) a (term_pos q c Hc) Ha). }
    destruct (conv_scal (Rabs q) _ a C) as [C' E'].
    assert (X : forall s, 0 < s -> Rabs q * Rsum (map (fun c => fst c * (exp (- (d ^ 2 + snd c * q ^ 2) * s ^ 2) / s)) ab) = KS s q).
    { intros s Hs. unfold KS, exp_sum.
      replace (Rabs q / s * exp (- d ^ 2 * s ^ 2) * Rsum (map (fun c => fst c * exp (- snd c * (Rabs q * s) ^ 2)) ab))
        with (Rabs q * ((/ s * exp (- d ^ 2 * s ^ 2)) * Rsum (map (fun c => fst c * exp (- snd c * (Rabs q * s) ^ 2)) ab)))
        by (unfold Rdiv; ring).
      f_equal. rewrite <- Rsum_map_scal. apply Rsum_map_ext. intros c Hc.
      replace (- (d ^ 2 + snd c * q ^ 2) * s ^ 2) with (- d ^ 2 * s ^ 2 + - snd c * (Rabs q * s) ^ 2).
      2:{ replace ((Rabs q * s) ^ 2) with (Rabs q ^ 2 * s ^ 2) by ring. rewrite pow2_abs. ring. }
      rewrite exp_plus. unfold Rdiv. ring. }
    split.
    - eapply conv_ext; [|exact C']. intros s Hs. apply X. lra.
    - rewrite <- (quad_ext (fun s => Rabs q * Rsum (map (fun c => fst c * (exp (- (d ^ 2 + snd c * q ^ 2) * s ^ 2) / s)) ab))).
      + rewrite E', E. f_equal. apply Rsum_map_ext. intros c Hc.
        destruct (over_s (d ^ 2 + snd c * q ^ 2) a (term_pos q c Hc) Ha) as [Co Eo].
        destruct (conv_scal (fst c) _ a Co) as [_ Es]. rewrite Es, Eo. auto.
      + intros s Hs. apply X. lra.
  Qed.

  Lemma KS_near eps q : erf_within ab eps ->
    Rabs (quad_inf (fun s => KS s q) a - quad_inf (fun s => K1 s q) a) <= eps * (/ 2 * E1 (d ^ 2 * a ^ 2)) * Rabs q.
  Proof.
    intros W. destruct (over_s (d ^ 2) a (pow_lt d 2 Hd) Ha) as [Co Eo].
    destruct (conv_scal (eps * Rabs q) _ a Co) as [C E].
    replace (eps * (/ 2 * E1 (d ^ 2 * a ^ 2)) * Rabs q) with (quad_inf (fun s => eps * Rabs q * (exp (- d ^ 2 * s ^ 2) / s)) a)
      by (rewrite E, Eo; ring).
    apply quad_near_le; auto; [apply KS_conv|apply K1_conv|].
    intros s Hs. unfold KS, K1.
    replace (Rabs q / s * exp (- d ^ 2 * s ^ 2) * exp_sum ab (Rabs q * s) - Rabs q / s * exp (- d ^ 2 * s ^ 2) * erf (Rabs q * s))
      with ((Rabs q * (exp (- d ^ 2 * s ^ 2) / s)) * (exp_sum ab (Rabs q * s) - erf (Rabs q * s))) by (unfold Rdiv; ring).
    pose proof (Rabs_pos q). assert (0 < exp (- d ^ 2 * s ^ 2) / s) by (apply Rdiv_lt_0_compat; [apply exp_pos|lra]).
    rewrite Rabs_mult, (Rabs_pos_eq (Rabs q * _)) by (apply Rmult_le_pos; lra).
    replace (eps * Rabs q * (exp (- d ^ 2 * s ^ 2) / s)) with (Rabs q * (exp (- d ^ 2 * s ^ 2) / s) * eps) by ring.
    apply Rmult_le_compat_l; [apply Rmult_le_pos; lra|]. apply W. apply Rmult_le_pos; lra.
  Qed.

  Variable exp1 : R -> R.
  Variable delta : R.
  Hypothesis Hexp1 : E1_within exp1 (d ^ 2 * a ^ 2) delta.

  Lemma exp1_near q : Rabs (Rabs q * Rsum (map (fun c => fst c * (/ 2 * exp1 ((d ^ 2 + snd c * q ^ 2) * a ^ 2))) ab)
      - quad_inf (fun s => KS s q) a) <= delta * weight ab * (/ 2 * E1 (d ^ 2 * a ^ 2)) * Rabs q.
  Proof.
    assert (A2 : 0 < d ^ 2 * a ^ 2) by (apply Rmult_lt_0_compat; apply pow_lt; auto).
    assert (P : 0 <= delta).
    { pose proof (Hexp1 (d ^ 2 * a ^ 2) ltac:(lra)) as X. pose proof (Rabs_pos (exp1 (d ^ 2 * a ^ 2) - E1 (d ^ 2 * a ^ 2))).
      pose proof (E1_pos _ A2). destruct (Rle_dec 0 delta); auto. exfalso. nra. }
    destruct (KS_conv q) as [_ ->]. rewrite <- Rmult_minus_distr_l, Rabs_mult, Rabs_Rabsolu.
    replace (delta * weight ab * (/ 2 * E1 (d ^ 2 * a ^ 2)) * Rabs q) with (Rabs q * (delta * (/ 2 * E1 (d ^ 2 * a ^ 2)) * weight ab)) by ring.
    apply Rmult_le_compat_l; [apply Rabs_pos|]. unfold weight. rewrite <- Rsum_map_scal. apply Rsum_near.
    intros c Hc. rewrite <- Rmult_minus_distr_l, <- Rmult_minus_distr_l, !Rabs_mult, (Rabs_pos_eq (/ 2)) by lra.
    pose proof (Hb c Hc). assert (0 <= q ^ 2) by apply pow2_ge_0. assert (0 < a ^ 2) by (apply pow_lt; auto).
    assert (L : d ^ 2 * a ^ 2 <= (d ^ 2 + snd c * q ^ 2) * a ^ 2).
    { assert (0 <= snd c * q ^ 2) by (apply Rmult_le_pos; auto). nra. }
    pose proof (Hexp1 _ L) as X. pose proof (E1_decr _ _ A2 L).
    assert (delta * E1 ((d ^ 2 + snd c * q ^ 2) * a ^ 2) <= delta * E1 (d ^ 2 * a ^ 2)) by (apply Rmult_le_compat_l; auto).
    replace (delta * (/ 2 * E1 (d ^ 2 * a ^ 2)) * Rabs (fst c)) with (Rabs (fst c) * (/ 2 * (delta * E1 (d ^ 2 * a ^ 2)))) by ring.
    apply Rmult_le_compat_l; [apply Rabs_pos|]. lra.
  Qed.
End At.

Lemma approx_near exp1 ab eps delta time alpha d H1 D1 H2 D2 rea img :
  0 < alpha -> 0 < time -> 0 < d -> 0 < H2 -> (forall c, In c ab -> 0 <= snd c) ->
  erf_within ab eps -> E1_within exp1 (d ^ 2 / (4 * alpha * time)) delta ->
  Rabs (fls_approx exp1 (fun x => 1 - erf x) ab time alpha d H1 D1 H2 D2 rea img - fls time alpha d H1 D1 H2 D2 rea img)
  <= (eps + delta * weight ab) * E1 (d ^ 2 / (4 * alpha * time)) * ends rea img H1 D1 H2 D2 / (4 * H2).
Proof.
  intros Pa Pt Hd PH Hb W X. rewrite approx_comb. cbv zeta. set (L := sqrt (4 * alpha * time)).
  assert (PL : 0 < L) by (apply sqrt_lt_R0; nra).
  assert (SL : L ^ 2 = 4 * alpha * time) by (unfold L; rewrite <- Rsqr_pow2; apply Rsqr_sqrt; nra).
  unfold fls, lower. fold L. set (a := 1 / L). assert (Ha : 0 < a) by (apply Rdiv_lt_0_compat; lra).
  assert (EA : d ^ 2 / (4 * alpha * time) = d ^ 2 * a ^ 2) by (rewrite <- SL; unfold a; field; lra).
  rewrite EA in *. rewrite comb_div by lra. rewrite fls_split by auto.
  set (B := (eps + delta * weight ab) * (/ 2 * E1 (d ^ 2 * a ^ 2))).
  replace ((eps + delta * weight ab) * E1 (d ^ 2 * a ^ 2) * ends rea img H1 D1 H2 D2 / (4 * H2))
    with (1 / 2 / H2 * (B * ends rea img H1 D1 H2 D2)) by (unfold B; field; lra).
  replace (1 / 2 / (H2 / L)) with (1 / 2 / H2 * L) by (field; lra). rewrite (Rmult_assoc (1 / 2 / H2)), <- comb_scal.
  rewrite <- Rmult_minus_distr_l, Rabs_mult, (Rabs_pos_eq (1 / 2 / H2)) by (apply Rlt_le, Rdiv_lt_0_compat; lra).
  apply Rmult_le_compat_l; [apply Rlt_le, Rdiv_lt_0_compat; lra|].
  match goal with |- Rabs (comb _ _ ?f _ _ _ _ - comb _ _ ?g _ _ _ _) <= _ => set (F := f); set (G := g) end.
  replace (comb rea img F H1 D1 H2 D2 - comb rea img G H1 D1 H2 D2) with (comb rea img (fun q => F q + -1 * G q) H1 D1 H2 D2)
    by (rewrite (comb_plus rea img F (fun q => -1 * G q)), comb_scal; ring).
  apply comb_ends. intros q. unfold F, G. clear F G.
  assert (S1 : L * approx_kern exp1 (fun x => 1 - erf x) ab ((d / L) ^ 2) (q / L)
    = Rabs q * Rsum (map (fun c => fst c * (/ 2 * exp1 ((d ^ 2 + snd c * q ^ 2) * a ^ 2))) ab) + quad_inf (fun s => K2 d s q) a).
  { destruct (K2_conv d a Hd Ha q) as [_ ->]. unfold approx_kern. rewrite pow2_abs.
    assert (Eq : Rabs (q / L) = Rabs q / L) by (unfold Rdiv; rewrite Rabs_mult, (Rabs_pos_eq (/ L)); [auto|apply Rlt_le, Rinv_0_lt_compat; auto]).
    rewrite Eq. pose proof (dq_pos d Hd q). pose proof spi.
    assert (E3 : sqrt ((d / L) ^ 2 + (q / L) ^ 2) = sqrt (d ^ 2 + q ^ 2) * a).
    { replace ((d / L) ^ 2 + (q / L) ^ 2) with ((d ^ 2 + q ^ 2) * (a * a)) by (unfold a; field; lra).
      rewrite sqrt_mult by nra. rewrite sqrt_square by lra. auto. }
    rewrite E3. set (x := sqrt (d ^ 2 + q ^ 2)).
    assert (EM : map (fun c => fst c * (1 / 2 * exp1 ((d / L) ^ 2 + (q / L) ^ 2 * snd c))) ab
               = map (fun c => fst c * (/ 2 * exp1 ((d ^ 2 + snd c * q ^ 2) * a ^ 2))) ab).
    { apply map_ext. intros c. replace (1 / 2) with (/ 2) by field. do 3 f_equal. unfold a. field. lra. }
    rewrite EM. unfold a. field. split; lra. }
  rewrite S1. pose proof (KS_near d a Hd Ha ab Hb eps q W) as N1. pose proof (exp1_near d a Hd Ha ab Hb exp1 delta X q) as N2.
  apply Rabs_le_between in N1. apply Rabs_le_between in N2. unfold B. apply Rabs_le. lra.
Qed.
