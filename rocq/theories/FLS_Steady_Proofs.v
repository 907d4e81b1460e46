(** The transient solution tends to the steady-state solution. *)
From Coq Require Import Reals Lra Lia List Bool Psatz.
From Verif Require Import Base FLS_Model FLS_Spec FLS_Erf_Proofs FLS_Proofs FLS_Sol_Proofs FLS_Line_Proofs.
From Coquelicot Require Import Coquelicot.
Local Open Scope R_scope.

Lemma cont_pt (f : R -> R) x : continuous f x -> continuity_pt f x.
Proof. intros H. apply continuity_pt_filterlim. exact H. Qed.

Lemma param_derive (w g dg : R -> R) a b q : a <= b -> (forall t, a <= t <= b -> continuous w t) ->
  (forall x, is_derive g x (dg x)) -> (forall x, continuous dg x) ->
  is_derive (fun q => RInt (fun s => w s * g (q * s)) a b) q (RInt (fun s => w s * s * dg (q * s)) a b).
Proof.
  intros L W G D.
  assert (Gl : forall q s, is_derive (fun u => w s * g (u * s)) q (w s * s * dg (q * s))).
  { intros u s. replace (w s * s * dg (u * s)) with (w s * scal s (dg (u * s))) by (unfold scal; simpl; unfold mult; simpl; ring).
    apply (is_derive_scal (fun u => g (u * s))). apply (is_derive_comp g (fun u => u * s)); [apply G|]. auto_derive; auto. ring. }
  replace (RInt (fun s => w s * s * dg (q * s)) a b) with (RInt (fun s => Derive (fun u => w s * g (u * s)) q) a b).
  2: { apply RInt_ext. intros s _. apply is_derive_unique, Gl. }
  apply (is_derive_RInt_param (fun u s => w s * g (u * s))).
  - apply filter_forall. intros y t _. eexists. apply Gl.
  - intros t Ht. rewrite Rmin_left, Rmax_right in Ht by auto.
    apply (continuity_2d_pt_ext (fun u v => w v * v * dg (u * v))).
    { intros u v. symmetry. apply is_derive_unique, Gl. }
    apply continuity_2d_pt_mult; [apply continuity_2d_pt_mult; [|apply continuity_2d_pt_id2]|].
    + apply (continuity_1d_2d_pt_comp w (fun u v => v)); [apply cont_pt, W; auto|apply continuity_2d_pt_id2].
    + apply (continuity_1d_2d_pt_comp dg (fun u v => u * v)); [apply cont_pt, D|].
      apply continuity_2d_pt_mult; [apply continuity_2d_pt_id1|apply continuity_2d_pt_id2].
  - apply filter_forall. intros y. apply (ex_RInt_continuous (fun s => w s * g (y * s))). intros s. rewrite Rmin_left, Rmax_right by auto.
    intros Hs. apply (continuous_mult w (fun s => g (y * s))); [apply W; auto|].
    apply (continuous_comp (fun s => y * s) g).
    + apply (ex_derive_continuous (fun s => y * s)). auto_derive. auto.
    + apply (ex_derive_continuous g). eexists. apply G.
Qed.

Section Pair.
  Variables (d a b : R).
  Hypotheses (Hd : 0 < d) (Ha : 0 < a) (Hab : a <= b).

  Definition wt (s : R) : R := / s ^ 2 * exp (- d ^ 2 * s ^ 2).
  Definition I0 (q : R) : R := RInt (fun s => wt s * erfint (q * s)) a b.
  Definition I1 (q : R) : R := RInt (fun s => wt s * s * erf (q * s)) a b.
  Definition rho (q : R) : R := sqrt (q ^ 2 + d ^ 2).
  Definition I2 (q : R) : R := (erf (b * rho q) - erf (a * rho q)) / rho q.

  Lemma rho_pos q : 0 < rho q. Proof. apply sqrt_lt_R0. nra. Qed.
  Lemma rho_sq q : rho q ^ 2 = q ^ 2 + d ^ 2.
  Proof. unfold rho. rewrite <- Rsqr_pow2. apply Rsqr_sqrt. nra. Qed.
  Lemma rho_ge q : d <= rho q.
  Proof. pose proof (rho_pos q). pose proof (rho_sq q). nra. Qed.

  Lemma wt_cont t : a <= t <= b -> continuous wt t.
  Proof. intros. apply (ex_derive_continuous wt). unfold wt. auto_derive. nra. Qed.

  Lemma I0_derive q : is_derive I0 q (I1 q).
  Proof. apply (param_derive wt erfint erf); auto; [apply wt_cont|apply erfint_derive|apply erf_cont]. Qed.

  Lemma I1_derive q : is_derive I1 q (I2 q).
  Proof.
    assert (E : I2 q = RInt (fun s => wt s * s * s * (2 / sqrt PI * exp (- (q * s) ^ 2))) a b).
    { symmetry. pose proof (rho_pos q) as P.
      apply (is_RInt_unique (fun s => wt s * s * s * (2 / sqrt PI * exp (- (q * s) ^ 2)))).
      replace (I2 q) with (minus (/ rho q * erf (b * rho q)) (/ rho q * erf (a * rho q)))
        by (unfold I2, minus, plus, opp; simpl; field; lra).
      apply (is_RInt_derive (fun s => / rho q * erf (s * rho q))).
      - intros s. rewrite Rmin_left, Rmax_right by auto. intros Hs.
        replace (wt s * s * s * (2 / sqrt PI * exp (- (q * s) ^ 2))) with (/ rho q * scal (rho q) (2 / sqrt PI * exp (- (s * rho q) ^ 2))).
        + apply (is_derive_scal (fun s => erf (s * rho q))). apply (is_derive_comp erf (fun s => s * rho q)); [apply erf_derive|].
          auto_derive; auto. ring.
        + unfold scal; simpl. unfold mult; simpl. unfold wt.
          replace (exp (- (s * rho q * (s * rho q * 1)))) with (exp (- d ^ 2 * s ^ 2) * exp (- (q * s) ^ 2)).
          * pose proof spi. simpl. field. repeat split; lra.
          * rewrite <- exp_plus. f_equal. replace (- (s * rho q * (s * rho q * 1))) with (- (s ^ 2 * rho q ^ 2)) by ring. rewrite rho_sq. ring.
      - intros s. rewrite Rmin_left, Rmax_right by auto. intros Hs. apply (ex_derive_continuous (fun s => wt s * s * s * (2 / sqrt PI * exp (- (q * s) ^ 2)))).
        unfold wt. auto_derive. nra. }
    rewrite E. apply (param_derive (fun s => wt s * s) erf (fun x => 2 / sqrt PI * exp (- x ^ 2))); auto.
    - intros t Ht. apply (continuous_mult wt (fun s => s)); [apply wt_cont; auto|apply continuous_id].
    - apply erf_derive.
    - intros x. apply (ex_derive_continuous (fun x => 2 / sqrt PI * exp (- x ^ 2))). auto_derive. auto.
  Qed.

  Lemma I0_0 : I0 0 = 0.
  Proof.
    unfold I0. rewrite (RInt_ext _ (fun _ => 0)).
    - rewrite RInt_const. unfold scal; simpl. unfold mult; simpl. eqR. ring.
    - intros s _. rewrite Rmult_0_l, erfint_0. eqR. ring.
  Qed.

  Lemma I1_0 : I1 0 = 0.
  Proof.
    unfold I1. rewrite (RInt_ext _ (fun _ => 0)).
    - rewrite RInt_const. unfold scal; simpl. unfold mult; simpl. eqR. ring.
    - intros s _. rewrite Rmult_0_l, erf_0. eqR. ring.
  Qed.

  (** the steady-state kernel *)
  Definition S1 (q : R) : R := ln (q + rho q).

  Lemma rho_derive q : is_derive rho q (q / rho q).
  Proof.
    unfold rho. pose proof (rho_pos q). unfold rho in *. auto_derive; [simpl in *; nra|]. 
    replace (q * (q * 1) + d * (d * 1)) with (q ^ 2 + d ^ 2) by ring. field. lra.
  Qed.

  Lemma qrho q : 0 < q + rho q.
  Proof. pose proof (rho_pos q). pose proof (rho_sq q). nra. Qed.

  Lemma S1_derive q : is_derive S1 q (/ rho q).
  Proof.
    unfold S1. pose proof (rho_pos q). pose proof (qrho q).
    replace (/ rho q) with (scal (1 + q / rho q) (/ (q + rho q))).
    - apply (is_derive_comp ln (fun q => q + rho q)).
      + apply is_derive_Reals, derivable_pt_lim_ln. auto.
      + apply (is_derive_plus (fun q => q) rho); [apply (is_derive_id (K := R_AbsRing))|apply rho_derive].
    - unfold scal; simpl. unfold mult; simpl. field. split; lra.
  Qed.

  Lemma S0_derive q : is_derive (steady_term d) q (S1 q).
  Proof.
    apply (is_derive_ext (fun q => q * S1 q - rho q)); [reflexivity|].
    pose proof (rho_pos q). replace (S1 q) with ((1 * S1 q + q * / rho q) - q / rho q) by (field; lra).
    apply (is_derive_minus (fun q => q * S1 q) rho); [|apply rho_derive].
    apply (is_derive_mult (fun q => q) S1); [apply (is_derive_id (K := R_AbsRing))|apply S1_derive|intros; apply Rmult_comm].
  Qed.

  Definition eps : R := 2 * exp (- (b * d) ^ 2) / d + 2 * a.

  Lemma I2_near q : Rabs (/ rho q - I2 q) <= eps.
  Proof.
    unfold I2, eps. pose proof (rho_pos q) as P. pose proof (rho_ge q) as G.
    pose proof (erf_le_1 (b * rho q)) as B1. pose proof (erf_near_1 (b * rho q) ltac:(nra)) as B2.
    pose proof (erf_nonneg (a * rho q) ltac:(nra)) as A1. pose proof (erf_small (a * rho q) ltac:(nra)) as A2.
    replace (/ rho q - (erf (b * rho q) - erf (a * rho q)) / rho q) with ((1 - erf (b * rho q)) / rho q + erf (a * rho q) / rho q) by (field; lra).
    assert (E : exp (- (b * rho q) ^ 2) <= exp (- (b * d) ^ 2)).
    { assert ((b * d) ^ 2 <= (b * rho q) ^ 2) by (assert (0 <= b * d) by nra; assert (b * d <= b * rho q) by nra; nra).
      destruct (Rle_lt_or_eq_dec _ _ H) as [L|L]; [left; apply exp_increasing; lra|rewrite L; lra]. }
    assert (I : 0 < / rho q) by (apply Rinv_0_lt_compat; auto).
    assert (I' : / rho q <= / d) by (apply Rinv_le_contravar; auto).
    assert (X : 0 <= (1 - erf (b * rho q)) / rho q <= 2 * exp (- (b * d) ^ 2) / d).
    { split; [apply Rmult_le_pos; lra|]. apply Rmult_le_compat; try lra. }
    assert (Y : 0 <= erf (a * rho q) / rho q <= 2 * a).
    { split; [apply Rmult_le_pos; lra|]. apply (Rmult_le_reg_r (rho q)); auto. unfold Rdiv. rewrite Rmult_assoc, Rinv_l by lra. lra. }
    rewrite Rabs_right; lra.
  Qed.

  (** difference of the kernels, up to an affine function *)
  Definition gap (q : R) : R := steady_term d q - I0 q + (- steady_term d 0 + - S1 0 * q).

  Lemma eps_pos : 0 <= eps.
  Proof. unfold eps. pose proof (exp_pos (- (b * d) ^ 2)). apply Rplus_le_le_0_compat; [|lra]. apply Rmult_le_pos; [lra|left; apply Rinv_0_lt_compat; auto]. Qed.

  Lemma gap1 q : Rabs (S1 q - I1 q + - S1 0) <= eps * Rabs q.
  Proof.
    pose proof (bounded_variation (fun q => S1 q - I1 q) (fun q => / rho q - I2 q) eps 0 q) as B.
    cbv beta in B. rewrite I1_0, !Rminus_0_r in B. apply B. intros t _. split; [|apply I2_near].
    apply (is_derive_minus S1 I1); [apply S1_derive|apply I1_derive].
  Qed.

  Lemma gap0 q : Rabs (gap q) <= eps * Rabs q * Rabs q.
  Proof.
    pose proof (bounded_variation gap (fun q => S1 q - I1 q + - S1 0) (eps * Rabs q) 0 q) as B.
    cbv beta in B. replace (gap 0) with 0 in B by (unfold gap; rewrite I0_0; ring). rewrite !Rminus_0_r in B. apply B.
    intros t Ht. rewrite Rminus_0_r in Ht. split.
    - apply (is_derive_plus (fun q => steady_term d q - I0 q) (fun q => - steady_term d 0 + - S1 0 * q)).
      + apply (is_derive_minus (steady_term d) I0); [apply S0_derive|apply I0_derive].
      + auto_derive; auto. ring.
    - eapply Rle_trans; [apply gap1|]. apply Rmult_le_compat_l; [apply eps_pos|auto].
  Qed.

  Lemma comb_RInt rea img (K : R -> R -> R) (J : R -> R) H1 D1 H2 D2 : (forall q, is_RInt (fun s => K s q) a b (J q)) ->
    is_RInt (fun s => comb rea img (K s) H1 D1 H2 D2) a b (comb rea img J H1 D1 H2 D2).
  Proof.
    intros H. unfold comb.
    assert (M : forall (f g : R -> R) x y, is_RInt f a b x -> is_RInt g a b y -> is_RInt (fun s => f s - g s) a b (x - y))
      by (intros f g x y Hf Hg; apply (is_RInt_minus f g); auto).
    assert (P : forall (f g : R -> R) x y, is_RInt f a b x -> is_RInt g a b y -> is_RInt (fun s => f s + g s) a b (x + y))
      by (intros f g x y Hf Hg; apply (is_RInt_plus f g); auto).
    assert (Z : is_RInt (fun _ : R => 0) a b 0).
    { pose proof (is_RInt_const (V := R_NormedModule) a b 0) as Z.
      match type of Z with is_RInt _ _ _ ?v => replace v with 0 in Z by (unfold scal; simpl; unfold mult; simpl; eqR; ring) end. exact Z. }
    apply P; [destruct rea|destruct img]; auto; repeat first [apply M | apply P]; auto.
  Qed.

  Lemma piece_near H1 D1 H2 D2 rea img Q : Rabs D1 + Rabs H1 + Rabs D2 + Rabs H2 <= Q ->
    Rabs (comb rea img (steady_term d) H1 D1 H2 D2 - RInt (fls_integrand d H1 D1 H2 D2 rea img) a b) <= 8 * (eps * Q * Q).
  Proof.
    intros HQ.
    assert (E : RInt (fls_integrand d H1 D1 H2 D2 rea img) a b = comb rea img I0 H1 D1 H2 D2).
    { rewrite (RInt_ext _ (fun s => comb rea img (fun q => wt s * kern s q) H1 D1 H2 D2)).
      - apply is_RInt_unique. apply comb_RInt. intros q. apply (RInt_correct (fun s => wt s * erfint (q * s))).
        apply (ex_RInt_continuous (fun s => wt s * erfint (q * s))). intros s. rewrite Rmin_left, Rmax_right by auto. intros.
        apply (continuous_mult wt (fun s => erfint (q * s))); [apply wt_cont; auto|apply kern_cont].
      - intros s _. rewrite integrand_comb, comb_scal. auto. }
    rewrite E.
    replace (comb rea img (steady_term d) H1 D1 H2 D2 - comb rea img I0 H1 D1 H2 D2) with (comb rea img gap H1 D1 H2 D2).
    - apply (comb_bound _ _ _ _ _ _ _ Q); auto. intros q Hq. eapply Rle_trans; [apply gap0|].
      pose proof eps_pos. pose proof (Rabs_pos q). apply Rmult_le_compat; try lra; [apply Rmult_le_pos; lra|apply Rmult_le_compat_l; lra].
    - unfold gap. rewrite (comb_affine rea img (fun q => steady_term d q - I0 q)). unfold comb. destruct rea, img; ring.
  Qed.
End Pair.

(** a bound for the integral to infinity *)
Lemma quad_near d a H1 D1 H2 D2 rea img Q : 0 < d -> 0 < a -> Rabs D1 + Rabs H1 + Rabs D2 + Rabs H2 <= Q ->
  Rabs (comb rea img (steady_term d) H1 D1 H2 D2 - quad_inf (fls_integrand d H1 D1 H2 D2 rea img) a) <= 16 * Q * Q * a.
Proof.
  intros Hd Ha HQ. set (S := comb rea img (steady_term d) H1 D1 H2 D2). set (f := fls_integrand d H1 D1 H2 D2 rea img).
  assert (C : converges f a) by (apply integrand_conv; auto; lra). pose proof (quad_is f a (proj2 C)) as Q0.
  assert (L : is_lim (fun b => Rabs (S - RInt f a b)) p_infty (Rabs (S - quad_inf f a))).
  { apply (is_lim_Rabs (fun b => S - RInt f a b) p_infty (Finite (S - quad_inf f a))).
    apply (is_lim_minus (fun _ => S) _ p_infty S (quad_inf f a)); [apply is_lim_const|exact Q0|reflexivity]. }
  assert (U : is_lim (fun b => 16 * Q * Q * / d ^ 3 * / b + 16 * Q * Q * a) p_infty (Finite (16 * Q * Q * / d ^ 3 * 0 + 16 * Q * Q * a))).
  { apply (is_lim_plus _ _ _ (Finite (16 * Q * Q * / d ^ 3 * 0)) (Finite (16 * Q * Q * a))); [|apply is_lim_const|reflexivity].
    apply (is_lim_scal_l (fun b => / b) (16 * Q * Q * / d ^ 3) p_infty (Finite 0)).
    apply (is_lim_inv (fun b => b) p_infty p_infty); [apply is_lim_id|discriminate]. }
  assert (B : Rbar_le (Rabs (S - quad_inf f a)) (Finite (16 * Q * Q * / d ^ 3 * 0 + 16 * Q * Q * a))).
  { refine (is_lim_le_loc _ _ p_infty _ _ _ L U). apply (after (Rmax a 1)). intros b Hb.
    pose proof (Rmax_l a 1). pose proof (Rmax_r a 1).
    eapply Rle_trans; [apply (piece_near d a b Hd Ha ltac:(lra) H1 D1 H2 D2 rea img Q HQ)|].
    unfold eps. assert (E : exp (- (b * d) ^ 2) <= / (b * d ^ 2)).
    { rewrite <- (Rinv_inv (exp _)). apply Rinv_le_contravar; [nra|]. rewrite <- exp_Ropp.
      pose proof (exp_ineq1_le (- - (b * d) ^ 2)). assert (b * d ^ 2 <= (b * d) ^ 2) by nra. lra. }
    assert (0 <= 16 * (Q * Q)) by nra.
    replace (8 * ((2 * exp (- (b * d) ^ 2) / d + 2 * a) * Q * Q)) with (16 * (Q * Q) * (exp (- (b * d) ^ 2) / d) + 16 * Q * Q * a) by (field; lra).
    replace (16 * Q * Q * / d ^ 3 * / b) with (16 * (Q * Q) * (/ (b * d ^ 2) / d)) by (field; lra).
    apply Rplus_le_compat_r. apply Rmult_le_compat_l; auto. apply Rmult_le_compat_r; auto. left. apply Rinv_0_lt_compat; auto. }
  change (Rabs (S - quad_inf f a) <= 16 * Q * Q * / d ^ 3 * 0 + 16 * Q * Q * a) in B. lra.
Qed.

Lemma fls_near time alpha d H1 D1 H2 D2 rea img : 0 < d -> 0 < alpha -> 0 < time -> 0 < H2 ->
  Rabs (fls_steady d H1 D1 H2 D2 rea img - fls time alpha d H1 D1 H2 D2 rea img)
  <= 4 * (Rabs D1 + Rabs H1 + Rabs D2 + Rabs H2) ^ 2 / (H2 * sqrt (alpha * time)).
Proof.
  intros Hd Ha Ht P2. set (Q := Rabs D1 + Rabs H1 + Rabs D2 + Rabs H2).
  pose proof (quad_near d _ H1 D1 H2 D2 rea img Q Hd (lower_pos alpha time Ha Ht) ltac:(unfold Q; lra)) as B.
  unfold fls_steady, fls. rewrite inner_comb.
  rewrite <- Rmult_minus_distr_l, Rabs_mult. assert (0 < (1/2) / H2) by (apply Rdiv_lt_0_compat; lra). rewrite (Rabs_right ((1/2) / H2)) by lra.
  eapply Rle_trans; [apply Rmult_le_compat_l; [lra|exact B]|].
  unfold lower. assert (S : 0 < sqrt (alpha * time)) by (apply sqrt_lt_R0; nra).
  replace (sqrt (4 * alpha * time)) with (2 * sqrt (alpha * time)).
  - right. field. split; lra.
  - replace (4 * alpha * time) with ((2 * 2) * (alpha * time)) by ring. rewrite (sqrt_mult (2 * 2) (alpha * time)) by nra. rewrite sqrt_square by lra. auto.
Qed.

Lemma sqrt_lim : is_lim sqrt p_infty p_infty.
Proof.
  apply is_lim_spec. intros M. exists (M ^ 2 + 1). intros x Hx. 
  destruct (Rle_dec M 0) as [L|L].
  - apply Rle_lt_trans with 0; auto. apply sqrt_lt_R0. nra.
  - rewrite <- (sqrt_pow2 M) by lra. apply sqrt_lt_1; nra.
Qed.

Lemma steady_limit alpha d H1 D1 H2 D2 rea img : 0 < d -> 0 < alpha -> 0 < H2 ->
  is_lim (fun time => fls time alpha d H1 D1 H2 D2 rea img) p_infty (fls_steady d H1 D1 H2 D2 rea img).
Proof.
  intros Hd Ha P2. set (S := fls_steady d H1 D1 H2 D2 rea img).
  set (c := 4 * (Rabs D1 + Rabs H1 + Rabs D2 + Rabs H2) ^ 2 / H2).
  assert (L : is_lim (fun time => c * / sqrt (alpha * time)) p_infty (Finite (c * 0))).
  { apply (is_lim_scal_l (fun t => / sqrt (alpha * t)) c p_infty (Finite 0)).
    apply (is_lim_inv (fun t => sqrt (alpha * t)) p_infty p_infty); [|discriminate].
    apply (is_lim_comp sqrt (fun t => alpha * t) p_infty p_infty p_infty); [apply sqrt_lim| |apply (after 0); intros; discriminate].
    apply is_lim_spec. intros M. exists (M / alpha). intros t Hx. apply (Rmult_lt_compat_l alpha) in Hx; auto.
    replace (alpha * (M / alpha)) with M in Hx by (field; lra). auto. }
  rewrite Rmult_0_r in L. apply is_lim_spec. apply is_lim_spec in L. intros e. destruct (L e) as [m Hm].
  exists (Rmax m 0). intros t Ht. pose proof (Rmax_l m 0). pose proof (Rmax_r m 0). pose proof (Hm t ltac:(lra)) as B. rewrite Rminus_0_r in B.
  rewrite Rabs_minus_sym. eapply Rle_lt_trans; [apply fls_near; auto; lra|].
  eapply Rle_lt_trans; [|exact B]. eapply Rle_trans; [|apply Rle_abs].
  right. unfold c. assert (0 < sqrt (alpha * t)) by (apply sqrt_lt_R0; nra). field. split; lra.
Qed.
