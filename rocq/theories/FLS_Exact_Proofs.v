(** Inclined boreholes with exact integration along the emitting borehole:
    double integrals, reciprocity, vertical boreholes. *)
From Coq Require Import Reals Lra Lia List Bool Psatz.
From Verif Require Import Base FLS_Model FLS_Spec FLS_Erf_Proofs FLS_Proofs FLS_Sol_Proofs FLS_Line_Proofs FLS_Steady_Proofs FLS_Incl_Proofs FLS_Incl_Steady_Proofs.
From Coquelicot Require Import Coquelicot.
Local Open Scope R_scope.

Lemma term_cont b1 b2 r2 dz k0 k1 k2 s u : continuous (fun u => b_H b1 / s * inclined_term b1 b2 r2 dz k0 k1 k2 s u) u.
Proof.
  unfold inclined_term.
  apply (continuous_mult (fun _ => b_H b1 / s)); [apply continuous_const|].
  set (e := fun u => - (r2 + dz ^ 2) * s ^ 2 + s ^ 2 * (u ^ 2 * b_H b1 ^ 2 * (k0 ^ 2 - 1) + 2 * u * b_H b1 * (k0 * k2 - k1) + k2 ^ 2)).
  apply (continuous_mult (fun u => exp (e u))).
  - apply (ex_derive_continuous (fun u => exp (e u))). unfold e. auto_derive. auto.
  - apply (continuous_minus (fun u => erf ((u * b_H b1 * k0 + k2) * s)) (fun u => erf ((u * b_H b1 * k0 + k2 - b_H b2) * s))).
    + apply (continuous_comp (fun u => (u * b_H b1 * k0 + k2) * s) erf); [|apply erf_cont].
      apply (ex_derive_continuous (fun u => (u * b_H b1 * k0 + k2) * s)). auto_derive. auto.
    + apply (continuous_comp (fun u => (u * b_H b1 * k0 + k2 - b_H b2) * s) erf); [|apply erf_cont].
      apply (ex_derive_continuous (fun u => (u * b_H b1 * k0 + k2 - b_H b2) * s)). auto_derive. auto.
Qed.

Lemma seen_scaled_cont b1 b2 ex image s u : s <> 0 -> continuous (fun u => 2 / sqrt PI * (b_H b1 * seen b1 b2 ex image s u)) u.
Proof.
  intros Hs. destruct image.
  - apply (continuous_ext (fun u => b_H b1 / s * inclined_term b1 b2 (dx b1 b2 ^ 2 + dy b1 b2 ^ 2 + ex) (dzImg b1 b2) (kImg_0 b1 b2) (kImg_1 b1 b2) (kImg_2 b1 b2) s u)).
    + intros. apply term_image; auto.
    + apply term_cont.
  - apply (continuous_ext (fun u => b_H b1 / s * inclined_term b1 b2 (img_r2 b1 b2 ex) (dzRea b1 b2) (kRea_0 b1 b2) (kRea_1 b1 b2) (kRea_2 b1 b2) s u)).
    + intros u'. rewrite term_RInt by auto. do 2 f_equal. apply RInt_ext. intros v _. unfold img_r2. rewrite geo_real. auto.
    + apply term_cont.
Qed.

Lemma seen_ex b1 b2 ex image s : s <> 0 -> ex_RInt (fun u => 2 / sqrt PI * (b_H b1 * seen b1 b2 ex image s u)) 0 1.
Proof. intros. apply (ex_RInt_continuous (fun u => 2 / sqrt PI * (b_H b1 * seen b1 b2 ex image s u))). intros. apply seen_scaled_cont; auto. Qed.

Lemma exact_source b1 b2 ex image s : s <> 0 -> exact (fun u => 2 / sqrt PI * (b_H b1 * seen b1 b2 ex image s u)) = inclined_source b1 b2 ex image s.
Proof.
  intros Hs. unfold exact, inclined_source. pose proof spi.
  rewrite <- (RInt_scal (fun u => b_H b1 * seen b1 b2 ex image s u)); [reflexivity|].
  apply (ex_RInt_ext (fun u => scal (sqrt PI / 2) (2 / sqrt PI * (b_H b1 * seen b1 b2 ex image s u)))).
  - intros. unfold scal; simpl. unfold mult; simpl. eqR. field. lra.
  - apply (ex_RInt_scal (fun u => 2 / sqrt PI * (b_H b1 * seen b1 b2 ex image s u))). apply seen_ex; auto.
Qed.

Lemma exact_ext f g : (forall u, f u = g u) -> exact f = exact g.
Proof. intros. apply RInt_ext. auto. Qed.

Definition exact_parts b1 b2 (rea img : bool) s : R :=
  (if rea then inclined_source b1 b2 (wall_excess b1 b2) false s else 0)
  - (if img then inclined_source b1 b2 (if rea then wall_excess b1 b2 else 0) true s else 0).

Lemma incl_exact b1 b2 rea img s : s <> 0 -> inclined_integrand b1 b2 exact rea img s = exact_parts b1 b2 rea img s.
Proof.
  intros Hs. unfold inclined_integrand, exact_parts. destruct rea, img.
  - rewrite <- !exact_source by auto. unfold exact. 
    rewrite (RInt_ext _ (fun u => minus (2 / sqrt PI * (b_H b1 * seen b1 b2 (wall_excess b1 b2) false s u)) (2 / sqrt PI * (b_H b1 * seen b1 b2 (wall_excess b1 b2) true s u)))).
    + rewrite (RInt_minus (fun u => 2 / sqrt PI * (b_H b1 * seen b1 b2 (wall_excess b1 b2) false s u)) (fun u => 2 / sqrt PI * (b_H b1 * seen b1 b2 (wall_excess b1 b2) true s u))) by (apply seen_ex; auto).
      reflexivity.
    + intros u _. rewrite Rmult_minus_distr_l, term_real by auto. rewrite rr_excess, term_image by auto. reflexivity.
  - rewrite <- !exact_source by auto. rewrite Rminus_0_r. apply exact_ext. intros. apply term_real; auto.
  - rewrite <- !exact_source by auto. unfold Rminus. rewrite Rplus_0_l. f_equal. apply exact_ext. intros. apply term_image0; auto.
  - ring.
Qed.

(** * Exchanging two integrals *)

Definition smooth2 (f : R -> R -> R) : Prop := exists fx fy,
  (forall x y, is_derive (fun x => f x y) x (fx x y)) /\ (forall x y, is_derive (fun y => f x y) y (fy x y)) /\
  (forall x y, continuity_2d_pt f x y) /\ (forall x y, continuity_2d_pt fx x y) /\ (forall x y, continuity_2d_pt fy x y).

Lemma c2_snd f x y : continuity_2d_pt f x y -> continuous (f x) y.
Proof.
  intros H. apply continuity_pt_filterlim. intros e He. destruct (H (mkposreal e He)) as [d Hd].
  exists d. split; [apply cond_pos|]. intros z [_ Hz]. simpl in *. unfold R_dist in *. apply Hd; auto. rewrite Rminus_eq_0, Rabs_R0. apply cond_pos.
Qed.

Lemma c2_fst f x y : continuity_2d_pt f x y -> continuous (fun x => f x y) x.
Proof.
  intros H. apply continuity_pt_filterlim. intros e He. destruct (H (mkposreal e He)) as [d Hd].
  exists d. split; [apply cond_pos|]. intros z [_ Hz]. simpl in *. unfold R_dist in *. apply Hd; auto. rewrite Rminus_eq_0, Rabs_R0. apply cond_pos.
Qed.

Lemma smooth_swap f : smooth2 f -> smooth2 (fun x y => f y x).
Proof.
  intros [fx [fy [Dx [Dy [C [Cx Cy]]]]]].
  assert (S : forall g, (forall x y, continuity_2d_pt g x y) -> forall x y, continuity_2d_pt (fun x y => g y x) x y).
  { intros g H x y e. destruct (H y x e) as [d Hd]. exists d. intros u v Hu Hv. apply Hd; auto. }
  exists (fun x y => fy y x), (fun x y => fx y x).
  refine (conj (fun x y => Dy y x) (conj (fun x y => Dx y x) (conj (S f C) (conj (S fy Cy) (S fx Cx))))).
Qed.

Lemma param_cont f c d x : smooth2 f -> continuous (fun x => RInt (f x) c d) x.
Proof.
  intros [fx [fy [Dx [Dy [C [Cx Cy]]]]]].
  apply (ex_derive_continuous (fun x => RInt (f x) c d)). exists (RInt (fun t => Derive (fun u => f u t) x) c d).
  apply (is_derive_RInt_param f).
  - apply filter_forall. intros y t _. eexists. apply Dx.
  - intros t _. apply (continuity_2d_pt_ext fx); auto. intros. symmetry. apply is_derive_unique, Dx.
  - apply filter_forall. intros y. apply (ex_RInt_continuous (f y)). intros. apply c2_snd. auto.
Qed.

Lemma fubini f a b c d : smooth2 f -> RInt (fun x => RInt (f x) c d) a b = RInt (fun y => RInt (fun x => f x y) a b) c d.
Proof.
  intros Sm. pose proof Sm as [fx [fy [Dx [Dy [C [Cx Cy]]]]]].
  apply (same_fun (fun b => RInt (fun x => RInt (f x) c d) a b) (fun b => RInt (fun y => RInt (fun x => f x y) a b) c d) (fun x => RInt (f x) c d) a).
  - intros x. apply (is_derive_RInt (fun x => RInt (f x) c d) (fun b => RInt (fun x => RInt (f x) c d) a b) a).
    + apply filter_forall. intros y. apply (RInt_correct (fun x => RInt (f x) c d)). apply (ex_RInt_continuous (fun x => RInt (f x) c d)). intros. apply param_cont; auto.
    + apply param_cont; auto.
  - intros x.
    assert (Dg : forall x y, is_derive (fun x => RInt (fun x => f x y) a x) x (f x y)).
    { intros x' y. apply (is_derive_RInt (fun x => f x y) (fun b => RInt (fun x => f x y) a b) a).
      - apply filter_forall. intros z. apply (RInt_correct (fun x => f x y)). apply (ex_RInt_continuous (fun x => f x y)). intros. apply c2_fst. auto.
      - apply c2_fst. auto. }
    replace (RInt (f x) c d) with (RInt (fun y => Derive (fun x => RInt (fun x => f x y) a x) x) c d).
    + apply (is_derive_RInt_param (fun x y => RInt (fun x => f x y) a x)).
      * apply filter_forall. intros y t _. eexists. apply Dg.
      * intros t _. apply (continuity_2d_pt_ext f); auto. intros. symmetry. apply is_derive_unique, Dg.
      * apply filter_forall. intros z. apply (ex_RInt_continuous (fun t => RInt (fun x => f x t) a z)). intros y _.
        apply (param_cont (fun y x => f x y)). apply smooth_swap; auto.
    + apply RInt_ext. intros y _. apply is_derive_unique, Dg.
  - rewrite RInt_point. rewrite (RInt_ext _ (fun _ => 0)).
    + rewrite RInt_const. unfold zero, scal; simpl. unfold mult; simpl. eqR. ring.
    + intros. rewrite RInt_point. reflexivity.
Qed.

(** a Gaussian of a quadratic polynomial *)
Lemma gauss_smooth s A k0 k1 k2 : smooth2 (fun x y => exp (- s ^ 2 * (A + x ^ 2 + y ^ 2 + 2 * x * k1 - 2 * y * k2 - 2 * x * y * k0))).
Proof.
  set (P := fun x y => - s ^ 2 * (A + x ^ 2 + y ^ 2 + 2 * x * k1 - 2 * y * k2 - 2 * x * y * k0)).
  assert (S : forall g : R -> R -> R, (exists a0 a1 a2 a3 a4 a5 : R, forall x y, g x y = a0 + a1 * x + a2 * y + a3 * (x * x) + a4 * (y * y) + a5 * (x * y)) -> forall x y, continuity_2d_pt g x y).
  { intros g [a0 [a1 [a2 [a3 [a4 [a5 E]]]]]] x y. apply (continuity_2d_pt_ext (fun x y => a0 + a1 * x + a2 * y + a3 * (x * x) + a4 * (y * y) + a5 * (x * y))); auto.
    repeat apply continuity_2d_pt_plus; repeat apply continuity_2d_pt_mult; try apply continuity_2d_pt_const; try apply continuity_2d_pt_id1; try apply continuity_2d_pt_id2. }
  assert (CP : forall x y, continuity_2d_pt P x y).
  { apply S. exists (- s ^ 2 * A), (- s ^ 2 * (2 * k1)), (- s ^ 2 * (- 2 * k2)), (- s ^ 2), (- s ^ 2), (- s ^ 2 * (- 2 * k0)). intros. unfold P. ring. }
  assert (CE : forall x y, continuity_2d_pt (fun x y => exp (P x y)) x y).
  { intros. apply (continuity_1d_2d_pt_comp exp P); auto. apply derivable_continuous_pt, derivable_pt_exp. }
  exists (fun x y => - s ^ 2 * (2 * x + 2 * k1 - 2 * y * k0) * exp (P x y)), (fun x y => - s ^ 2 * (2 * y - 2 * k2 - 2 * x * k0) * exp (P x y)).
  refine (conj _ (conj _ (conj _ (conj _ _)))).
  - intros x y. unfold P. auto_derive; auto. match goal with |- _ * exp ?a = _ * exp ?b => replace b with a by ring end. ring.
  - intros x y. unfold P. auto_derive; auto. match goal with |- _ * exp ?a = _ * exp ?b => replace b with a by ring end. ring.
  - exact CE.
  - intros. apply continuity_2d_pt_mult; auto. apply S.
    exists (- s ^ 2 * (2 * k1)), (- s ^ 2 * 2), (- s ^ 2 * (- 2 * k0)), 0, 0, 0. intros. ring.
  - intros. apply continuity_2d_pt_mult; auto. apply S.
    exists (- s ^ 2 * (- 2 * k2)), (- s ^ 2 * (- 2 * k0)), (- s ^ 2 * 2), 0, 0, 0. intros. ring.
Qed.

Definition pair_source b1 b2 ex (image : bool) s xi v : R :=
  point_source s (ex + dist2 (if image then mirror (point b1 xi) else point b1 xi) (point b2 v)).

Lemma pair_smooth b1 b2 ex image s : smooth2 (pair_source b1 b2 ex image s).
Proof.
  destruct (gauss_smooth s (img_r2 b1 b2 ex + zpart b1 b2 image ^ 2) (k0part b1 b2 image) (k1part b1 b2 image) (k2part b1 b2 image)) as [fx [fy [Dx [Dy [C [Cx Cy]]]]]].
  assert (E : forall x y, exp (- s ^ 2 * (img_r2 b1 b2 ex + zpart b1 b2 image ^ 2 + x ^ 2 + y ^ 2 + 2 * x * k1part b1 b2 image - 2 * y * k2part b1 b2 image - 2 * x * y * k0part b1 b2 image)) = pair_source b1 b2 ex image s x y).
  { intros. unfold pair_source. rewrite <- geo. auto. }
  exists fx, fy. refine (conj _ (conj _ (conj _ (conj Cx Cy)))).
  - intros x y. apply (is_derive_ext (fun x => exp (- s ^ 2 * (img_r2 b1 b2 ex + zpart b1 b2 image ^ 2 + x ^ 2 + y ^ 2 + 2 * x * k1part b1 b2 image - 2 * y * k2part b1 b2 image - 2 * x * y * k0part b1 b2 image)))); auto.
  - intros x y. apply (is_derive_ext (fun y => exp (- s ^ 2 * (img_r2 b1 b2 ex + zpart b1 b2 image ^ 2 + x ^ 2 + y ^ 2 + 2 * x * k1part b1 b2 image - 2 * y * k2part b1 b2 image - 2 * x * y * k0part b1 b2 image)))); auto.
  - intros x y. eapply continuity_2d_pt_ext; [apply E|]. apply C.
Qed.

Lemma source_unscaled b1 b2 ex image s :
  inclined_source b1 b2 ex image s = 2 / sqrt PI * RInt (fun xi => RInt (pair_source b1 b2 ex image s xi) 0 (b_H b2)) 0 (b_H b1).
Proof.
  unfold inclined_source. f_equal. set (g := fun xi => RInt (pair_source b1 b2 ex image s xi) 0 (b_H b2)).
  transitivity (RInt (fun u => scal (b_H b1) (g (b_H b1 * u + 0))) 0 1).
  - apply RInt_ext. intros u _. unfold scal; simpl. unfold mult; simpl. unfold g, seen. rewrite Rplus_0_r, (Rmult_comm (b_H b1) u). reflexivity.
  - transitivity (RInt g (b_H b1 * 0 + 0) (b_H b1 * 1 + 0)).
    + apply (RInt_comp_lin g (b_H b1) 0 0 1). apply (ex_RInt_continuous g). intros. apply param_cont, pair_smooth.
    + f_equal; ring.
Qed.

Lemma pair_swap b1 b2 ex image s xi v : pair_source b1 b2 ex image s xi v = pair_source b2 b1 ex image s v xi.
Proof.
  unfold pair_source. f_equal. f_equal. unfold dist2. destruct image; unfold mirror, point; cbn [fst snd]; ring.
Qed.

Lemma source_swap b1 b2 ex image s : inclined_source b1 b2 ex image s = inclined_source b2 b1 ex image s.
Proof.
  rewrite !source_unscaled. f_equal. rewrite (fubini (pair_source b1 b2 ex image s)) by apply pair_smooth.
  apply RInt_ext. intros y _. apply RInt_ext. intros x _. apply pair_swap.
Qed.

Lemma recip_inclined b1 b2 time alpha rea img : 0 < alpha -> 0 < time -> b_H b1 <> 0 -> b_H b2 <> 0 -> (rea = true -> same_excess b1 b2) ->
  b_H b2 * fls_inclined b1 b2 exact time alpha rea img = b_H b1 * fls_inclined b2 b1 exact time alpha rea img.
Proof.
  intros Ha Ht N1 N2 X. pose proof (lower_pos alpha time Ha Ht). unfold fls_inclined.
  rewrite (quad_ext (inclined_integrand b1 b2 exact rea img) (inclined_integrand b2 b1 exact rea img)); [field; auto|].
  intros s Hs. rewrite !incl_exact by lra. unfold exact_parts. destruct rea.
  - rewrite (X eq_refl), (source_swap b1 b2 _ false). destruct img; auto. rewrite (source_swap b1 b2 _ true). auto.
  - destruct img; auto. rewrite (source_swap b1 b2 _ true). auto.
Qed.

(** * Vertical boreholes *)

Section Upright.
  Variables b1 b2 : bh.
  Hypotheses (U1 : upright b1) (U2 : upright b2).

  Lemma up_rea : kRea_0 b1 b2 = 1 /\ kRea_1 b1 b2 = dzRea b1 b2 /\ kRea_2 b1 b2 = dzRea b1 b2.
  Proof. unfold kRea_0, kRea_1, kRea_2. rewrite U1, U2, sin_0, cos_0. repeat split; ring. Qed.

  Lemma up_img : kImg_0 b1 b2 = -1 /\ kImg_1 b1 b2 = dzImg b1 b2 /\ kImg_2 b1 b2 = - dzImg b1 b2.
  Proof. unfold kImg_0, kImg_1, kImg_2. rewrite U1, U2, sin_0, cos_0. repeat split; ring. Qed.

  Notation H1 := (b_H b1). Notation H2 := (b_H b2). Notation D1 := (b_D b1). Notation D2 := (b_D b2).

  Lemma shift_derive s c u : s <> 0 -> is_derive (fun u => / s ^ 2 * erfint ((u * H1 + c) * s)) u (H1 / s * erf ((u * H1 + c) * s)).
  Proof.
    intros Hs. replace (H1 / s * erf ((u * H1 + c) * s)) with (/ s ^ 2 * scal (H1 * s) (erf ((u * H1 + c) * s))).
    - apply (is_derive_scal (fun u => erfint ((u * H1 + c) * s))). apply (is_derive_comp erfint (fun u => (u * H1 + c) * s)); [apply erfint_derive|].
      auto_derive; auto. ring.
    - unfold scal; simpl. unfold mult; simpl. field. auto.
  Qed.

  Lemma term_up_rea r2 s u : inclined_term b1 b2 r2 (dzRea b1 b2) (kRea_0 b1 b2) (kRea_1 b1 b2) (kRea_2 b1 b2) s u
    = exp (- r2 * s ^ 2) * (erf ((u * H1 + dzRea b1 b2) * s) - erf ((u * H1 + (dzRea b1 b2 - H2)) * s)).
  Proof.
    destruct up_rea as [-> [-> ->]]. unfold inclined_term. f_equal; [f_equal; ring|]. f_equal; f_equal; ring.
  Qed.

  Lemma term_up_img r2 s u : inclined_term b1 b2 r2 (dzImg b1 b2) (kImg_0 b1 b2) (kImg_1 b1 b2) (kImg_2 b1 b2) s u
    = exp (- r2 * s ^ 2) * (erf ((u * H1 + (dzImg b1 b2 + H2)) * s) - erf ((u * H1 + dzImg b1 b2) * s)).
  Proof.
    destruct up_img as [-> [-> ->]]. unfold inclined_term. f_equal; [f_equal; ring|].
    replace ((u * H1 * -1 + - dzImg b1 b2) * s) with (- ((u * H1 + dzImg b1 b2) * s)) by ring.
    replace ((u * H1 * -1 + - dzImg b1 b2 - H2) * s) with (- ((u * H1 + (dzImg b1 b2 + H2)) * s)) by ring. rewrite !erf_odd. ring.
  Qed.

  Lemma two_erf e s c c' : s <> 0 ->
    is_RInt (fun u => H1 / s * (e * (erf ((u * H1 + c) * s) - erf ((u * H1 + c') * s)))) 0 1
      (/ s ^ 2 * e * (erfint ((H1 + c) * s) - erfint (c * s) - erfint ((H1 + c') * s) + erfint (c' * s))).
  Proof.
    intros Hs. set (F := fun u => e * (/ s ^ 2 * erfint ((u * H1 + c) * s) - / s ^ 2 * erfint ((u * H1 + c') * s))).
    replace (/ s ^ 2 * e * (erfint ((H1 + c) * s) - erfint (c * s) - erfint ((H1 + c') * s) + erfint (c' * s))) with (minus (F 1) (F 0)).
    - apply (is_RInt_derive F).
      + intros u _. replace (H1 / s * (e * (erf ((u * H1 + c) * s) - erf ((u * H1 + c') * s))))
          with (e * (H1 / s * erf ((u * H1 + c) * s) - H1 / s * erf ((u * H1 + c') * s))) by ring.
        apply (is_derive_scal (fun u => / s ^ 2 * erfint ((u * H1 + c) * s) - / s ^ 2 * erfint ((u * H1 + c') * s))).
        apply (is_derive_minus (fun u => / s ^ 2 * erfint ((u * H1 + c) * s)) (fun u => / s ^ 2 * erfint ((u * H1 + c') * s))); apply shift_derive; auto.
      + intros u _. apply (continuous_mult (fun _ => H1 / s)); [apply continuous_const|]. apply (continuous_mult (fun _ => e)); [apply continuous_const|].
        apply (continuous_minus (fun u => erf ((u * H1 + c) * s)) (fun u => erf ((u * H1 + c') * s))).
        * apply (continuous_comp (fun u => (u * H1 + c) * s) erf); [|apply erf_cont]. apply (ex_derive_continuous (fun u => (u * H1 + c) * s)). auto_derive. auto.
        * apply (continuous_comp (fun u => (u * H1 + c') * s) erf); [|apply erf_cont]. apply (ex_derive_continuous (fun u => (u * H1 + c') * s)). auto_derive. auto.
    - unfold F, minus, plus, opp. change (@eq R (e * (/ s ^ 2 * erfint ((1 * H1 + c) * s) - / s ^ 2 * erfint ((1 * H1 + c') * s)) - e * (/ s ^ 2 * erfint ((0 * H1 + c) * s) - / s ^ 2 * erfint ((0 * H1 + c') * s)))
        (/ s ^ 2 * e * (erfint ((H1 + c) * s) - erfint (c * s) - erfint ((H1 + c') * s) + erfint (c' * s)))).
      rewrite !Rmult_1_l, !Rmult_0_l, !Rplus_0_l. ring.
  Qed.

  Lemma up_real d s : s <> 0 -> exact (fun u => H1 / s * inclined_term b1 b2 (d ^ 2) (dzRea b1 b2) (kRea_0 b1 b2) (kRea_1 b1 b2) (kRea_2 b1 b2) s u)
    = fls_integrand d H1 D1 H2 D2 true false s.
  Proof.
    intros Hs. rewrite (exact_ext _ (fun u => H1 / s * (exp (- d ^ 2 * s ^ 2) * (erf ((u * H1 + dzRea b1 b2) * s) - erf ((u * H1 + (dzRea b1 b2 - H2)) * s))))).
    2: { intros. rewrite term_up_rea. auto. }
    unfold exact. rewrite (is_RInt_unique _ _ _ _ (two_erf _ s _ _ Hs)). rewrite integrand_comb. eqR. f_equal. unfold comb, kern, dzRea.
    replace ((D2 - D1 + H2) * s) with (- ((D1 - D2 - H2) * s)) by ring. replace ((D2 - D1) * s) with (- ((D1 - D2) * s)) by ring.
    replace ((D2 - D1 - H1) * s) with (- ((H1 + (D1 - D2)) * s)) by ring. replace ((D2 - D1 + H2 - H1) * s) with (- ((H1 + (D1 - D2 - H2)) * s)) by ring.
    rewrite !erfint_even. ring.
  Qed.

  Lemma up_image d s : s <> 0 -> exact (fun u => H1 / s * inclined_term b1 b2 (d ^ 2) (dzImg b1 b2) (kImg_0 b1 b2) (kImg_1 b1 b2) (kImg_2 b1 b2) s u)
    = - fls_integrand d H1 D1 H2 D2 false true s.
  Proof.
    intros Hs. rewrite (exact_ext _ (fun u => H1 / s * (exp (- d ^ 2 * s ^ 2) * (erf ((u * H1 + (dzImg b1 b2 + H2)) * s) - erf ((u * H1 + dzImg b1 b2) * s))))).
    2: { intros. rewrite term_up_img. auto. }
    unfold exact. rewrite (is_RInt_unique _ _ _ _ (two_erf _ s _ _ Hs)). rewrite integrand_comb. eqR. unfold comb, kern, dzImg.
    replace (H1 + (D1 + D2 + H2)) with (D2 + D1 + H2 + H1) by ring. replace (D1 + D2 + H2) with (D2 + D1 + H2) by ring.
    replace (H1 + (D1 + D2)) with (D2 + D1 + H1) by ring. replace (D1 + D2) with (D2 + D1) by ring. ring.
  Qed.

  Lemma bh_dist_sq : 0 <= b_r b1 -> bh_distance b1 b2 ^ 2 = rr b1 b2.
  Proof.
    intros Hr. unfold bh_distance, rr, dx, dy. set (q := (b_x b1 - b_x b2) ^ 2 + (b_y b1 - b_y b2) ^ 2).
    assert (Q : 0 <= q) by (unfold q; pose proof (pow2_ge_0 (b_x b1 - b_x b2)); pose proof (pow2_ge_0 (b_y b1 - b_y b2)); lra).
    pose proof (sqrt_pos q). assert (S : sqrt q ^ 2 = q) by (rewrite <- Rsqr_pow2; apply Rsqr_sqrt; auto).
    unfold Rmax. destruct (Rle_dec (b_r b1) (sqrt q)), (Rle_dec q (b_r b1 ^ 2)); nra.
  Qed.

  Lemma apart_rr : apart b1 b2 -> rr b1 b2 = dx b1 b2 ^ 2 + dy b1 b2 ^ 2.
  Proof. intros A. unfold rr. apply Rmax_left. exact A. Qed.

  Lemma up_integrand rea img s : s <> 0 -> 0 <= b_r b1 -> (rea = false -> apart b1 b2) ->
    inclined_integrand b1 b2 exact rea img s = fls_integrand (bh_distance b1 b2) H1 D1 H2 D2 rea img s.
  Proof.
    intros Hs Hr A. unfold inclined_integrand. rewrite <- (bh_dist_sq Hr). destruct rea, img.
    - pose proof (up_real (bh_distance b1 b2) s Hs) as R. pose proof (up_image (bh_distance b1 b2) s Hs) as I.
      set (f := fun u => H1 / s * inclined_term b1 b2 (bh_distance b1 b2 ^ 2) (dzRea b1 b2) (kRea_0 b1 b2) (kRea_1 b1 b2) (kRea_2 b1 b2) s u) in *.
      set (g := fun u => H1 / s * inclined_term b1 b2 (bh_distance b1 b2 ^ 2) (dzImg b1 b2) (kImg_0 b1 b2) (kImg_1 b1 b2) (kImg_2 b1 b2) s u) in *.
      unfold exact in *. transitivity (RInt (fun u => minus (f u) (g u)) 0 1).
      + apply RInt_ext. intros u _. unfold f, g. rewrite Rmult_minus_distr_l. reflexivity.
      + etransitivity; [apply (RInt_minus f g 0 1)|].
        * apply (ex_RInt_continuous f). intros. apply term_cont.
        * apply (ex_RInt_continuous g). intros. apply term_cont.
        * rewrite R, I. rewrite !integrand_comb, comb_both. unfold minus, plus, opp; simpl. eqR. ring.
    - apply up_real; auto.
    - rewrite <- (apart_rr (A eq_refl)), <- (bh_dist_sq Hr), up_image by auto. ring.
    - rewrite integrand_comb. unfold comb. ring.
  Qed.

  Lemma up_transient time alpha rea img : 0 < alpha -> 0 < time -> 0 <= b_r b1 -> (rea = false -> apart b1 b2) ->
    fls_inclined b1 b2 exact time alpha rea img = fls time alpha (bh_distance b1 b2) H1 D1 H2 D2 rea img.
  Proof.
    intros Ha Ht Hr A. pose proof (lower_pos alpha time Ha Ht). unfold fls_inclined, fls. f_equal. apply quad_ext. intros s Hs.
    apply up_integrand; auto. lra.
  Qed.

  (** steady state *)
  Variable d : R.
  Hypothesis Hd : 0 < d.
  Hypothesis HH : 0 < H2.

  Lemma sh_steady c u : is_derive (fun u => steady_term d (u * H1 + c)) u (H1 * S1 d (u * H1 + c)).
  Proof.
    change (H1 * S1 d (u * H1 + c)) with (scal H1 (S1 d (u * H1 + c))). apply (is_derive_comp (steady_term d) (fun u => u * H1 + c)); [apply S0_derive; auto|].
    auto_derive; auto. ring.
  Qed.

  Lemma S1_cont q : continuous (S1 d) q.
  Proof. apply (ex_derive_continuous (S1 d)). eexists. apply S1_derive. auto. Qed.

  Lemma two_S1 c c' : is_RInt (fun u => H1 * (S1 d (u * H1 + c) - S1 d (u * H1 + c'))) 0 1
    (steady_term d (H1 + c) - steady_term d c - steady_term d (H1 + c') + steady_term d c').
  Proof.
    set (F := fun u => steady_term d (u * H1 + c) - steady_term d (u * H1 + c')).
    replace (steady_term d (H1 + c) - steady_term d c - steady_term d (H1 + c') + steady_term d c') with (minus (F 1) (F 0)).
    - apply (is_RInt_derive F).
      + intros u _. replace (H1 * (S1 d (u * H1 + c) - S1 d (u * H1 + c'))) with (H1 * S1 d (u * H1 + c) - H1 * S1 d (u * H1 + c')) by ring.
        apply (is_derive_minus (fun u => steady_term d (u * H1 + c)) (fun u => steady_term d (u * H1 + c'))); apply sh_steady.
      + intros u _. apply (continuous_mult (fun _ => H1)); [apply continuous_const|].
        apply (continuous_minus (fun u => S1 d (u * H1 + c)) (fun u => S1 d (u * H1 + c'))).
        * apply (continuous_comp (fun u => u * H1 + c) (S1 d)); [|apply S1_cont]. apply (ex_derive_continuous (fun u => u * H1 + c)). auto_derive. auto.
        * apply (continuous_comp (fun u => u * H1 + c') (S1 d)); [|apply S1_cont]. apply (ex_derive_continuous (fun u => u * H1 + c')). auto_derive. auto.
    - unfold F. change (@eq R (steady_term d (1 * H1 + c) - steady_term d (1 * H1 + c') - (steady_term d (0 * H1 + c) - steady_term d (0 * H1 + c')))
        (steady_term d (H1 + c) - steady_term d c - steady_term d (H1 + c') + steady_term d c')).
      rewrite !Rmult_1_l, !Rmult_0_l, !Rplus_0_l. ring.
  Qed.

  Lemma log_shape x y : 0 < y + rho d y -> ln ((2 * H2 * (x + rho d x)) / (2 * H2 * (y + rho d y))) = S1 d x - S1 d y.
  Proof.
    intros Y. pose proof (qrho d Hd x). rewrite ln_div by (apply Rmult_lt_0_compat; lra). rewrite !ln_mult by lra. unfold S1. ring.
  Qed.

  Lemma log_up_rea u : inclined_log b1 b2 (d ^ 2) (dzRea b1 b2) (kRea_0 b1 b2) (kRea_1 b1 b2) (kRea_2 b1 b2) u
    = S1 d (u * H1 + dzRea b1 b2) - S1 d (u * H1 + (dzRea b1 b2 - H2)).
  Proof.
    destruct up_rea as [-> [-> ->]]. set (z := dzRea b1 b2). unfold inclined_log.
    replace (S1 d (u * H1 + z) - S1 d (u * H1 + (z - H2))) with (S1 d (- (u * H1 + (z - H2))) - S1 d (- (u * H1 + z))) by (rewrite !S1_flip by auto; ring).
    rewrite <- log_shape by (apply qrho; auto). f_equal.
    unfold rho. f_equal.
    - replace ((- (u * H1 + (z - H2))) ^ 2 + d ^ 2) with (d ^ 2 + z ^ 2 + u ^ 2 * H1 ^ 2 + H2 ^ 2 + 2 * u * H1 * z - 2 * H2 * z - 2 * u * H1 * H2 * 1) by ring. ring.
    - replace ((- (u * H1 + z)) ^ 2 + d ^ 2) with (d ^ 2 + z ^ 2 + u ^ 2 * H1 ^ 2 + 2 * u * H1 * z) by ring. ring.
  Qed.

  Lemma log_up_img u : inclined_log b1 b2 (d ^ 2) (dzImg b1 b2) (kImg_0 b1 b2) (kImg_1 b1 b2) (kImg_2 b1 b2) u
    = S1 d (u * H1 + (dzImg b1 b2 + H2)) - S1 d (u * H1 + dzImg b1 b2).
  Proof.
    destruct up_img as [-> [-> ->]]. set (z := dzImg b1 b2). unfold inclined_log.
    rewrite <- log_shape by (apply qrho; auto). f_equal.
    unfold rho. f_equal.
    - replace ((u * H1 + (z + H2)) ^ 2 + d ^ 2) with (d ^ 2 + z ^ 2 + u ^ 2 * H1 ^ 2 + H2 ^ 2 + 2 * u * H1 * z - 2 * H2 * - z - 2 * u * H1 * H2 * -1) by ring. ring.
    - replace ((u * H1 + z) ^ 2 + d ^ 2) with (d ^ 2 + z ^ 2 + u ^ 2 * H1 ^ 2 + 2 * u * H1 * z) by ring. ring.
  Qed.

  Lemma scaled c c' : H1 * exact (fun u => S1 d (u * H1 + c) - S1 d (u * H1 + c')) = steady_term d (H1 + c) - steady_term d c - steady_term d (H1 + c') + steady_term d c'.
  Proof.
    rewrite <- (is_RInt_unique _ _ _ _ (two_S1 c c')). unfold exact.
    symmetry. apply (RInt_scal (fun u => S1 d (u * H1 + c) - S1 d (u * H1 + c'))).
    apply (ex_RInt_continuous (fun u => S1 d (u * H1 + c) - S1 d (u * H1 + c'))). intros u _.
    apply (continuous_minus (fun u => S1 d (u * H1 + c)) (fun u => S1 d (u * H1 + c'))).
    - apply (continuous_comp (fun u => u * H1 + c) (S1 d)); [|apply S1_cont]. apply (ex_derive_continuous (fun u => u * H1 + c)). auto_derive. auto.
    - apply (continuous_comp (fun u => u * H1 + c') (S1 d)); [|apply S1_cont]. apply (ex_derive_continuous (fun u => u * H1 + c')). auto_derive. auto.
  Qed.

  Lemma up_log_real : H1 * exact (fun u => inclined_log b1 b2 (d ^ 2) (dzRea b1 b2) (kRea_0 b1 b2) (kRea_1 b1 b2) (kRea_2 b1 b2) u)
    = comb true false (steady_term d) H1 D1 H2 D2.
  Proof.
    rewrite (exact_ext (fun u => inclined_log b1 b2 (d ^ 2) (dzRea b1 b2) (kRea_0 b1 b2) (kRea_1 b1 b2) (kRea_2 b1 b2) u) _ log_up_rea), scaled. unfold dzRea.
    unfold comb.
    replace (D2 - D1 + H2) with (- (D1 - D2 - H2)) by ring. replace (D2 - D1) with (- (D1 - D2)) by ring.
    replace (- (D1 - D2) - H1) with (- (H1 + (D1 - D2))) by ring. replace (- (D1 - D2 - H2) - H1) with (- (H1 + (D1 - D2 - H2))) by ring.
    rewrite !steady_flip by lra. ring.
  Qed.

  Lemma up_log_image : H1 * exact (fun u => inclined_log b1 b2 (d ^ 2) (dzImg b1 b2) (kImg_0 b1 b2) (kImg_1 b1 b2) (kImg_2 b1 b2) u)
    = - comb false true (steady_term d) H1 D1 H2 D2.
  Proof.
    rewrite (exact_ext (fun u => inclined_log b1 b2 (d ^ 2) (dzImg b1 b2) (kImg_0 b1 b2) (kImg_1 b1 b2) (kImg_2 b1 b2) u) _ log_up_img), scaled. unfold comb, dzImg.
    replace (H1 + (D1 + D2 + H2)) with (D2 + D1 + H2 + H1) by ring. replace (D1 + D2 + H2) with (D2 + D1 + H2) by ring.
    replace (H1 + (D1 + D2)) with (D2 + D1 + H1) by ring. replace (D1 + D2) with (D2 + D1) by ring. ring.
  Qed.

  Lemma log_ex_rea : ex_RInt (fun u => inclined_log b1 b2 (d ^ 2) (dzRea b1 b2) (kRea_0 b1 b2) (kRea_1 b1 b2) (kRea_2 b1 b2) u) 0 1.
  Proof.
    apply (ex_RInt_ext (fun u => S1 d (u * H1 + dzRea b1 b2) - S1 d (u * H1 + (dzRea b1 b2 - H2)))); [intros; symmetry; apply log_up_rea|].
    apply (ex_RInt_continuous (fun u => S1 d (u * H1 + dzRea b1 b2) - S1 d (u * H1 + (dzRea b1 b2 - H2)))). intros u _.
    apply (continuous_minus (fun u => S1 d (u * H1 + dzRea b1 b2)) (fun u => S1 d (u * H1 + (dzRea b1 b2 - H2)))).
    - apply (continuous_comp (fun u => u * H1 + dzRea b1 b2) (S1 d)); [|apply S1_cont]. apply (ex_derive_continuous (fun u => u * H1 + dzRea b1 b2)). auto_derive. auto.
    - apply (continuous_comp (fun u => u * H1 + (dzRea b1 b2 - H2)) (S1 d)); [|apply S1_cont]. apply (ex_derive_continuous (fun u => u * H1 + (dzRea b1 b2 - H2))). auto_derive. auto.
  Qed.

  Lemma log_ex_img : ex_RInt (fun u => inclined_log b1 b2 (d ^ 2) (dzImg b1 b2) (kImg_0 b1 b2) (kImg_1 b1 b2) (kImg_2 b1 b2) u) 0 1.
  Proof.
    apply (ex_RInt_ext (fun u => S1 d (u * H1 + (dzImg b1 b2 + H2)) - S1 d (u * H1 + dzImg b1 b2))); [intros; symmetry; apply log_up_img|].
    apply (ex_RInt_continuous (fun u => S1 d (u * H1 + (dzImg b1 b2 + H2)) - S1 d (u * H1 + dzImg b1 b2))). intros u _.
    apply (continuous_minus (fun u => S1 d (u * H1 + (dzImg b1 b2 + H2))) (fun u => S1 d (u * H1 + dzImg b1 b2))).
    - apply (continuous_comp (fun u => u * H1 + (dzImg b1 b2 + H2)) (S1 d)); [|apply S1_cont]. apply (ex_derive_continuous (fun u => u * H1 + (dzImg b1 b2 + H2))). auto_derive. auto.
    - apply (continuous_comp (fun u => u * H1 + dzImg b1 b2) (S1 d)); [|apply S1_cont]. apply (ex_derive_continuous (fun u => u * H1 + dzImg b1 b2)). auto_derive. auto.
  Qed.
End Upright.

Lemma up_steady b1 b2 rea img : upright b1 -> upright b2 -> 0 < b_r b1 -> 0 < b_H b2 -> (img = true -> apart b1 b2) ->
  inclined_steady b1 b2 exact rea img = fls_steady (bh_distance b1 b2) (b_H b1) (b_D b1) (b_H b2) (b_D b2) rea img.
Proof.
  intros U1 U2 Hr HH A. set (d := bh_distance b1 b2).
  assert (Hd : 0 < d) by (unfold d, bh_distance; eapply Rlt_le_trans; [exact Hr|apply Rmax_l]).
  assert (E : rr b1 b2 = d ^ 2) by (symmetry; apply bh_dist_sq; lra).
  assert (E' : img = true -> dx b1 b2 ^ 2 + dy b1 b2 ^ 2 = d ^ 2) by (intros I; rewrite <- E; symmetry; apply apart_rr; auto).
  pose proof (up_log_real b1 b2 U1 U2 d Hd HH) as R. pose proof (up_log_image b1 b2 U1 U2 d Hd HH) as I.
  pose proof (log_ex_rea b1 b2 U1 U2 d Hd HH) as XR. pose proof (log_ex_img b1 b2 U1 U2 d Hd HH) as XI.
  unfold inclined_steady, fls_steady. rewrite inner_comb, E. destruct rea, img.
  - rewrite (E' eq_refl), comb_both, <- R. replace (comb false true (steady_term d) (b_H b1) (b_D b1) (b_H b2) (b_D b2)) with (- - comb false true (steady_term d) (b_H b1) (b_D b1) (b_H b2) (b_D b2)) by ring.
    rewrite <- I. unfold exact in *.
    match goal with |- _ * RInt (fun u => @?f u - @?g u) 0 1 = _ => replace (RInt (fun u => f u - g u) 0 1) with (RInt f 0 1 - RInt g 0 1) by (symmetry; apply (RInt_minus f g 0 1); auto) end.
    cbv beta. field. lra.
  - rewrite <- R. field. lra.
  - rewrite (E' eq_refl). replace (comb false true (steady_term d) (b_H b1) (b_D b1) (b_H b2) (b_D b2)) with (- - comb false true (steady_term d) (b_H b1) (b_D b1) (b_H b2) (b_D b2)) by ring.
    rewrite <- I. unfold exact in *.
    match goal with |- _ * RInt (fun u => - @?g u) 0 1 = _ => replace (RInt (fun u => - g u) 0 1) with (- RInt g 0 1) by (symmetry; apply (RInt_opp g 0 1); auto) end.
    cbv beta. field. lra.
  - unfold comb. ring.
Qed.
