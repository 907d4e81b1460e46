(** Inclined boreholes: geometry of the integrand, convergence, parts, verticals. *)
From Coq Require Import Reals Lra Lia List Bool Psatz.
From Verif Require Import Base FLS_Model FLS_Spec FLS_Erf_Proofs FLS_Proofs FLS_Sol_Proofs FLS_Line_Proofs FLS_Steady_Proofs.
From Coquelicot Require Import Coquelicot.
Local Open Scope R_scope.

(** * Geometry *)

Definition quadr (r2 dz k0 k1 k2 xi v : R) : R := r2 + dz ^ 2 + xi ^ 2 + v ^ 2 + 2 * xi * k1 - 2 * v * k2 - 2 * xi * v * k0.

Lemma unit_dir t o : sin t ^ 2 * (cos o ^ 2 + sin o ^ 2) + cos t ^ 2 = 1.
Proof.
  pose proof (sin2_cos2 t). pose proof (sin2_cos2 o). unfold Rsqr in *.
  replace (cos o ^ 2 + sin o ^ 2) with 1 by (replace (cos o ^ 2 + sin o ^ 2) with (sin o * sin o + cos o * cos o) by ring; auto). 
  replace (sin t ^ 2 * 1 + cos t ^ 2) with (sin t * sin t + cos t * cos t) by ring. auto.
Qed.

Lemma geo_real b1 b2 ex xi v :
  quadr (dx b1 b2 ^ 2 + dy b1 b2 ^ 2 + ex) (dzRea b1 b2) (kRea_0 b1 b2) (kRea_1 b1 b2) (kRea_2 b1 b2) xi v
  = ex + dist2 (point b1 xi) (point b2 v).
Proof.
  unfold quadr, dist2, point, kRea_0, kRea_1, kRea_2, dx, dy, dzRea. cbn [fst snd]. rewrite cos_minus.
  pose proof (unit_dir (b_tilt b1) (b_ori b1)) as E1. pose proof (unit_dir (b_tilt b2) (b_ori b2)) as E2.
  assert (X : xi ^ 2 = xi ^ 2 * (sin (b_tilt b1) ^ 2 * (cos (b_ori b1) ^ 2 + sin (b_ori b1) ^ 2) + cos (b_tilt b1) ^ 2)) by (rewrite E1; ring).
  assert (V : v ^ 2 = v ^ 2 * (sin (b_tilt b2) ^ 2 * (cos (b_ori b2) ^ 2 + sin (b_ori b2) ^ 2) + cos (b_tilt b2) ^ 2)) by (rewrite E2; ring).
  rewrite X, V. ring.
Qed.

Lemma geo_image b1 b2 ex xi v :
  quadr (dx b1 b2 ^ 2 + dy b1 b2 ^ 2 + ex) (dzImg b1 b2) (kImg_0 b1 b2) (kImg_1 b1 b2) (kImg_2 b1 b2) xi v
  = ex + dist2 (mirror (point b1 xi)) (point b2 v).
Proof.
  unfold quadr, dist2, mirror, point, kImg_0, kImg_1, kImg_2, dx, dy, dzImg. cbn [fst snd]. rewrite cos_minus.
  pose proof (unit_dir (b_tilt b1) (b_ori b1)) as E1. pose proof (unit_dir (b_tilt b2) (b_ori b2)) as E2.
  assert (X : xi ^ 2 = xi ^ 2 * (sin (b_tilt b1) ^ 2 * (cos (b_ori b1) ^ 2 + sin (b_ori b1) ^ 2) + cos (b_tilt b1) ^ 2)) by (rewrite E1; ring).
  assert (V : v ^ 2 = v ^ 2 * (sin (b_tilt b2) ^ 2 * (cos (b_ori b2) ^ 2 + sin (b_ori b2) ^ 2) + cos (b_tilt b2) ^ 2)) by (rewrite E2; ring).
  rewrite X, V. ring.
Qed.

Lemma rr_excess b1 b2 : rr b1 b2 = dx b1 b2 ^ 2 + dy b1 b2 ^ 2 + wall_excess b1 b2.
Proof. unfold rr, wall_excess, dx, dy, Rmax. repeat destruct Rle_dec; lra. Qed.

Lemma excess_apart b1 b2 : apart b1 b2 -> wall_excess b1 b2 = 0.
Proof. unfold apart, wall_excess. intros. apply Rmax_left. lra. Qed.

(** * One term *)

Section Term.
  Variables (b1 b2 : bh) (r2 dz k0 k1 k2 u : R).
  Notation H1 := (b_H b1). Notation H2 := (b_H b2).
  Definition foot : R := u * H1 * k0 + k2.
  Definition gapc : R := r2 + dz ^ 2 + (u * H1) ^ 2 + 2 * (u * H1) * k1 - foot ^ 2.

  Lemma quadr_square v : quadr r2 dz k0 k1 k2 (u * H1) v = gapc + (v - foot) ^ 2.
  Proof. unfold quadr, gapc, foot. ring. Qed.

  Lemma term_exp s : inclined_term b1 b2 r2 dz k0 k1 k2 s u
    = exp (- s ^ 2 * gapc) * (erf (foot * s) - erf ((foot - H2) * s)).
  Proof. unfold inclined_term. fold foot. f_equal. f_equal. unfold gapc, foot. ring. Qed.

  Lemma term_RInt s : s <> 0 ->
    H1 / s * inclined_term b1 b2 r2 dz k0 k1 k2 s u
    = 2 / sqrt PI * (H1 * RInt (fun v => point_source s (quadr r2 dz k0 k1 k2 (u * H1) v)) 0 H2).
  Proof.
    intros Hs. pose proof spi as SP.
    assert (E : RInt (fun v => point_source s (quadr r2 dz k0 k1 k2 (u * H1) v)) 0 H2
      = sqrt PI / (2 * s) * exp (- s ^ 2 * gapc) * (erf (s * (H2 + - foot)) - erf (s * (0 + - foot)))).
    { apply (is_RInt_unique (fun v => point_source s (quadr r2 dz k0 k1 k2 (u * H1) v))).
      set (c := sqrt PI / (2 * s) * exp (- s ^ 2 * gapc)).
      replace (c * (erf (s * (H2 + - foot)) - erf (s * (0 + - foot)))) with (minus (c * erf (s * (H2 + - foot))) (c * erf (s * (0 + - foot))))
        by (unfold minus, plus, opp; simpl; ring).
      apply (is_RInt_derive (fun v => c * erf (s * (v + - foot)))).
      - intros v _. rewrite quadr_square, ps_split.
        replace (exp (- s ^ 2 * gapc) * exp (- s ^ 2 * (v - foot) ^ 2)) with (c * (s * (2 / sqrt PI * exp (- s ^ 2 * (v + - foot) ^ 2)))).
        + apply (is_derive_scal (fun v => erf (s * (v + - foot)))). apply erf_lin_derive.
        + unfold c. replace (v - foot) with (v + - foot) by ring. field. split; auto; lra.
      - intros v _. apply (ex_derive_continuous (fun v => point_source s (quadr r2 dz k0 k1 k2 (u * H1) v))).
        unfold point_source, quadr. auto_derive. auto. }
    rewrite E, term_exp. replace (s * (H2 + - foot)) with (- ((foot - H2) * s)) by ring. replace (s * (0 + - foot)) with (- (foot * s)) by ring.
    rewrite !erf_odd. field. split; auto; lra.
  Qed.
End Term.

Lemma term_real b1 b2 s u : s <> 0 ->
  b_H b1 / s * inclined_term b1 b2 (rr b1 b2) (dzRea b1 b2) (kRea_0 b1 b2) (kRea_1 b1 b2) (kRea_2 b1 b2) s u
  = 2 / sqrt PI * (b_H b1 * seen b1 b2 (wall_excess b1 b2) false s u).
Proof.
  intros. rewrite term_RInt, rr_excess by auto. do 2 f_equal. apply RInt_ext. intros v _. rewrite geo_real. auto.
Qed.

Lemma term_image b1 b2 ex s u : s <> 0 ->
  b_H b1 / s * inclined_term b1 b2 (dx b1 b2 ^ 2 + dy b1 b2 ^ 2 + ex) (dzImg b1 b2) (kImg_0 b1 b2) (kImg_1 b1 b2) (kImg_2 b1 b2) s u
  = 2 / sqrt PI * (b_H b1 * seen b1 b2 ex true s u).
Proof.
  intros. rewrite term_RInt by auto. do 2 f_equal. apply RInt_ext. intros v _. rewrite geo_image. auto.
Qed.

(** the image alone *)
Lemma term_image0 b1 b2 s u : s <> 0 ->
  b_H b1 / s * inclined_term b1 b2 (dx b1 b2 ^ 2 + dy b1 b2 ^ 2) (dzImg b1 b2) (kImg_0 b1 b2) (kImg_1 b1 b2) (kImg_2 b1 b2) s u
  = 2 / sqrt PI * (b_H b1 * seen b1 b2 0 true s u).
Proof. intros. rewrite <- term_image by auto. rewrite Rplus_0_r. auto. Qed.

(** * The rule *)

Lemma rule_ext uw f g : (forall u, f u = g u) -> rule uw f = rule uw g.
Proof. intros E. unfold rule. f_equal. apply map_ext. intros. rewrite E. auto. Qed.

Lemma rule_scal uw c f : rule uw (fun u => c * f u) = c * rule uw f.
Proof. unfold rule. rewrite <- Rsum_map_scal. f_equal. apply map_ext. intros. ring. Qed.

Lemma rule_minus uw f g : rule uw (fun u => f u - g u) = rule uw f - rule uw g.
Proof. unfold rule. induction uw; cbn [map Rsum]; [ring|]. rewrite IHuw. ring. Qed.

Lemma rule_nodes uw b1 b2 ex image s : rule uw (fun u => 2 / sqrt PI * (b_H b1 * seen b1 b2 ex image s u)) = nodes_source uw b1 b2 ex image s.
Proof. rewrite rule_scal. unfold nodes_source, rule. f_equal. f_equal. apply map_ext. intros. ring. Qed.

Lemma incl_rule_real uw b1 b2 s : s <> 0 ->
  inclined_integrand b1 b2 (rule uw) true false s = nodes_source uw b1 b2 (wall_excess b1 b2) false s.
Proof. intros. unfold inclined_integrand. rewrite <- rule_nodes. apply rule_ext. intros. apply term_real; auto. Qed.

Lemma incl_rule_image uw b1 b2 s : s <> 0 ->
  inclined_integrand b1 b2 (rule uw) false true s = - nodes_source uw b1 b2 0 true s.
Proof. intros. unfold inclined_integrand. rewrite <- rule_nodes. f_equal. apply rule_ext. intros. apply term_image0; auto. Qed.

Lemma incl_rule_full uw b1 b2 s : s <> 0 ->
  inclined_integrand b1 b2 (rule uw) true true s
  = nodes_source uw b1 b2 (wall_excess b1 b2) false s - nodes_source uw b1 b2 (wall_excess b1 b2) true s.
Proof.
  intros. unfold inclined_integrand. rewrite <- !rule_nodes, <- rule_minus. apply rule_ext. intros.
  rewrite Rmult_minus_distr_l, term_real by auto. rewrite rr_excess, term_image by auto. auto.
Qed.

(** * Convergence *)

(** the closed form of a node *)
Definition img_r2 b1 b2 ex := dx b1 b2 ^ 2 + dy b1 b2 ^ 2 + ex.

Definition zpart (b1 b2 : bh) (image : bool) : R := if image then dzImg b1 b2 else dzRea b1 b2.
Definition k0part (b1 b2 : bh) (image : bool) : R := if image then kImg_0 b1 b2 else kRea_0 b1 b2.
Definition k1part (b1 b2 : bh) (image : bool) : R := if image then kImg_1 b1 b2 else kRea_1 b1 b2.
Definition k2part (b1 b2 : bh) (image : bool) : R := if image then kImg_2 b1 b2 else kRea_2 b1 b2.
Definition nfoot b1 b2 image u := foot b1 (k0part b1 b2 image) (k2part b1 b2 image) u.
Definition ngap b1 b2 ex image u := gapc b1 (img_r2 b1 b2 ex) (zpart b1 b2 image) (k0part b1 b2 image) (k1part b1 b2 image) (k2part b1 b2 image) u.

Lemma geo b1 b2 ex (image : bool) xi v :
  quadr (img_r2 b1 b2 ex) (zpart b1 b2 image) (k0part b1 b2 image) (k1part b1 b2 image) (k2part b1 b2 image) xi v
  = ex + dist2 (if image then mirror (point b1 xi) else point b1 xi) (point b2 v).
Proof. destruct image; [apply geo_image|apply geo_real]. Qed.

Lemma clear_gap b1 b2 ex image u : clear b1 b2 ex image u -> 0 < ngap b1 b2 ex image u.
Proof.
  intros C. specialize (C (nfoot b1 b2 image u)).
  replace (if image then mirror (point b1 (u * b_H b1)) else point b1 (u * b_H b1)) with (if image then mirror (point b1 (u * b_H b1)) else point b1 (u * b_H b1)) in C by auto.
  rewrite <- geo, quadr_square in C. fold (ngap b1 b2 ex image u) in C. unfold nfoot in C.
  replace (foot b1 (k0part b1 b2 image) (k2part b1 b2 image) u - foot b1 (k0part b1 b2 image) (k2part b1 b2 image) u) with 0 in C by ring. lra.
Qed.

Lemma seen_closed b1 b2 ex image s u : s <> 0 ->
  2 / sqrt PI * (b_H b1 * seen b1 b2 ex image s u)
  = b_H b1 / s * (exp (- s ^ 2 * ngap b1 b2 ex image u) * (erf (nfoot b1 b2 image u * s) - erf ((nfoot b1 b2 image u - b_H b2) * s))).
Proof.
  intros Hs. unfold nfoot, ngap. rewrite <- term_exp. rewrite term_RInt by auto. do 2 f_equal. unfold seen.
  apply RInt_ext. intros v _. rewrite geo. auto.
Qed.

Definition node b1 b2 ex image u s : R :=
  b_H b1 / s * (exp (- s ^ 2 * ngap b1 b2 ex image u) * (erf (nfoot b1 b2 image u * s) - erf ((nfoot b1 b2 image u - b_H b2) * s))).

Lemma node_cont b1 b2 ex image u s : 0 < s -> continuous (node b1 b2 ex image u) s.
Proof.
  intros Hs. unfold node. apply (continuous_mult (fun s => b_H b1 / s)).
  { apply (ex_derive_continuous (fun s => b_H b1 / s)). auto_derive. lra. }
  apply (continuous_mult (fun s => exp (- s ^ 2 * ngap b1 b2 ex image u))).
  { apply (ex_derive_continuous (fun s => exp (- s ^ 2 * ngap b1 b2 ex image u))). auto_derive. auto. }
  apply (continuous_minus (fun s => erf (nfoot b1 b2 image u * s)) (fun s => erf ((nfoot b1 b2 image u - b_H b2) * s))).
  - apply (continuous_comp (fun s => nfoot b1 b2 image u * s) erf); [|apply erf_cont].
    apply (ex_derive_continuous (fun s => nfoot b1 b2 image u * s)). auto_derive. auto.
  - apply (continuous_comp (fun s => (nfoot b1 b2 image u - b_H b2) * s) erf); [|apply erf_cont].
    apply (ex_derive_continuous (fun s => (nfoot b1 b2 image u - b_H b2) * s)). auto_derive. auto.
Qed.

Lemma node_conv b1 b2 ex image u a : 0 < a -> clear b1 b2 ex image u -> converges (node b1 b2 ex image u) a.
Proof.
  intros Ha C. apply clear_gap in C. set (c := ngap b1 b2 ex image u) in *.
  apply (conv_exp _ _ (2 * Rabs (b_H b1) / a) (c * a)); [nra|intros; apply node_cont; lra|].
  intros s Hs. unfold node. fold c. unfold Rdiv. rewrite !Rabs_mult. rewrite (Rabs_right (exp _)) by (left; apply exp_pos).
  assert (Hi : 0 < / s) by (apply Rinv_0_lt_compat; lra). rewrite (Rabs_right (/ s)) by lra.
  set (w := nfoot b1 b2 image u).
  assert (B : Rabs (erf (w * s) - erf ((w - b_H b2) * s)) <= 2).
  { pose proof (erf_abs_1 (w * s)) as X. pose proof (erf_abs_1 ((w - b_H b2) * s)) as Y. apply Rabs_le_between in X, Y. apply Rabs_le. lra. }
  assert (E : exp (- s ^ 2 * c) <= exp (- (c * a) * s)).
  { assert (- s ^ 2 * c <= - (c * a) * s) as [L|L].
    - replace (- s ^ 2 * c) with (- (c * (s * s))) by ring. replace (- (c * a) * s) with (- (c * (a * s))) by ring.
      apply Ropp_le_contravar. apply Rmult_le_compat_l; [lra|]. apply Rmult_le_compat_r; lra.
    - left. apply exp_increasing; auto.
    - rewrite L. lra. }
  pose proof (exp_pos (- s ^ 2 * c)). pose proof (Rabs_pos (b_H b1)). pose proof (Rabs_pos (erf (w * s) - erf ((w - b_H b2) * s))).
  assert (I : / s <= / a) by (apply Rinv_le_contravar; lra).
  replace (2 * Rabs (b_H b1) * / a * exp (- (c * a) * s)) with (Rabs (b_H b1) * / a * (exp (- (c * a) * s) * 2)) by ring.
  apply Rmult_le_compat; try apply Rmult_le_pos; try lra.
  - apply Rmult_le_compat_l; lra.
  - apply Rmult_le_compat; lra.
Qed.

Definition nodes uw b1 b2 ex image s := Rsum (map (fun c => snd c * node b1 b2 ex image (fst c) s) uw).

Lemma nodes_eq uw b1 b2 ex image s : s <> 0 -> nodes_source uw b1 b2 ex image s = nodes uw b1 b2 ex image s.
Proof.
  intros. unfold nodes_source, nodes. rewrite <- Rsum_map_scal. f_equal. apply map_ext. intros c. unfold node. rewrite <- seen_closed by auto. ring.
Qed.

Lemma nodes_conv uw b1 b2 ex image a : 0 < a -> (forall c, In c uw -> clear b1 b2 ex image (fst c)) ->
  converges (nodes uw b1 b2 ex image) a /\
  quad_inf (nodes uw b1 b2 ex image) a = Rsum (map (fun c => snd c * quad_inf (node b1 b2 ex image (fst c)) a) uw).
Proof.
  intros Ha C. destruct (conv_sum (fun c s => snd c * node b1 b2 ex image (fst c) s) uw a) as [V E].
  { intros c Hc. apply conv_scal, node_conv; auto. }
  split; auto. unfold nodes. rewrite E. apply Rsum_map_ext. intros c Hc. apply conv_scal, node_conv; auto.
Qed.

Lemma nodes_cont uw b1 b2 ex image s : 0 < s -> continuous (nodes uw b1 b2 ex image) s.
Proof.
  intros Hs. unfold nodes. induction uw as [|c uw IH]; cbn [map Rsum]; [apply continuous_const|].
  apply (continuous_plus (fun s => snd c * node b1 b2 ex image (fst c) s)); auto.
  apply (continuous_mult (fun _ => snd c) (node b1 b2 ex image (fst c))); [apply continuous_const|apply node_cont; auto].
Qed.

(** which terms a configuration has *)
Definition incl_parts uw b1 b2 (rea img : bool) s : R :=
  (if rea then nodes uw b1 b2 (wall_excess b1 b2) false s else 0)
  - (if img then nodes uw b1 b2 (if rea then wall_excess b1 b2 else 0) true s else 0).

Lemma incl_rule uw b1 b2 rea img s : s <> 0 -> inclined_integrand b1 b2 (rule uw) rea img s = incl_parts uw b1 b2 rea img s.
Proof.
  intros. unfold incl_parts. destruct rea, img.
  - rewrite incl_rule_full, !nodes_eq by auto. auto.
  - rewrite incl_rule_real, nodes_eq by auto. ring.
  - rewrite incl_rule_image, nodes_eq by auto. ring.
  - cbn. ring.
Qed.

Lemma incl_conv uw b1 b2 rea img a : 0 < a -> clear_nodes uw b1 b2 rea img ->
  converges (inclined_integrand b1 b2 (rule uw) rea img) a /\
  quad_inf (inclined_integrand b1 b2 (rule uw) rea img) a
  = (if rea then quad_inf (nodes uw b1 b2 (wall_excess b1 b2) false) a else 0)
    - (if img then quad_inf (nodes uw b1 b2 (if rea then wall_excess b1 b2 else 0) true) a else 0).
Proof.
  intros Ha C.
  set (f := fun s => if rea then nodes uw b1 b2 (wall_excess b1 b2) false s else 0).
  set (g := fun s => if img then nodes uw b1 b2 (if rea then wall_excess b1 b2 else 0) true s else 0).
  assert (Cf : converges f a /\ quad_inf f a = if rea then quad_inf (nodes uw b1 b2 (wall_excess b1 b2) false) a else 0).
  { unfold f. destruct rea; [split; auto; apply nodes_conv; auto; intros; apply C; auto|apply conv_zero]. }
  assert (Cg : converges g a /\ quad_inf g a = if img then quad_inf (nodes uw b1 b2 (if rea then wall_excess b1 b2 else 0) true) a else 0).
  { unfold g. destruct img; [split; auto; apply nodes_conv; auto; intros; apply C; auto|apply conv_zero]. }
  destruct Cf as [Cf Ef]. destruct Cg as [Cg Eg]. destruct (conv_scal (-1) g a Cg) as [Cm Em].
  destruct (conv_plus f (fun s => -1 * g s) a Cf Cm) as [Cp Ep].
  assert (E : forall s, a < s -> f s + -1 * g s = inclined_integrand b1 b2 (rule uw) rea img s).
  { intros s Hs. rewrite incl_rule by lra. unfold incl_parts, f, g. ring. }
  split.
  - revert Cp. apply conv_ext. auto.
  - rewrite <- (quad_ext _ _ _ E), Ep, Em, Ef, Eg. ring.
Qed.

Lemma incl_cont uw b1 b2 rea img s : 0 < s -> continuous (inclined_integrand b1 b2 (rule uw) rea img) s.
Proof.
  intros Hs. apply (continuous_ext_loc _ (incl_parts uw b1 b2 rea img)).
  - exists (mkposreal s Hs). intros y Hy. symmetry. apply incl_rule. apply Rabs_def2 in Hy.
    unfold minus, plus, opp in Hy. simpl in Hy. lra.
  - apply (continuous_minus (fun s => if rea then nodes uw b1 b2 (wall_excess b1 b2) false s else 0)
            (fun s => if img then nodes uw b1 b2 (if rea then wall_excess b1 b2 else 0) true s else 0)).
    + destruct rea; [apply nodes_cont; auto|apply continuous_const].
    + destruct img; [apply nodes_cont; auto|apply continuous_const].
Qed.

Lemma incl_times uw b1 b2 times alpha rea img : 0 < alpha -> (forall t, In t times -> 0 < t) -> clear_nodes uw b1 b2 rea img ->
  fls_inclined_array b1 b2 (rule uw) times alpha rea img = map (fun t => fls_inclined b1 b2 (rule uw) t alpha rea img) times.
Proof.
  intros Ha P C. unfold fls_inclined_array. rewrite pieces_sum.
  - rewrite map_map. auto.
  - intros a Hin. apply in_map_iff in Hin. destruct Hin as [t [<- Ht]]. apply incl_conv; auto. apply lower_pos; auto.
  - intros a Hin. apply in_map_iff in Hin. destruct Hin as [t [<- Ht]]. apply lower_pos; auto.
  - intros. apply incl_cont; auto.
  - auto.
Qed.

Lemma incl_parts_sum uw b1 b2 time alpha : 0 < alpha -> 0 < time -> apart b1 b2 -> clear_nodes uw b1 b2 true true ->
  fls_inclined b1 b2 (rule uw) time alpha true true
  = fls_inclined b1 b2 (rule uw) time alpha true false + fls_inclined b1 b2 (rule uw) time alpha false true.
Proof.
  intros Ha Ht A C. pose proof (lower_pos alpha time Ha Ht) as L. pose proof (excess_apart b1 b2 A) as X. unfold fls_inclined.
  rewrite (proj2 (incl_conv uw b1 b2 true true _ L C)).
  assert (C1 : clear_nodes uw b1 b2 true false) by (intros c Hc; split; [intros; apply C; auto|discriminate]).
  assert (C2 : clear_nodes uw b1 b2 false true).
  { intros c Hc. split; [discriminate|]. intros _. destruct (C c Hc) as [_ D]. specialize (D eq_refl). cbn in D. rewrite X in D. auto. }
  rewrite (proj2 (incl_conv uw b1 b2 true false _ L C1)), (proj2 (incl_conv uw b1 b2 false true _ L C2)).
  rewrite X. ring.
Qed.

(** * Every inclined borehole on itself *)

Lemma self_clear_real b u : 0 < b_r b -> clear b b (wall_excess b b) false u.
Proof.
  intros Hr v. assert (0 < wall_excess b b).
  { unfold wall_excess. apply Rlt_le_trans with (b_r b ^ 2 - ((b_x b - b_x b) ^ 2 + (b_y b - b_y b) ^ 2)); [nra|apply Rmax_r]. }
  assert (0 <= dist2 (point b (u * b_H b)) (point b v)); [|lra].
  unfold dist2. repeat apply Rplus_le_le_0_compat; apply pow2_ge_0.
Qed.

Lemma self_clear_image b ex u : 0 <= ex -> 0 < b_H b -> 0 < b_D b -> 0 < b_tilt b < PI / 2 -> 0 <= u -> clear b b ex true u.
Proof.
  intros He HH HD HT Hu v. assert (S : 0 < sin (b_tilt b)) by (apply sin_gt_0; lra).
  assert (Co : 0 < cos (b_tilt b)) by (apply cos_gt_0; lra).
  set (xi := u * b_H b). assert (0 <= xi) by (unfold xi; nra).
  assert (P : 0 < dist2 (mirror (point b xi)) (point b v)); [|lra].
  unfold dist2, mirror, point. cbn [fst snd].
  destruct (Req_dec v xi) as [->|N].
  - apply Rplus_le_lt_0_compat; [apply Rplus_le_le_0_compat; apply pow2_ge_0|].
    apply pow2_gt_0. nra.
  - apply Rplus_lt_le_0_compat; [|apply pow2_ge_0].
    replace ((b_x b + xi * sin (b_tilt b) * cos (b_ori b) - (b_x b + v * sin (b_tilt b) * cos (b_ori b))) ^ 2 + (b_y b + xi * sin (b_tilt b) * sin (b_ori b) - (b_y b + v * sin (b_tilt b) * sin (b_ori b))) ^ 2)
      with (((xi - v) * sin (b_tilt b)) ^ 2 * (sin (b_ori b) ^ 2 + cos (b_ori b) ^ 2)) by ring.
    replace (sin (b_ori b) ^ 2 + cos (b_ori b) ^ 2) with 1.
    + rewrite Rmult_1_r. apply pow2_gt_0. apply Rmult_integral_contrapositive. split; lra.
    + pose proof (sin2_cos2 (b_ori b)). unfold Rsqr in *. lra.
Qed.

Lemma seen_decr b1 b2 ex ex' image s u : s <> 0 -> 0 < b_H b2 -> ex < ex' -> seen b1 b2 ex' image s u < seen b1 b2 ex image s u.
Proof.
  intros Hs HH L. unfold seen. set (p := if image then mirror (point b1 (u * b_H b1)) else point b1 (u * b_H b1)).
  assert (Co : forall e v, continuous (fun v => point_source s (e + dist2 p (point b2 v))) v).
  { intros e v. apply (ex_derive_continuous (fun v => point_source s (e + dist2 p (point b2 v)))). unfold point_source, dist2, point. cbn [fst snd]. auto_derive. auto. }
  apply RInt_lt; auto.
  intros v _. apply ps_lt; auto. lra.
Qed.

Lemma node_decr b1 b2 ex ex' image u s : 0 < s -> 0 < b_H b1 -> 0 < b_H b2 -> ex < ex' -> node b1 b2 ex' image u s < node b1 b2 ex image u s.
Proof.
  intros Hs P1 P2 L. unfold node. rewrite <- !seen_closed by lra.
  apply Rmult_lt_compat_l; [apply Rdiv_lt_0_compat; [lra|apply spi]|]. apply Rmult_lt_compat_l; auto. apply seen_decr; auto. lra.
Qed.

Lemma Rsum_lt {A} (f g : A -> R) l : l <> nil -> (forall x, In x l -> f x < g x) -> Rsum (map f l) < Rsum (map g l).
Proof.
  induction l as [|x l IH]; intros N L; [congruence|]. cbn [map Rsum].
  pose proof (L x (or_introl eq_refl)). destruct l as [|y l]; [cbn; lra|].
  assert (Rsum (map f (y :: l)) < Rsum (map g (y :: l))) by (apply IH; [discriminate|intros; apply L; right; auto]). lra.
Qed.

Lemma self_excess b : 0 < b_r b -> 0 < wall_excess b b.
Proof.
  intros. unfold wall_excess. apply Rlt_le_trans with (b_r b ^ 2 - ((b_x b - b_x b) ^ 2 + (b_y b - b_y b) ^ 2)); [nra|apply Rmax_r].
Qed.

Lemma self_parts uw b time alpha : uw <> nil -> (forall c, In c uw -> 0 <= fst c /\ 0 < snd c) ->
  0 < b_H b -> 0 < b_D b -> 0 < b_r b -> 0 < b_tilt b < PI / 2 -> 0 < alpha -> 0 < time ->
  fls_inclined b b (rule uw) time alpha true false + fls_inclined b b (rule uw) time alpha false true
  < fls_inclined b b (rule uw) time alpha true true.
Proof.
  intros NU W HH HD HR HT Ha Ht. pose proof (lower_pos alpha time Ha Ht) as L. pose proof (self_excess b HR) as X.
  unfold fls_inclined. rewrite <- Rmult_plus_distr_l. apply Rmult_lt_compat_l; [apply Rdiv_lt_0_compat; lra|].
  assert (C0 : clear_nodes uw b b true true).
  { intros c Hc. destruct (W c Hc). split; intros; [apply self_clear_real; auto|apply self_clear_image; auto; lra]. }
  assert (C1 : clear_nodes uw b b true false) by (intros c Hc; split; [intros; apply C0; auto|discriminate]).
  assert (C2 : clear_nodes uw b b false true).
  { intros c Hc. destruct (W c Hc). split; [discriminate|]. intros _. apply self_clear_image; auto; lra. }
  rewrite (proj2 (incl_conv uw b b true false _ L C1)), (proj2 (incl_conv uw b b false true _ L C2)), (proj2 (incl_conv uw b b true true _ L C0)).
  cbv iota.
  assert (Q : quad_inf (nodes uw b b (wall_excess b b) true) (lower alpha time) < quad_inf (nodes uw b b 0 true) (lower alpha time)); [|lra].
  apply quad_lt.
  - apply nodes_conv; auto. intros. apply C0; auto.
  - apply nodes_conv; auto. intros. apply C2; auto.
  - intros s Hs. unfold nodes. apply Rsum_lt; auto. intros c Hc. apply Rmult_lt_compat_l; [apply W; auto|]. apply node_decr; auto; lra.
  - intros. apply nodes_cont. lra.
  - intros. apply nodes_cont. lra.
Qed.
