(** Inclined boreholes: the steady state is the mean of 1 / distance and the limit of
    the transient solution. *)
From Coq Require Import Reals Lra Lia List Bool Psatz.
From Verif Require Import Base FLS_Model FLS_Spec FLS_Erf_Proofs FLS_Proofs FLS_Sol_Proofs FLS_Line_Proofs FLS_Steady_Proofs FLS_Incl_Proofs.
From Coquelicot Require Import Coquelicot.
Local Open Scope R_scope.

Lemma sqrt_sq c : 0 < c -> sqrt c ^ 2 = c.
Proof. intros. rewrite <- Rsqr_pow2. apply Rsqr_sqrt. lra. Qed.

Lemma S1_flip d q : 0 < d -> S1 d (- q) = 2 * ln d - S1 d q.
Proof.
  intros Hd. unfold S1. pose proof (qrho d Hd q) as P. pose proof (qrho d Hd (- q)) as N.
  assert (E : rho d (- q) = rho d q) by (unfold rho; f_equal; ring). rewrite E in *.
  assert (M : ln (- q + rho d q) + ln (q + rho d q) = 2 * ln d); [|lra].
  rewrite <- ln_mult by auto. replace ((- q + rho d q) * (q + rho d q)) with (d * d).
  - rewrite ln_mult by auto. ring.
  - pose proof (rho_sq d q). nra.
Qed.

Section Node.
  Variables (b1 b2 : bh) (ex : R) (image : bool) (u : R).
  Hypothesis C : clear b1 b2 ex image u.
  Notation c := (ngap b1 b2 ex image u).
  Notation w := (nfoot b1 b2 image u).
  Notation d := (sqrt c).

  Lemma d_pos : 0 < d. Proof. apply sqrt_lt_R0, clear_gap; auto. Qed.

  Lemma dist_rho v : sqrt (ex + dist2 (if image then mirror (point b1 (u * b_H b1)) else point b1 (u * b_H b1)) (point b2 v)) = rho d (v - w).
  Proof.
    rewrite <- geo, quadr_square. unfold rho. rewrite sqrt_sq by (apply clear_gap; auto). f_equal. unfold ngap, nfoot. ring.
  Qed.

  Lemma steady_closed : steady_source b1 b2 ex image u = S1 d (b_H b2 - w) - S1 d (0 - w).
  Proof.
    unfold steady_source. pose proof d_pos as P. rewrite (RInt_ext _ (fun v => / rho d (v - w))) by (intros; rewrite dist_rho; auto).
    apply (is_RInt_unique (fun v => / rho d (v - w))).
    replace (S1 d (b_H b2 - w) - S1 d (0 - w)) with (minus (S1 d (b_H b2 - w)) (S1 d (0 - w))) by reflexivity.
    apply (is_RInt_derive (fun v => S1 d (v - w))).
    - intros v _. replace (/ rho d (v - w)) with (scal 1 (/ rho d (v - w))) by (unfold scal; simpl; unfold mult; simpl; ring).
      apply (is_derive_comp (S1 d) (fun v => v - w)); [apply S1_derive; auto|]. auto_derive; auto; ring.
    - intros v _. apply (continuous_comp (fun v => v - w) (fun q => / rho d q)).
      + apply (ex_derive_continuous (fun v => v - w)). auto_derive. auto.
      + apply (ex_derive_continuous (fun q => / rho d q)). apply (ex_derive_inv (rho d)).
        * eexists. apply rho_derive; auto.
        * pose proof (rho_pos d P (v - w)). lra.
  Qed.

  Lemma log_closed : 0 < b_H b2 ->
    inclined_log b1 b2 (img_r2 b1 b2 ex) (zpart b1 b2 image) (k0part b1 b2 image) (k1part b1 b2 image) (k2part b1 b2 image) u
    = steady_source b1 b2 ex image u.
  Proof.
    intros HH. rewrite steady_closed. pose proof d_pos as P. unfold inclined_log.
    set (H1 := b_H b1) in *. set (H2 := b_H b2) in *.
    assert (E : forall v, sqrt (quadr (img_r2 b1 b2 ex) (zpart b1 b2 image) (k0part b1 b2 image) (k1part b1 b2 image) (k2part b1 b2 image) (u * H1) v) = rho d (v - w)).
    { intros v. rewrite <- dist_rho. unfold H1. rewrite geo. auto. }
    replace (sqrt (img_r2 b1 b2 ex + zpart b1 b2 image ^ 2 + u ^ 2 * H1 ^ 2 + H2 ^ 2 + 2 * u * H1 * k1part b1 b2 image - 2 * H2 * k2part b1 b2 image - 2 * u * H1 * H2 * k0part b1 b2 image))
      with (rho d (H2 - w)) by (rewrite <- E; f_equal; unfold quadr; ring).
    replace (sqrt (img_r2 b1 b2 ex + zpart b1 b2 image ^ 2 + u ^ 2 * H1 ^ 2 + 2 * u * H1 * k1part b1 b2 image))
      with (rho d (0 - w)) by (rewrite <- E; f_equal; unfold quadr; ring).
    assert (W : w = u * H1 * k0part b1 b2 image + k2part b1 b2 image) by reflexivity.
    replace (2 * H2 * rho d (H2 - w) + 2 * H2 ^ 2 - 2 * H2 * k2part b1 b2 image - 2 * u * H1 * H2 * k0part b1 b2 image)
      with (2 * H2 * ((H2 - w) + rho d (H2 - w))) by (set (r0 := rho d (H2 - w)); rewrite W; ring).
    replace (2 * H2 * rho d (0 - w) - 2 * H2 * k2part b1 b2 image - 2 * u * H1 * H2 * k0part b1 b2 image)
      with (2 * H2 * ((0 - w) + rho d (0 - w))) by (set (r0 := rho d (0 - w)); rewrite W; ring).
    pose proof (qrho d P (H2 - w)) as A. pose proof (qrho d P (0 - w)) as B.
    rewrite ln_div by (apply Rmult_lt_0_compat; lra). rewrite !ln_mult by lra. unfold S1. ring.
  Qed.

  (** the transient part *)
  Lemma node_RInt a b : 0 < a -> a <= b ->
    RInt (node b1 b2 ex image u) a b = b_H b1 * (I1 d a b w - I1 d a b (w - b_H b2)).
  Proof.
    intros Ha Hab. unfold I1.
    assert (X : forall q, ex_RInt (fun s => wt d s * s * erf (q * s)) a b).
    { intros q. apply (ex_RInt_continuous (fun s => wt d s * s * erf (q * s))). intros s. rewrite Rmin_left, Rmax_right by auto. intros Hs.
      apply (continuous_mult (fun s => wt d s * s) (fun s => erf (q * s))).
      - apply (ex_derive_continuous (fun s => wt d s * s)). unfold wt. auto_derive. nra.
      - apply (continuous_comp (fun s => q * s) erf); [|apply erf_cont]. apply (ex_derive_continuous (fun s => q * s)). auto_derive. auto. }
    rewrite (RInt_ext _ (fun s => scal (b_H b1) (minus (wt d s * s * erf (w * s)) (wt d s * s * erf ((w - b_H b2) * s))))).
    - rewrite (RInt_scal (fun s => minus (wt d s * s * erf (w * s)) (wt d s * s * erf ((w - b_H b2) * s)))).
      + rewrite (RInt_minus (fun s => wt d s * s * erf (w * s)) (fun s => wt d s * s * erf ((w - b_H b2) * s))) by auto. reflexivity.
      + apply (ex_RInt_minus (fun s => wt d s * s * erf (w * s)) (fun s => wt d s * s * erf ((w - b_H b2) * s))); auto.
    - intros s. rewrite Rmin_left by auto. intros Hs. unfold scal, minus, plus, opp; simpl. unfold mult; simpl. unfold node, wt.
      eqR. pose proof (sqrt_sq c (clear_gap _ _ _ _ _ C)) as Q.
      replace (exp (- d ^ 2 * s ^ 2)) with (exp (- s ^ 2 * c)) by (f_equal; rewrite Q; ring). field. lra.
  Qed.

  Lemma node_near a : 0 < a ->
    Rabs (b_H b1 * steady_source b1 b2 ex image u - quad_inf (node b1 b2 ex image u) a)
    <= Rabs (b_H b1) * (2 * (Rabs w + Rabs (w - b_H b2))) * a.
  Proof.
    intros Ha. pose proof d_pos as P. set (B := Rabs (b_H b1) * (Rabs w + Rabs (w - b_H b2))).
    assert (PB : 0 <= B).
    { unfold B. apply Rmult_le_pos; [apply Rabs_pos|]. pose proof (Rabs_pos w). pose proof (Rabs_pos (w - b_H b2)). lra. }
    set (T := b_H b1 * steady_source b1 b2 ex image u). set (f := node b1 b2 ex image u).
    assert (Near : forall b, a <= b -> Rabs (T - RInt f a b) <= B * eps d a b).
    { intros b Hb. unfold T, f. rewrite node_RInt by auto. rewrite steady_closed.
      pose proof (gap1 d a b P Ha Hb w) as G1. pose proof (gap1 d a b P Ha Hb (w - b_H b2)) as G2.
      replace (b_H b2 - w) with (- (w - b_H b2)) by ring. replace (0 - w) with (- w) by ring. rewrite !S1_flip by auto.
      replace (b_H b1 * (2 * ln d - S1 d (w - b_H b2) - (2 * ln d - S1 d w)) - b_H b1 * (I1 d a b w - I1 d a b (w - b_H b2)))
        with (b_H b1 * ((S1 d w - I1 d a b w + - S1 d 0) - (S1 d (w - b_H b2) - I1 d a b (w - b_H b2) + - S1 d 0))) by ring.
      rewrite Rabs_mult. unfold B. rewrite Rmult_assoc. apply Rmult_le_compat_l; [apply Rabs_pos|].
      eapply Rle_trans; [apply Rabs_triang|]. rewrite Rabs_Ropp. rewrite Rmult_plus_distr_r. lra. }
    assert (Cv : converges f a) by (apply node_conv; auto). pose proof (quad_is f a (proj2 Cv)) as Q0.
    assert (L : is_lim (fun b => Rabs (T - RInt f a b)) p_infty (Rabs (T - quad_inf f a))).
    { apply (is_lim_Rabs (fun b => T - RInt f a b) p_infty (Finite (T - quad_inf f a))).
      apply (is_lim_minus (fun _ => T) _ p_infty T (quad_inf f a)); [apply is_lim_const|exact Q0|reflexivity]. }
    assert (U : is_lim (fun b => 2 * B * / d ^ 3 * / b + 2 * B * a) p_infty (Finite (2 * B * / d ^ 3 * 0 + 2 * B * a))).
    { apply (is_lim_plus _ _ _ (Finite (2 * B * / d ^ 3 * 0)) (Finite (2 * B * a))); [|apply is_lim_const|reflexivity].
      apply (is_lim_scal_l (fun b => / b) (2 * B * / d ^ 3) p_infty (Finite 0)).
      apply (is_lim_inv (fun b => b) p_infty p_infty); [apply is_lim_id|discriminate]. }
    assert (Bd : Rbar_le (Rabs (T - quad_inf f a)) (Finite (2 * B * / d ^ 3 * 0 + 2 * B * a))).
    { refine (is_lim_le_loc _ _ p_infty _ _ _ L U). apply (after (Rmax a 1)). intros b Hb.
      pose proof (Rmax_l a 1). pose proof (Rmax_r a 1).
      eapply Rle_trans; [apply Near; lra|].
      unfold eps. assert (E : exp (- (b * d) ^ 2) <= / (b * d ^ 2)).
      { rewrite <- (Rinv_inv (exp _)). apply Rinv_le_contravar; [apply Rmult_lt_0_compat; [lra|apply pow_lt; auto]|]. rewrite <- exp_Ropp.
        pose proof (exp_ineq1_le (- - (b * d) ^ 2)). assert (b * d ^ 2 <= (b * d) ^ 2).
        { replace ((b * d) ^ 2) with (b * (b * d ^ 2)) by ring. assert (0 < b * d ^ 2) by (apply Rmult_lt_0_compat; [lra|apply pow_lt; auto]). nra. }
        lra. }
      replace (B * (2 * exp (- (b * d) ^ 2) / d + 2 * a)) with (2 * B * (exp (- (b * d) ^ 2) / d) + 2 * B * a) by (field; lra).
      replace (2 * B * / d ^ 3 * / b) with (2 * B * (/ (b * d ^ 2) / d)) by (field; lra).
      apply Rplus_le_compat_r. apply Rmult_le_compat_l; [lra|]. apply Rmult_le_compat_r; auto. left. apply Rinv_0_lt_compat; auto. }
    change (Rabs (T - quad_inf f a) <= 2 * B * / d ^ 3 * 0 + 2 * B * a) in Bd. unfold B in *. lra.
  Qed.

  Lemma node_limit alpha : 0 < alpha ->
    is_lim (fun t => quad_inf (node b1 b2 ex image u) (lower alpha t)) p_infty (b_H b1 * steady_source b1 b2 ex image u).
  Proof.
    intros Ha. set (T := b_H b1 * steady_source b1 b2 ex image u).
    set (k := Rabs (b_H b1) * (2 * (Rabs w + Rabs (w - b_H b2)))).
    assert (L : is_lim (fun time => k * lower alpha time) p_infty (Finite (k * 0))).
    { apply (is_lim_scal_l (fun t => lower alpha t) k p_infty (Finite 0)). unfold lower.
      apply (is_lim_ext (fun t => / sqrt (4 * alpha * t))); [intros; unfold Rdiv; ring|].
      apply (is_lim_inv (fun t => sqrt (4 * alpha * t)) p_infty p_infty); [|discriminate].
      apply (is_lim_comp sqrt (fun t => 4 * alpha * t) p_infty p_infty p_infty); [apply sqrt_lim| |apply (after 0); intros; discriminate].
      apply is_lim_spec. intros M. exists (M / (4 * alpha)). intros t Hx. apply (Rmult_lt_compat_l (4 * alpha)) in Hx; [|lra].
      replace (4 * alpha * (M / (4 * alpha))) with M in Hx by (field; lra). auto. }
    rewrite Rmult_0_r in L. apply is_lim_spec. apply is_lim_spec in L. intros e. destruct (L e) as [m Hm].
    exists (Rmax m 0). intros t Ht. pose proof (Rmax_l m 0). pose proof (Rmax_r m 0). pose proof (Hm t ltac:(lra)) as B. rewrite Rminus_0_r in B.
    rewrite Rabs_minus_sym. eapply Rle_lt_trans; [apply node_near, lower_pos; auto; lra|].
    eapply Rle_lt_trans; [|exact B]. apply Rle_abs.
  Qed.
End Node.

(** * Rules *)

Lemma lim_Rsum {A} (F : A -> R -> R) (v : A -> R) l : (forall x, In x l -> is_lim (F x) p_infty (Finite (v x))) ->
  is_lim (fun t => Rsum (map (fun x => F x t) l)) p_infty (Finite (Rsum (map v l))).
Proof.
  induction l as [|x l IH]; intros H; cbn [map Rsum]; [apply is_lim_const|].
  apply (is_lim_plus _ _ _ (Finite (v x)) (Finite (Rsum (map v l)))); [apply H; left; auto|apply IH; intros; apply H; right; auto|reflexivity].
Qed.

Lemma nodes_limit uw b1 b2 ex image alpha : 0 < alpha -> (forall c, In c uw -> clear b1 b2 ex image (fst c)) ->
  is_lim (fun t => quad_inf (nodes uw b1 b2 ex image) (lower alpha t)) p_infty
    (b_H b1 * rule uw (steady_source b1 b2 ex image)).
Proof.
  intros Ha Cl.
  apply (is_lim_ext_loc (fun t => Rsum (map (fun c => snd c * quad_inf (node b1 b2 ex image (fst c)) (lower alpha t)) uw))).
  { apply (after 1). intros t Ht. symmetry. apply nodes_conv; auto. apply lower_pos; lra. }
  replace (b_H b1 * rule uw (steady_source b1 b2 ex image)) with (Rsum (map (fun c => snd c * (b_H b1 * steady_source b1 b2 ex image (fst c))) uw)).
  - apply (lim_Rsum (fun c t => snd c * quad_inf (node b1 b2 ex image (fst c)) (lower alpha t))). intros c Hc.
    apply (is_lim_scal_l _ (snd c) p_infty (Finite (b_H b1 * steady_source b1 b2 ex image (fst c)))). apply node_limit; auto.
  - unfold rule. rewrite <- Rsum_map_scal. f_equal. apply map_ext. intros. ring.
Qed.

(** the limit of the transient solution *)
Definition incl_limit uw b1 b2 (rea img : bool) : R :=
  (1/2) / b_H b2 * (b_H b1 * ((if rea then rule uw (steady_source b1 b2 (wall_excess b1 b2) false) else 0)
    - (if img then rule uw (steady_source b1 b2 (if rea then wall_excess b1 b2 else 0) true) else 0))).

Lemma incl_lim uw b1 b2 alpha rea img : 0 < alpha -> clear_nodes uw b1 b2 rea img ->
  is_lim (fun t => fls_inclined b1 b2 (rule uw) t alpha rea img) p_infty (incl_limit uw b1 b2 rea img).
Proof.
  intros Ha Cl. unfold incl_limit, fls_inclined.
  apply (is_lim_scal_l _ ((1/2) / b_H b2) p_infty (Finite (b_H b1 * ((if rea then rule uw (steady_source b1 b2 (wall_excess b1 b2) false) else 0)
    - (if img then rule uw (steady_source b1 b2 (if rea then wall_excess b1 b2 else 0) true) else 0))))).
  apply (is_lim_ext_loc (fun t => (if rea then quad_inf (nodes uw b1 b2 (wall_excess b1 b2) false) (lower alpha t) else 0)
    - (if img then quad_inf (nodes uw b1 b2 (if rea then wall_excess b1 b2 else 0) true) (lower alpha t) else 0))).
  { apply (after 1). intros t Ht. symmetry. apply incl_conv; auto. apply lower_pos; lra. }
  rewrite Rmult_minus_distr_l.
  apply (is_lim_minus _ _ _ (Finite (b_H b1 * (if rea then rule uw (steady_source b1 b2 (wall_excess b1 b2) false) else 0)))
    (Finite (b_H b1 * (if img then rule uw (steady_source b1 b2 (if rea then wall_excess b1 b2 else 0) true) else 0)))); [| |reflexivity].
  - destruct rea; [apply nodes_limit; auto; intros; apply Cl; auto|rewrite Rmult_0_r; apply is_lim_const].
  - destruct img; [apply nodes_limit; auto; intros; apply Cl; auto|rewrite Rmult_0_r; apply is_lim_const].
Qed.

(** the steady-state formula *)
Lemma rule_ext_in uw f g : (forall c, In c uw -> f (fst c) = g (fst c)) -> rule uw f = rule uw g.
Proof. intros E. unfold rule. apply Rsum_map_ext. intros c Hc. rewrite E; auto. Qed.

Definition clear_steady (uw : list (R * R)) (b1 b2 : bh) (rea img : bool) : Prop :=
  forall c, In c uw -> (rea = true -> clear b1 b2 (wall_excess b1 b2) false (fst c)) /\ (img = true -> clear b1 b2 0 true (fst c)).

Lemma log_real b1 b2 u : clear b1 b2 (wall_excess b1 b2) false u -> 0 < b_H b2 ->
  inclined_log b1 b2 (rr b1 b2) (dzRea b1 b2) (kRea_0 b1 b2) (kRea_1 b1 b2) (kRea_2 b1 b2) u = steady_source b1 b2 (wall_excess b1 b2) false u.
Proof. intros Cl HH. rewrite <- (log_closed b1 b2 (wall_excess b1 b2) false u Cl HH). rewrite rr_excess. reflexivity. Qed.

Lemma log_image b1 b2 u : clear b1 b2 0 true u -> 0 < b_H b2 ->
  inclined_log b1 b2 (dx b1 b2 ^ 2 + dy b1 b2 ^ 2) (dzImg b1 b2) (kImg_0 b1 b2) (kImg_1 b1 b2) (kImg_2 b1 b2) u = steady_source b1 b2 0 true u.
Proof.
  intros Cl HH. rewrite <- (log_closed b1 b2 0 true u Cl HH). unfold img_r2. rewrite Rplus_0_r. reflexivity.
Qed.

Lemma steady_rule uw b1 b2 rea img : 0 < b_H b2 -> clear_steady uw b1 b2 rea img ->
  inclined_steady b1 b2 (rule uw) rea img
  = (1/2) / b_H b2 * (b_H b1 * ((if rea then rule uw (steady_source b1 b2 (wall_excess b1 b2) false) else 0)
    - (if img then rule uw (steady_source b1 b2 0 true) else 0))).
Proof.
  intros HH Cl. unfold inclined_steady. destruct rea, img.
  - rewrite rule_minus.
    rewrite (rule_ext_in uw _ (steady_source b1 b2 (wall_excess b1 b2) false) ltac:(intros; apply log_real; auto; apply Cl; auto)).
    rewrite (rule_ext_in uw (inclined_log b1 b2 (dx b1 b2 ^ 2 + dy b1 b2 ^ 2) (dzImg b1 b2) (kImg_0 b1 b2) (kImg_1 b1 b2) (kImg_2 b1 b2)) (steady_source b1 b2 0 true))
      by (intros; apply log_image; auto; apply Cl; auto). field. lra.
  - rewrite (rule_ext_in uw _ (steady_source b1 b2 (wall_excess b1 b2) false)) by (intros; apply log_real; auto; apply Cl; auto). field. lra.
  - rewrite (rule_ext_in uw _ (fun u => (-1) * steady_source b1 b2 0 true u)).
    + rewrite rule_scal. field. lra.
    + intros c Hc. rewrite log_image; [ring| |auto]. apply Cl; auto.
  - field. lra.
Qed.

Lemma incl_lim_steady uw b1 b2 alpha rea img : 0 < alpha -> 0 < b_H b2 -> apart b1 b2 -> clear_nodes uw b1 b2 rea img ->
  is_lim (fun t => fls_inclined b1 b2 (rule uw) t alpha rea img) p_infty (inclined_steady b1 b2 (rule uw) rea img).
Proof.
  intros Ha HH A Cl. pose proof (excess_apart b1 b2 A) as X. rewrite steady_rule; auto.
  - pose proof (incl_lim uw b1 b2 alpha rea img Ha Cl) as L. unfold incl_limit in L. rewrite X in *.
    replace (if rea then 0 else 0) with 0 in L by (destruct rea; auto). exact L.
  - intros c Hc. destruct (Cl c Hc) as [R I]. split; auto. intros E. specialize (I E). rewrite X in I. destruct rea; auto.
Qed.

(** a part alone, whatever the distance *)
Lemma incl_lim_part uw b1 b2 alpha rea img : 0 < alpha -> 0 < b_H b2 -> rea && img = false -> clear_nodes uw b1 b2 rea img ->
  is_lim (fun t => fls_inclined b1 b2 (rule uw) t alpha rea img) p_infty (inclined_steady b1 b2 (rule uw) rea img).
Proof.
  intros Ha HH E Cl. rewrite steady_rule; auto.
  - pose proof (incl_lim uw b1 b2 alpha rea img Ha Cl) as L. unfold incl_limit in L. destruct rea, img; try discriminate; exact L.
  - intros c Hc. destruct (Cl c Hc) as [R I]. split; auto. destruct rea, img; try discriminate; auto.
Qed.

Lemma steady_parts b1 b2 uw : inclined_steady b1 b2 (rule uw) true true = inclined_steady b1 b2 (rule uw) true false + inclined_steady b1 b2 (rule uw) false true.
Proof.
  unfold inclined_steady. rewrite rule_minus.
  rewrite (rule_ext uw (fun u => - inclined_log b1 b2 (dx b1 b2 ^ 2 + dy b1 b2 ^ 2) (dzImg b1 b2) (kImg_0 b1 b2) (kImg_1 b1 b2) (kImg_2 b1 b2) u)
     (fun u => (-1) * inclined_log b1 b2 (dx b1 b2 ^ 2 + dy b1 b2 ^ 2) (dzImg b1 b2) (kImg_0 b1 b2) (kImg_1 b1 b2) (kImg_2 b1 b2) u)) by (intros; ring).
  rewrite rule_scal. unfold rule. ring.
Qed.

(** * An inclined borehole on itself *)

Lemma steady_decr b1 b2 ex ex' image u : clear b1 b2 ex image u -> 0 < b_H b2 -> ex < ex' ->
  steady_source b1 b2 ex' image u < steady_source b1 b2 ex image u.
Proof.
  intros Cl HH L. unfold steady_source. set (p := if image then mirror (point b1 (u * b_H b1)) else point b1 (u * b_H b1)).
  assert (Co : forall e v, ex <= e -> continuous (fun v => / sqrt (e + dist2 p (point b2 v))) v).
  { intros e v He. pose proof (Cl v) as P. fold p in P.
    apply (ex_derive_continuous (fun v => / sqrt (e + dist2 p (point b2 v)))). unfold dist2, point in *. cbn [fst snd] in *. auto_derive.
    match goal with |- ?a /\ _ => assert (Pa : a) by (simpl in *; lra) end. split; auto. split; auto.
    apply Rgt_not_eq, sqrt_lt_R0. auto. }
  apply RInt_lt; auto.
  - intros. apply Co. lra.
  - intros. apply Co. lra.
  - intros v _. pose proof (Cl v) as P. fold p in P. apply Rinv_lt_contravar.
    + apply Rmult_lt_0_compat; apply sqrt_lt_R0; lra.
    + apply sqrt_lt_1; lra.
Qed.

Lemma self_limit uw b alpha : uw <> nil -> (forall c, In c uw -> 0 <= fst c /\ 0 < snd c) ->
  0 < b_H b -> 0 < b_D b -> 0 < b_r b -> 0 < b_tilt b < PI / 2 -> 0 < alpha ->
  exists l, is_lim (fun t => fls_inclined b b (rule uw) t alpha true true) p_infty (Finite l) /\ inclined_steady b b (rule uw) true true < l.
Proof.
  intros NU W HH HD HR HT Ha. pose proof (self_excess b HR) as X.
  assert (C0 : clear_nodes uw b b true true).
  { intros c Hc. destruct (W c Hc). split; intros; [apply self_clear_real; auto|apply self_clear_image; auto; lra]. }
  assert (C1 : clear_steady uw b b true true).
  { intros c Hc. destruct (W c Hc). split; intros; [apply self_clear_real; auto|apply self_clear_image; auto; lra]. }
  exists (incl_limit uw b b true true). split; [apply incl_lim; auto|].
  rewrite steady_rule by auto. unfold incl_limit. apply Rmult_lt_compat_l; [apply Rdiv_lt_0_compat; lra|]. apply Rmult_lt_compat_l; auto.
  assert (rule uw (steady_source b b (wall_excess b b) true) < rule uw (steady_source b b 0 true)); [|lra].
  unfold rule. apply Rsum_lt; auto. intros c Hc. destruct (W c Hc). apply Rmult_lt_compat_r; auto. apply steady_decr; auto.
  apply C1; auto.
Qed.
