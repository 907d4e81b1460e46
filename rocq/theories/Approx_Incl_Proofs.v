(** The approximation between inclined boreholes: closeness to the solution, real and
    image parts, splitting of the receiving borehole, scales. *)
From Coq Require Import Reals Lra Lia List Bool Psatz.
From Coquelicot Require Import Coquelicot.
From Verif Require Import Base FLS_Model FLS_Spec FLS_Erf_Proofs FLS_Proofs FLS_Sol_Proofs FLS_Line_Proofs FLS_Steady_Proofs FLS_Incl_Proofs FLS_More_Proofs.
From Verif Require Import Approx_Model Approx_Spec Approx_Int_Proofs Approx_Proofs.
Local Open Scope R_scope.

Lemma sign_0 : sign 0 = 0.
Proof. unfold sign. destruct (Rlt_dec 0 0); [lra|]. destruct (Rlt_dec 0 0); [lra|auto]. Qed.

Lemma sign_abs x : sign x * Rabs x = x.
Proof. unfold sign, Rabs. destruct (Rlt_dec 0 x), (Rcase_abs x), (Rlt_dec x 0); lra. Qed.

Lemma sign_mul l x : 0 < l -> sign (l * x) = sign x.
Proof. intros. unfold sign. destruct (Rlt_dec 0 (l * x)), (Rlt_dec 0 x), (Rlt_dec (l * x) 0), (Rlt_dec x 0); auto; exfalso; nra. Qed.

Lemma sign_erf d s : sign d * erf (Rabs d * s) = erf (d * s).
Proof.
  unfold sign, Rabs. destruct (Rlt_dec 0 d), (Rcase_abs d), (Rlt_dec d 0); try lra.
  - replace (- d * s) with (- (d * s)) by ring. rewrite erf_odd. ring.
  - replace d with 0 by lra. rewrite (Rmult_0_l s), erf_0. ring.
Qed.

Section Half.
  Variables (c a : R).
  Hypotheses (Hc : 0 < c) (Ha : 0 < a).
  Variables (ab : list (R * R)) (eps delta : R) (exp1 : R -> R).
  Hypothesis Hb : forall t, In t ab -> 0 <= snd t.
  Hypothesis W : erf_within ab eps.
  Hypothesis X : E1_within exp1 (c * a ^ 2) delta.

  Definition half (d s : R) : R := exp (- c * s ^ 2) / s * erf (d * s).

  Lemma sq : sqrt c ^ 2 = c. Proof. rewrite <- Rsqr_pow2. apply Rsqr_sqrt. lra. Qed.
  Lemma sq_pos : 0 < sqrt c. Proof. apply sqrt_lt_R0. auto. Qed.

  Lemma half_K1 d s : d <> 0 -> half d s = sign d / Rabs d * K1 (sqrt c) s d.
  Proof.
    intros N. unfold half, K1. rewrite sq, <- sign_erf. pose proof (Rabs_no_R0 d N). unfold Rdiv.
    set (e := erf _). set (x := exp _). set (g := sign d). set (m := Rabs d) in *.
    replace (g * / m * (m * / s * x * e)) with ((/ m * m) * (g * / s * x * e)) by ring. rewrite Rinv_l by auto. ring.
  Qed.

  Lemma half_conv d : converges (half d) a /\ (d <> 0 -> quad_inf (half d) a = sign d / Rabs d * quad_inf (fun s => K1 (sqrt c) s d) a).
  Proof.
    destruct (Req_dec d 0) as [-> |N].
    - split; [|lra]. destruct (conv_zero a) as [C _]. eapply conv_ext; [|exact C]. intros s _. unfold half. rewrite Rmult_0_l, erf_0. ring.
    - destruct (conv_scal (sign d / Rabs d) _ a (K1_conv (sqrt c) a sq_pos Ha d)) as [C E]. split.
      + eapply conv_ext; [|exact C]. intros s _. cbv beta. rewrite half_K1; auto.
      + intros _. rewrite <- E. apply quad_ext. intros s _. apply half_K1; auto.
  Qed.

  Lemma eps_ge : 0 <= eps.
  Proof. pose proof (W 0 ltac:(lra)). pose proof (Rabs_pos (exp_sum ab 0 - erf 0)). lra. Qed.

  Lemma ca_pos : 0 < c * a ^ 2. Proof. apply Rmult_lt_0_compat; [auto|apply pow_lt; auto]. Qed.

  Lemma delta_ge : 0 <= delta.
  Proof.
    pose proof (X (c * a ^ 2) ltac:(lra)). pose proof (Rabs_pos (exp1 (c * a ^ 2) - E1 (c * a ^ 2))). pose proof (E1_pos _ ca_pos).
    destruct (Rle_dec 0 delta); auto. exfalso. nra.
  Qed.

  Lemma weight_ge (l : list (R * R)) : 0 <= weight l.
  Proof. unfold weight. induction l as [|t l IH]; cbn [map Rsum]; [lra|]. pose proof (Rabs_pos (fst t)). lra. Qed.

  Definition bnd : R := (eps + delta * weight ab) * (/ 2 * E1 (c * a ^ 2)).

  Lemma bnd_ge : 0 <= bnd.
  Proof.
    pose proof eps_ge. pose proof delta_ge. pose proof (weight_ge ab). pose proof (E1_pos _ ca_pos). unfold bnd.
    apply Rmult_le_pos; [|lra]. assert (0 <= delta * weight ab) by (apply Rmult_le_pos; auto). lra.
  Qed.

  Lemma half_near d : Rabs (Rsum (map (fun t => fst t * (sign d * (/ 2 * exp1 ((c + snd t * d ^ 2) * a ^ 2)))) ab) - quad_inf (half d) a) <= bnd.
  Proof.
    destruct (Req_dec d 0) as [-> |N].
    - rewrite (Rsum_map_ext _ (fun t => 0 * fst t)) by (intros; rewrite sign_0; ring). rewrite Rsum_map_scal.
      rewrite (quad_ext _ (fun _ => 0)) by (intros; unfold half; rewrite Rmult_0_l, erf_0; ring).
      destruct (conv_zero a) as [_ ->]. rewrite Rmult_0_l, Rminus_0_r, Rabs_R0. apply bnd_ge.
    - destruct (half_conv d) as [_ E]. rewrite (E N). pose proof (Rabs_pos_lt d N) as P.
      pose proof (KS_near (sqrt c) a sq_pos Ha ab Hb eps d W) as N1. rewrite sq in N1.
      assert (X' : E1_within exp1 (sqrt c ^ 2 * a ^ 2) delta) by (rewrite sq; exact X).
      pose proof (exp1_near (sqrt c) a sq_pos Ha ab Hb exp1 delta X' d) as N2. rewrite sq in N2.
      set (K := quad_inf (fun s => K1 (sqrt c) s d) a) in *. set (M := quad_inf (fun s => KS (sqrt c) ab s d) a) in *.
      set (T := Rsum (map (fun t => fst t * (/ 2 * exp1 ((c + snd t * d ^ 2) * a ^ 2))) ab)) in *.
      assert (ET : Rsum (map (fun t => fst t * (sign d * (/ 2 * exp1 ((c + snd t * d ^ 2) * a ^ 2)))) ab) = sign d * T).
      { unfold T. rewrite <- Rsum_map_scal. apply Rsum_map_ext. intros; ring. }
      rewrite ET. replace (sign d * T - sign d / Rabs d * K) with (sign d / Rabs d * (Rabs d * T - K)) by (field; lra).
      assert (S1 : Rabs (sign d) = 1).
      { unfold sign. destruct (Rlt_dec 0 d); [apply Rabs_R1|]. destruct (Rlt_dec d 0); [rewrite Rabs_left; lra|exfalso; apply N; lra]. }
      unfold Rdiv. rewrite !Rabs_mult, S1, Rmult_1_l, Rabs_inv, Rabs_Rabsolu.
      apply Rmult_le_reg_l with (Rabs d); auto. rewrite <- Rmult_assoc, Rinv_r, Rmult_1_l by lra.
      apply Rabs_le_between in N1. apply Rabs_le_between in N2. unfold bnd. apply Rabs_le. lra.
  Qed.
End Half.

Definition agap b1 b2 image u := ap_gap b1 b2 (zpart b1 b2 image) (k0part b1 b2 image) (k1part b1 b2 image) (k2part b1 b2 image) u.
Definition aterm exp1 ab b1 b2 image ss u :=
  ap_term exp1 ab b1 b2 (zpart b1 b2 image) (k0part b1 b2 image) (k1part b1 b2 image) (k2part b1 b2 image) ss u.

Lemma agap_max b1 b2 image u : agap b1 b2 image u = Rmax (ngap b1 b2 0 image u) (b_r b1 ^ 2).
Proof. unfold agap, ap_gap, ngap, gapc, img_r2, ap_foot, foot. f_equal. ring. Qed.

Lemma ngap_ex b1 b2 ex image u : ngap b1 b2 ex image u = ngap b1 b2 0 image u + ex.
Proof. unfold ngap, gapc, img_r2. ring. Qed.

Lemma dist_gap b1 b2 image u v : dist2 (node_point b1 image u) (point b2 v) = ngap b1 b2 0 image u + (v - nfoot b1 b2 image u) ^ 2.
Proof.
  pose proof (geo b1 b2 0 image (u * b_H b1) v) as G. rewrite Rplus_0_l in G. unfold node_point. rewrite <- G. rewrite quadr_square. reflexivity.
Qed.

Lemma dist2_ge p q : 0 <= dist2 p q.
Proof. unfold dist2. repeat apply Rplus_le_le_0_compat; apply pow2_ge_0. Qed.

Lemma ngap_ge b1 b2 image u : 0 <= ngap b1 b2 0 image u.
Proof.
  pose proof (dist_gap b1 b2 image u (nfoot b1 b2 image u)) as G. replace ((nfoot b1 b2 image u - nfoot b1 b2 image u) ^ 2) with 0 in G by ring.
  pose proof (dist2_ge (node_point b1 image u) (point b2 (nfoot b1 b2 image u))). lra.
Qed.

Lemma off_gap b1 b2 ex image u : off_wall b1 b2 ex image u -> agap b1 b2 image u = ngap b1 b2 ex image u.
Proof.
  intros H. rewrite agap_max, (ngap_ex b1 b2 ex). pose proof (ngap_ge b1 b2 image u) as G. destruct H as [[-> H]|[-> [v H]]].
  - specialize (H (nfoot b1 b2 image u)). rewrite dist_gap in H.
    replace ((nfoot b1 b2 image u - nfoot b1 b2 image u) ^ 2) with 0 in H by ring. rewrite Rmax_left by lra. ring.
  - rewrite dist_gap in H. assert (0 <= (v - nfoot b1 b2 image u) ^ 2) by apply pow2_ge_0.
    replace (ngap b1 b2 0 image u) with 0 by lra. pose proof (pow2_ge_0 (b_r b1)). rewrite Rmax_right by lra. ring.
Qed.

Lemma off_clear b1 b2 ex image u : 0 < b_r b1 -> off_wall b1 b2 ex image u -> clear b1 b2 ex image u.
Proof.
  intros P H v. assert (0 < b_r b1 ^ 2) by (apply pow_lt; auto). fold (node_point b1 image u). destruct H as [[-> H]|[-> _]].
  - specialize (H v). lra.
  - pose proof (dist2_ge (node_point b1 image u) (point b2 v)). lra.
Qed.

Section Near.
  Variables (b1 b2 : bh) (ab : list (R * R)) (eps delta time alpha : R) (exp1 : R -> R).
  Hypotheses (Pa : 0 < alpha) (Pt : 0 < time) (Pr : 0 < b_r b1) (PH : 0 < b_H b1) (PH2 : 0 < b_H b2).
  Hypothesis Hb : forall t, In t ab -> 0 <= snd t.
  Hypothesis W : erf_within ab eps.
  Hypothesis X : E1_within exp1 (b_r b1 ^ 2 / (4 * alpha * time)) delta.
  Notation a := (lower alpha time).
  Notation ss := (1 / (4 * alpha * time)).

  Lemma a_sq : a ^ 2 = ss.
  Proof.
    unfold lower. assert (0 < 4 * alpha * time) by nra.
    pose proof (sqrt_lt_R0 _ H) as P. pose proof (Rsqr_sqrt (4 * alpha * time) ltac:(lra)) as Q. unfold Rsqr in Q.
    replace ((1 / sqrt (4 * alpha * time)) ^ 2) with (1 / (sqrt (4 * alpha * time) * sqrt (4 * alpha * time))) by (field; lra). rewrite Q. auto.
  Qed.

  Lemma a_pos : 0 < a. Proof. apply lower_pos; auto. Qed.

  Definition nbnd : R := (eps + delta * weight ab) * E1 (b_r b1 ^ 2 / (4 * alpha * time)).

  Lemma node_quad ex image u : clear b1 b2 ex image u ->
    quad_inf (node b1 b2 ex image u) a
    = b_H b1 * (quad_inf (half (ngap b1 b2 ex image u) (nfoot b1 b2 image u)) a
                - quad_inf (half (ngap b1 b2 ex image u) (nfoot b1 b2 image u - b_H b2)) a).
  Proof.
    intros C. pose proof (clear_gap _ _ _ _ _ C) as G. set (c := ngap b1 b2 ex image u) in *. set (w := nfoot b1 b2 image u).
    destruct (half_conv c a G a_pos w) as [C1 _]. destruct (half_conv c a G a_pos (w - b_H b2)) as [C2 _].
    destruct (conv_scal (-1) _ a C2) as [C3 E3]. destruct (conv_plus _ _ a C1 C3) as [C4 E4]. destruct (conv_scal (b_H b1) _ a C4) as [_ E5].
    transitivity (quad_inf (fun s => b_H b1 * (half c w s + -1 * half c (w - b_H b2) s)) a).
    - apply quad_ext. intros s Hs. unfold node, half. fold c w. replace (- s ^ 2 * c) with (- c * s ^ 2) by ring. unfold Rdiv. ring.
    - rewrite E5, E4, E3. ring.
  Qed.

  Lemma node_close ex image u : off_wall b1 b2 ex image u ->
    Rabs (b_H b1 * (/ 2 * aterm exp1 ab b1 b2 image ss u) - quad_inf (node b1 b2 ex image u) a) <= b_H b1 * nbnd.
  Proof.
    intros O. pose proof (off_gap _ _ _ _ _ O) as EG. pose proof (off_clear _ _ _ _ _ Pr O) as C. rewrite (node_quad _ _ _ C).
    pose proof (clear_gap _ _ _ _ _ C) as G. set (c := ngap b1 b2 ex image u) in *. set (w := nfoot b1 b2 image u).
    assert (Lc : b_r b1 ^ 2 <= c) by (rewrite <- EG, agap_max; apply Rmax_r).
    assert (P2 : 0 < a ^ 2) by (apply pow_lt, a_pos).
    assert (EX : b_r b1 ^ 2 / (4 * alpha * time) = b_r b1 ^ 2 * a ^ 2) by (rewrite a_sq; field; lra).
    assert (LE : b_r b1 ^ 2 * a ^ 2 <= c * a ^ 2) by (apply Rmult_le_compat_r; lra).
    assert (Xc : E1_within exp1 (c * a ^ 2) delta) by (intros x Hx; apply X; rewrite EX; lra).
    pose proof (half_near c a G a_pos ab eps delta exp1 Hb W Xc w) as N1.
    pose proof (half_near c a G a_pos ab eps delta exp1 Hb W Xc (w - b_H b2)) as N2.
    rewrite <- Rmult_minus_distr_l, Rabs_mult, (Rabs_pos_eq (b_H b1)) by lra. apply Rmult_le_compat_l; [lra|].
    assert (ET : / 2 * aterm exp1 ab b1 b2 image ss u
      = Rsum (map (fun t => fst t * (sign w * (/ 2 * exp1 ((c + snd t * w ^ 2) * a ^ 2)))) ab)
        - Rsum (map (fun t => fst t * (sign (w - b_H b2) * (/ 2 * exp1 ((c + snd t * (w - b_H b2) ^ 2) * a ^ 2)))) ab)).
    { unfold aterm, ap_term. fold (agap b1 b2 image u). rewrite EG, a_sq. fold c.
      change (ap_foot b1 (k0part b1 b2 image) (k2part b1 b2 image) u) with w. rewrite <- Rsum_map_scal.
      clear. induction ab as [|t l IH]; cbn [map Rsum]; [ring|]. rewrite IH. ring. }
    rewrite ET.
    assert (Lb : 2 * bnd c a ab eps delta <= nbnd).
    { unfold bnd, nbnd. rewrite EX. pose proof (eps_ge ab eps W). pose proof (delta_ge c a G a_pos delta exp1 Xc). pose proof (weight_ge ab).
      assert (0 <= delta * weight ab) by (apply Rmult_le_pos; auto).
      assert (0 < b_r b1 ^ 2) by (apply pow_lt; auto).
      pose proof (E1_decr (b_r b1 ^ 2 * a ^ 2) (c * a ^ 2) ltac:(apply Rmult_lt_0_compat; auto) LE).
      replace (2 * ((eps + delta * weight ab) * (/ 2 * E1 (c * a ^ 2)))) with ((eps + delta * weight ab) * E1 (c * a ^ 2)) by field.
      apply Rmult_le_compat_l; lra. }
    apply Rabs_le_between in N1. apply Rabs_le_between in N2. apply Rabs_le. lra.
  Qed.

  Lemma rule_close uw ex image : (forall t, In t uw -> off_wall b1 b2 ex image (fst t)) ->
    Rabs (b_H b1 * (/ 2 * rule uw (aterm exp1 ab b1 b2 image ss)) - quad_inf (nodes uw b1 b2 ex image) a)
    <= b_H b1 * nbnd * Rsum (map (fun t => Rabs (snd t)) uw).
  Proof.
    intros O. destruct (nodes_conv uw b1 b2 ex image a a_pos) as [_ E]; [intros t Ht; apply off_clear; auto|]. rewrite E.
    replace (b_H b1 * (/ 2 * rule uw (aterm exp1 ab b1 b2 image ss)))
      with (Rsum (map (fun t => snd t * (b_H b1 * (/ 2 * aterm exp1 ab b1 b2 image ss (fst t)))) uw)).
    2:{ unfold rule. rewrite <- !Rsum_map_scal. apply Rsum_map_ext. intros; ring. }
    rewrite <- Rsum_map_scal. apply Rsum_near. intros t Ht.
    rewrite <- Rmult_minus_distr_l, Rabs_mult, Rmult_comm. apply Rmult_le_compat_r; [apply Rabs_pos|]. apply node_close. auto.
  Qed.

  Lemma incl_near uw rea img : off_walls uw b1 b2 rea img ->
    Rabs (fls_inclined_approx exp1 ab b1 b2 uw time alpha rea img - fls_inclined b1 b2 (rule uw) time alpha rea img)
    <= parts rea img * ((eps + delta * weight ab) * E1 (b_r b1 ^ 2 / (4 * alpha * time)))
       * Rsum (map (fun t => Rabs (snd t)) uw) * b_H b1 / (2 * b_H b2).
  Proof.
    intros O. unfold fls_inclined.
    destruct (incl_conv uw b1 b2 rea img a a_pos) as [_ ->].
    { intros t Ht. destruct (O t Ht) as [A1 A2]. split; intros; apply off_clear; auto. }
    fold nbnd. set (V := Rsum (map (fun t => Rabs (snd t)) uw)).
    replace (parts rea img * nbnd * V * b_H b1 / (2 * b_H b2)) with (1 / 2 / b_H b2 * (parts rea img * (b_H b1 * nbnd * V))) by (field; lra).
    assert (PP : 0 < 1 / 2 / b_H b2) by (apply Rdiv_lt_0_compat; lra).
    set (Re := aterm exp1 ab b1 b2 false ss). set (Im := aterm exp1 ab b1 b2 true ss).
    set (QR := if rea then quad_inf (nodes uw b1 b2 (wall_excess b1 b2) false) a else 0).
    set (QI := if img then quad_inf (nodes uw b1 b2 (if rea then wall_excess b1 b2 else 0) true) a else 0).
    assert (EA : fls_inclined_approx exp1 ab b1 b2 uw time alpha rea img
      = 1 / 2 / b_H b2 * ((if rea then b_H b1 * (/ 2 * rule uw Re) else 0) - (if img then b_H b1 * (/ 2 * rule uw Im) else 0))).
    { unfold fls_inclined_approx.
      change (ap_term exp1 ab b1 b2 (dzRea b1 b2) (kRea_0 b1 b2) (kRea_1 b1 b2) (kRea_2 b1 b2) ss) with Re.
      change (ap_term exp1 ab b1 b2 (dzImg b1 b2) (kImg_0 b1 b2) (kImg_1 b1 b2) (kImg_2 b1 b2) ss) with Im.
      cbv zeta. destruct rea, img.
      - rewrite rule_minus. field. lra.
      - field. lra.
      - rewrite (rule_ext uw _ (fun u => -1 * Im u)) by (intros; ring). rewrite rule_scal. field. lra.
      - ring. }
    rewrite EA, <- Rmult_minus_distr_l, Rabs_mult, (Rabs_pos_eq (1 / 2 / b_H b2)) by lra. apply Rmult_le_compat_l; [lra|].
    assert (NR : Rabs ((if rea then b_H b1 * (/ 2 * rule uw Re) else 0) - QR) <= (if rea then 1 else 0) * (b_H b1 * nbnd * V)).
    { unfold QR. destruct rea; [|rewrite Rminus_0_r, Rabs_R0; lra]. rewrite Rmult_1_l. apply rule_close. intros t Ht. apply (O t Ht). auto. }
    assert (NI : Rabs ((if img then b_H b1 * (/ 2 * rule uw Im) else 0) - QI) <= (if img then 1 else 0) * (b_H b1 * nbnd * V)).
    { unfold QI. destruct img; [|rewrite Rminus_0_r, Rabs_R0; lra]. rewrite Rmult_1_l. apply rule_close. intros t Ht. apply (O t Ht). auto. }
    unfold parts. apply Rabs_le_between in NR. apply Rabs_le_between in NI. apply Rabs_le. lra.
  Qed.
End Near.

(** Identities that hold for all boreholes and coefficients. *)
Lemma incl_parts_approx exp1 ab b1 b2 uw time alpha :
  fls_inclined_approx exp1 ab b1 b2 uw time alpha true true
  = fls_inclined_approx exp1 ab b1 b2 uw time alpha true false + fls_inclined_approx exp1 ab b1 b2 uw time alpha false true.
Proof.
  unfold fls_inclined_approx. cbv zeta. rewrite rule_minus.
  rewrite (rule_ext uw (fun u => - ap_term exp1 ab b1 b2 (dzImg b1 b2) (kImg_0 b1 b2) (kImg_1 b1 b2) (kImg_2 b1 b2) (1 / (4 * alpha * time)) u)
    (fun u => -1 * ap_term exp1 ab b1 b2 (dzImg b1 b2) (kImg_0 b1 b2) (kImg_1 b1 b2) (kImg_2 b1 b2) (1 / (4 * alpha * time)) u)) by (intros; ring).
  rewrite rule_scal. ring.
Qed.

(** The part of the receiving borehole from [t] on has the same axis. *)
Lemma part_dirs b1 b2 c : kRea_0 b1 (part b2 c) = kRea_0 b1 b2 /\ kImg_0 b1 (part b2 c) = kImg_0 b1 b2.
Proof. split; reflexivity. Qed.

Lemma part_foot b1 b2 c image u : nfoot b1 (part b2 c) image u = nfoot b1 b2 image u - fst c.
Proof.
  unfold nfoot, foot, k0part, k2part, kRea_0, kImg_0, kRea_2, kImg_2, dx, dy, dzRea, dzImg, part. cbn.
  pose proof (unit_dir (b_tilt b2) (b_ori b2)) as U.
  set (st := sin (b_tilt b2)) in *. set (ct := cos (b_tilt b2)) in *. set (so := sin (b_ori b2)) in *. set (co := cos (b_ori b2)) in *.
  set (X := st ^ 2 * (co ^ 2 + so ^ 2) + ct ^ 2) in *.
  destruct image.
  - match goal with |- ?l = ?r => replace l with (r + fst c * (1 - X)) by (unfold X; ring) end. rewrite U. ring.
  - match goal with |- ?l = ?r => replace l with (r + fst c * (1 - X)) by (unfold X; ring) end. rewrite U. ring.
Qed.

Lemma part_gap b1 b2 c image u : agap b1 (part b2 c) image u = agap b1 b2 image u.
Proof.
  rewrite !agap_max. f_equal.
  pose proof (dist_gap b1 b2 image u (fst c)) as G. pose proof (dist_gap b1 (part b2 c) image u 0) as G'.
  rewrite part_point in G'. rewrite Rplus_0_r, part_foot in G'. rewrite G in G'.
  replace (0 - (nfoot b1 b2 image u - fst c)) with (fst c - nfoot b1 b2 image u) in G' by ring. lra.
Qed.

Definition side (exp1 : R -> R) ab c ss d : R := Rsum (map (fun t => fst t * (sign d * exp1 ((c + snd t * d ^ 2) * ss))) ab).

Lemma aterm_side exp1 ab b1 b2 image ss u :
  aterm exp1 ab b1 b2 image ss u = side exp1 ab (agap b1 b2 image u) ss (nfoot b1 b2 image u)
    - side exp1 ab (agap b1 b2 image u) ss (nfoot b1 b2 image u - b_H b2).
Proof.
  unfold aterm, ap_term, side. fold (agap b1 b2 image u).
  change (ap_foot b1 (k0part b1 b2 image) (k2part b1 b2 image) u) with (nfoot b1 b2 image u).
  set (w := nfoot b1 b2 image u). set (c := agap b1 b2 image u). clearbody w c.
  induction ab as [|t l IH]; cbn [map Rsum]; [ring|]. rewrite IH. ring.
Qed.

Lemma telescope (F : R -> R) hs : forall t0,
  Rsum (map (fun c => F (fst c) - F (fst c + snd c)) (split_at t0 hs)) = F t0 - F (t0 + Rsum hs).
Proof.
  induction hs as [|h hs IH]; intros t0; cbn [split_at map Rsum fst snd]; [rewrite Rplus_0_r; ring|].
  rewrite IH. replace (t0 + (h + Rsum hs)) with (t0 + h + Rsum hs) by ring. ring.
Qed.

Lemma aterm_split exp1 ab b1 b2 image ss u hs : b_H b2 = Rsum hs ->
  aterm exp1 ab b1 b2 image ss u = Rsum (map (fun c => aterm exp1 ab b1 (part b2 c) image ss u) (split_at 0 hs)).
Proof.
  intros E. rewrite aterm_side.
  transitivity (Rsum (map (fun c => (fun x => side exp1 ab (agap b1 b2 image u) ss (nfoot b1 b2 image u - x)) (fst c)
    - (fun x => side exp1 ab (agap b1 b2 image u) ss (nfoot b1 b2 image u - x)) (fst c + snd c)) (split_at 0 hs))).
  - rewrite (telescope (fun x => side exp1 ab (agap b1 b2 image u) ss (nfoot b1 b2 image u - x))). rewrite E, Rminus_0_r, Rplus_0_l. auto.
  - apply Rsum_map_ext. intros c _. rewrite aterm_side, part_gap, part_foot. cbn [b_H part].
    replace (nfoot b1 b2 image u - fst c - snd c) with (nfoot b1 b2 image u - (fst c + snd c)) by ring. auto.
Qed.

Lemma approx_form exp1 ab b1 b2 uw time alpha rea img :
  fls_inclined_approx exp1 ab b1 b2 uw time alpha rea img
  = 1 / 4 * (b_H b1 / b_H b2) * ((if rea then rule uw (aterm exp1 ab b1 b2 false (1 / (4 * alpha * time))) else 0)
      - (if img then rule uw (aterm exp1 ab b1 b2 true (1 / (4 * alpha * time))) else 0)).
Proof.
  unfold fls_inclined_approx. cbv zeta. set (ss := 1 / (4 * alpha * time)).
  change (ap_term exp1 ab b1 b2 (dzRea b1 b2) (kRea_0 b1 b2) (kRea_1 b1 b2) (kRea_2 b1 b2) ss) with (aterm exp1 ab b1 b2 false ss).
  change (ap_term exp1 ab b1 b2 (dzImg b1 b2) (kImg_0 b1 b2) (kImg_1 b1 b2) (kImg_2 b1 b2) ss) with (aterm exp1 ab b1 b2 true ss).
  destruct rea, img.
  - rewrite rule_minus. auto.
  - rewrite Rminus_0_r. reflexivity.
  - rewrite (rule_ext uw _ (fun u => -1 * aterm exp1 ab b1 b2 true ss u)) by (intros; ring). rewrite rule_scal. ring.
  - ring.
Qed.

Lemma Rsum_map_plus {A} (f g : A -> R) l : Rsum (map (fun c => f c + g c) l) = Rsum (map f l) + Rsum (map g l).
Proof. induction l as [|c l IH]; cbn [map Rsum]; [ring|]. rewrite IH. ring. Qed.

Lemma Rsum_map_0 {A} (l : list A) : Rsum (map (fun _ => 0) l) = 0.
Proof. induction l as [|c l IH]; cbn [map Rsum]; lra. Qed.

Lemma rule_Rsum {A} uw (F : A -> R -> R) (l : list A) : rule uw (fun u => Rsum (map (fun c => F c u) l)) = Rsum (map (fun c => rule uw (F c)) l).
Proof.
  unfold rule. transitivity (Rsum (map (fun t => Rsum (map (fun c => F c (fst t) * snd t) l)) uw)).
  - apply Rsum_map_ext. intros t _. rewrite Rmult_comm, <- Rsum_map_scal. apply Rsum_map_ext. intros; ring.
  - apply Rsum_swap.
Qed.

Lemma split_inclined_approx exp1 ab b1 b2 uw time alpha rea img hs : b_H b2 = Rsum hs -> Rsum hs <> 0 -> (forall h, In h hs -> h <> 0) ->
  b_H b2 * fls_inclined_approx exp1 ab b1 b2 uw time alpha rea img
  = Rsum (map (fun c => snd c * fls_inclined_approx exp1 ab b1 (part b2 c) uw time alpha rea img) (split_at 0 hs)).
Proof.
  intros E N NN. rewrite approx_form. set (ss := 1 / (4 * alpha * time)).
  assert (S : forall image, rule uw (aterm exp1 ab b1 b2 image ss) = Rsum (map (fun c => rule uw (aterm exp1 ab b1 (part b2 c) image ss)) (split_at 0 hs))).
  { intros image. rewrite <- rule_Rsum. apply rule_ext. intros u. apply aterm_split; auto. }
  transitivity (Rsum (map (fun c => 1 / 4 * b_H b1 * ((if rea then rule uw (aterm exp1 ab b1 (part b2 c) false ss) else 0)
    + -1 * (if img then rule uw (aterm exp1 ab b1 (part b2 c) true ss) else 0))) (split_at 0 hs))).
  - rewrite Rsum_map_scal.
    rewrite Rsum_map_plus, Rsum_map_scal. rewrite <- E in N.
    assert (Z0 : Rsum (map (fun _ : R * R => 0) (split_at 0 hs)) = 0) by apply Rsum_map_0.
    destruct rea, img; rewrite ?S, ?Z0; field; auto.
  - apply Rsum_map_ext. intros c Hc. rewrite approx_form. fold ss. cbn [b_H part]. assert (snd c <> 0) by (apply NN, (split_in 0 hs); auto). field. auto.
Qed.

Lemma scaled_geo l b1 b2 image u : nfoot (scaled l b1) (scaled l b2) image u = l * nfoot b1 b2 image u
  /\ ngap (scaled l b1) (scaled l b2) 0 image u = l ^ 2 * ngap b1 b2 0 image u.
Proof.
  unfold nfoot, ngap, gapc, foot, img_r2, zpart, k0part, k1part, k2part, kRea_0, kImg_0, kRea_1, kImg_1, kRea_2, kImg_2, dx, dy, dzRea, dzImg, scaled.
  cbn -[pow]. destruct image; split; ring.
Qed.

Lemma scaled_approx l exp1 ab b1 b2 uw time alpha rea img : 0 < l -> 0 < alpha -> 0 < time -> b_H b2 <> 0 ->
  fls_inclined_approx exp1 ab (scaled l b1) (scaled l b2) uw (l ^ 2 * time) alpha rea img
  = fls_inclined_approx exp1 ab b1 b2 uw time alpha rea img.
Proof.
  intros Hl Ha Ht N. rewrite !approx_form.
  assert (T : forall image u, aterm exp1 ab (scaled l b1) (scaled l b2) image (1 / (4 * alpha * (l ^ 2 * time))) u = aterm exp1 ab b1 b2 image (1 / (4 * alpha * time)) u).
  { intros image u. rewrite !aterm_side, !agap_max. destruct (scaled_geo l b1 b2 image u) as [-> ->].
    cbn [b_H b_r scaled]. replace ((l * b_r b1) ^ 2) with (l ^ 2 * b_r b1 ^ 2) by ring.
    rewrite RmaxRmult by (apply pow2_ge_0). set (c := Rmax _ _). set (w := nfoot b1 b2 image u).
    assert (Sd : forall d, side exp1 ab (l ^ 2 * c) (1 / (4 * alpha * (l ^ 2 * time))) (l * d) = side exp1 ab c (1 / (4 * alpha * time)) d).
    { intros d. unfold side. apply Rsum_map_ext. intros t _. rewrite sign_mul by auto. do 2 f_equal.
      replace ((l ^ 2 * c + snd t * (l * d) ^ 2) * (1 / (4 * alpha * (l ^ 2 * time)))) with ((c + snd t * d ^ 2) * (1 / (4 * alpha * time))); auto.
      field. repeat split; lra. }
    replace (l * w - l * b_H b2) with (l * (w - b_H b2)) by ring. rewrite !Sd. auto. }
  rewrite (rule_ext uw _ _ (T false)), (rule_ext uw _ _ (T true)). cbn [b_H scaled].
  replace (l * b_H b1 / (l * b_H b2)) with (b_H b1 / b_H b2) by (field; split; auto; lra). auto.
Qed.

Lemma scaled_vertical_approx l exp1 erfc ab time alpha dis H1 D1 H2 D2 rea img : 0 < l -> 0 < alpha -> 0 < time ->
  fls_approx exp1 erfc ab (l ^ 2 * time) alpha (l * dis) (l * H1) (l * D1) (l * H2) (l * D2) rea img
  = fls_approx exp1 erfc ab time alpha dis H1 D1 H2 D2 rea img.
Proof.
  intros Hl Ha Ht. unfold fls_approx.
  assert (P : 0 < sqrt (4 * alpha * time)) by (apply sqrt_lt_R0; nra).
  assert (E : sqrt (4 * alpha * (l ^ 2 * time)) = l * sqrt (4 * alpha * time)).
  { replace (4 * alpha * (l ^ 2 * time)) with ((l * l) * (4 * alpha * time)) by ring. rewrite sqrt_mult by nra. rewrite sqrt_square by lra. auto. }
  rewrite E. assert (Q : forall x, l * x / (l * sqrt (4 * alpha * time)) = x / sqrt (4 * alpha * time)) by (intros; field; split; lra).
  rewrite !Q. reflexivity.
Qed.
