(** Line source solutions, segments and distances in other units. *)
From Coq Require Import Reals Lra Lia List Bool Psatz.
From Coquelicot Require Import Coquelicot.
From Verif Require Import Base LinAlg FLS_Model FLS_Spec FLS_Erf_Proofs FLS_Proofs FLS_Sol_Proofs FLS_Line_Proofs FLS_Steady_Proofs FLS_Incl_Proofs FLS_Exact_Proofs FLS_More_Proofs.
From Verif Require Import Bore_Model Solve_Model Detailed_Model Detailed_Spec Sim_Model GFun_Model GFun_Spec Sym_Time_Proofs Sym_Det_Proofs Unit_Spec.
Local Open Scope R_scope.

(** * Convergence at nodes off a segment *)
Lemma gap_nonneg b1 b2 ex image u : 0 <= ex -> 0 <= ngap b1 b2 ex image u.
Proof.
  intros Pe. pose proof (geo b1 b2 ex image (u * b_H b1) (nfoot b1 b2 image u)) as C. rewrite quadr_square in C. fold (ngap b1 b2 ex image u) in C. unfold nfoot in C.
  replace (foot b1 (k0part b1 b2 image) (k2part b1 b2 image) u - foot b1 (k0part b1 b2 image) (k2part b1 b2 image) u) with 0 in C by ring.
  assert (D : forall p q, 0 <= dist2 p q) by (intros p q; unfold dist2; pose proof (pow2_ge_0 (fst (fst p) - fst (fst q))); pose proof (pow2_ge_0 (snd (fst p) - snd (fst q))); pose proof (pow2_ge_0 (snd p - snd q)); lra).
  match type of C with _ = ex + dist2 ?p ?q => pose proof (D p q) end. lra.
Qed.

Lemma excess_pos b1 b2 : 0 <= wall_excess b1 b2.
Proof. apply Rmax_l. Qed.

Lemma off_margin b1 b2 image u : 0 < b_H b2 -> off_segment b1 b2 image u ->
  exists m, 0 < m /\ forall v, 0 <= v <= b_H b2 -> m <= ngap b1 b2 (wall_excess b1 b2) image u + (v - nfoot b1 b2 image u) ^ 2.
Proof.
  intros PH C. set (ex := wall_excess b1 b2). set (c := ngap b1 b2 ex image u). set (w := nfoot b1 b2 image u).
  assert (K : forall v, 0 <= v <= b_H b2 -> 0 < c + (v - w) ^ 2).
  { intros v Hv. specialize (C v Hv). rewrite <- geo, quadr_square in C. exact C. }
  assert (Pc : 0 <= c) by (apply gap_nonneg, excess_pos).
  destruct (Rlt_le_dec w 0) as [W|W]; [|destruct (Rlt_le_dec (b_H b2) w) as [W2|W2]].
  - exists (c + (0 - w) ^ 2). split; [apply K; lra|]. intros v Hv. assert ((0 - w) ^ 2 <= (v - w) ^ 2) by (apply pow_incr; lra). lra.
  - exists (c + (b_H b2 - w) ^ 2). split; [apply K; lra|]. intros v Hv. assert ((w - b_H b2) ^ 2 <= (w - v) ^ 2) by (apply pow_incr; lra). nra.
  - exists c. split. { specialize (K w ltac:(lra)). replace (w - w) with 0 in K by ring. lra. } intros v Hv. pose proof (pow2_ge_0 (v - w)). lra.
Qed.

Lemma node_off b1 b2 image u a : 0 < a -> 0 < b_H b2 -> off_segment b1 b2 image u -> converges (node b1 b2 (wall_excess b1 b2) image u) a.
Proof.
  intros Ha PH C. destruct (off_margin b1 b2 image u PH C) as [m [Pm Km]]. set (ex := wall_excess b1 b2) in *.
  pose proof spi as SP. assert (P2 : 0 < 2 / sqrt PI) by (apply Rdiv_lt_0_compat; lra).
  apply (conv_exp _ _ (2 / sqrt PI * (Rabs (b_H b1) * b_H b2)) (m * a)); [nra|intros; apply node_cont; lra|].
  intros s Hs. unfold node. rewrite <- seen_closed by lra. rewrite !Rabs_mult. rewrite (Rabs_right (2 / sqrt PI)) by lra. rewrite !Rmult_assoc. apply Rmult_le_compat_l; [lra|]. apply Rmult_le_compat_l; [apply Rabs_pos|].
  unfold seen. set (f := fun v : R => point_source s (ex + dist2 (if image then mirror (point b1 (u * b_H b1)) else point b1 (u * b_H b1)) (point b2 v))).
  assert (Ef : forall v, f v = exp (- s ^ 2 * (ngap b1 b2 ex image u + (v - nfoot b1 b2 image u) ^ 2))).
  { intros v. unfold f, point_source. rewrite <- geo, quadr_square. reflexivity. }
  assert (Xf : ex_RInt f 0 (b_H b2)).
  { apply (ex_RInt_continuous f). intros z _. apply (continuous_ext (fun v => exp (- s ^ 2 * (ngap b1 b2 ex image u + (v - nfoot b1 b2 image u) ^ 2)))). { intros v. symmetry. apply Ef. }
    apply (ex_derive_continuous (fun v => exp (- s ^ 2 * (ngap b1 b2 ex image u + (v - nfoot b1 b2 image u) ^ 2)))). auto_derive. auto. }
  assert (L : RInt f 0 (b_H b2) <= RInt (fun _ => exp (- (m * a) * s)) 0 (b_H b2)).
  { apply RInt_le; [lra|exact Xf|apply ex_RInt_const|]. intros v Hv. rewrite Ef. specialize (Km v ltac:(lra)). set (d := ngap b1 b2 ex image u + _) in *.
    assert (Q : - s ^ 2 * d <= - (m * a) * s).
    { assert (m * a * s <= d * (s * s)); [|nra]. rewrite Rmult_assoc. apply Rmult_le_compat; [lra| |lra|]; nra. }
    destruct Q as [Q|Q]; [left; apply exp_increasing; auto|right; f_equal; auto]. }
  rewrite RInt_const in L. unfold scal in L. simpl in L. unfold mult in L. simpl in L.
  assert (Pf : 0 <= RInt f 0 (b_H b2)). { apply RInt_ge_0; [lra|exact Xf|]. intros v _. rewrite Ef. left. apply exp_pos. }
  rewrite Rabs_right by lra. lra.
Qed.

Lemma incl_off uw b1 b2 a : 0 < a -> 0 < b_H b2 -> off_nodes uw b1 b2 -> converges (inclined_integrand b1 b2 (rule uw) true true) a.
Proof.
  intros Ha PH C.
  assert (N : forall image, converges (nodes uw b1 b2 (wall_excess b1 b2) image) a).
  { intros image. unfold nodes. apply (conv_sum (fun c s => snd c * node b1 b2 (wall_excess b1 b2) image (fst c) s) uw a). intros c Hc. apply conv_scal, node_off; auto. }
  destruct (conv_scal (-1) _ a (N true)) as [Cm _]. destruct (conv_plus _ _ a (N false) Cm) as [Cp _].
  revert Cp. apply conv_ext. intros s Hs. rewrite incl_rule by lra. unfold incl_parts. ring.
Qed.

Lemma up_off uw b1 b2 : b_tilt b1 = 0 -> b_tilt b2 = 0 -> 0 < b_r b1 -> off_nodes uw b1 b2.
Proof.
  intros T1 T2 Pr c image _ v _. unfold wall_excess. set (q := (b_x b1 - b_x b2) ^ 2 + (b_y b1 - b_y b2) ^ 2).
  assert (D : q <= dist2 (if image then mirror (point b1 (fst c * b_H b1)) else point b1 (fst c * b_H b1)) (point b2 v)).
  { unfold q, dist2. destruct image; unfold mirror, point; cbn [fst snd]; rewrite T1, T2, sin_0, !Rmult_0_r, !Rmult_0_l, !Rplus_0_r; match goal with |- _ <= _ + ?z ^ 2 => pose proof (pow2_ge_0 z) end; lra. }
  pose proof (Rmax_r 0 (b_r b1 ^ 2 - q)). assert (0 < b_r b1 ^ 2) by (apply pow_lt; auto). lra.
Qed.

(** * Lengths in another unit *)
Section Length.
  Variable l : R.
  Hypothesis Lp : 0 < l.
  Local Notation sc := (in_units l).

  Lemma sc_square a b : (bx (sc a) - bx (sc b)) ^ 2 + (by_ (sc a) - by_ (sc b)) ^ 2 = l ^ 2 * ((bx a - bx b) ^ 2 + (by_ a - by_ b) ^ 2).
  Proof. cbn [in_units bx by_]. ring. Qed.
  Lemma sc_planar a b : planar (sc a) (sc b) = l * planar a b.
  Proof.
    unfold planar. rewrite sc_square. rewrite sqrt_mult; [|apply pow2_ge_0|apply Rplus_le_le_0_compat; apply pow2_ge_0]. rewrite sqrt_pow2 by lra. auto.
  Qed.

  Lemma sc_term b1 b2 r2 dz k0 k1 k2 s u :
    inclined_term (to_bh (sc b1)) (to_bh (sc b2)) (l ^ 2 * r2) (l * dz) k0 (l * k1) (l * k2) s u = inclined_term (to_bh b1) (to_bh b2) r2 dz k0 k1 k2 (l * s) u.
  Proof.
    unfold inclined_term. cbn [to_bh b_H in_units bH]. f_equal; [f_equal; ring|]. f_equal; f_equal; ring.
  Qed.

  Lemma sc_integrand uw b1 b2 s : s <> 0 ->
    inclined_integrand (to_bh (sc b1)) (to_bh (sc b2)) (rule uw) true true s = l * (l * inclined_integrand (to_bh b1) (to_bh b2) (rule uw) true true (l * s)).
  Proof.
    intros Ns. unfold inclined_integrand. rewrite <- rule_scal, <- rule_scal. apply rule_ext. intros u.
    assert (Er : rr (to_bh (sc b1)) (to_bh (sc b2)) = l ^ 2 * rr (to_bh b1) (to_bh b2)).
    { unfold rr, dx, dy. cbn [to_bh b_x b_y b_r]. rewrite sc_square. rewrite <- RmaxRmult by (apply pow2_ge_0). f_equal. cbn [in_units br]. ring. }
    assert (Z1 : dzRea (to_bh (sc b1)) (to_bh (sc b2)) = l * dzRea (to_bh b1) (to_bh b2)) by (unfold dzRea; cbn; ring).
    assert (Z2 : dzImg (to_bh (sc b1)) (to_bh (sc b2)) = l * dzImg (to_bh b1) (to_bh b2)) by (unfold dzImg; cbn; ring).
    assert (E1 : kRea_1 (to_bh (sc b1)) (to_bh (sc b2)) = l * kRea_1 (to_bh b1) (to_bh b2)) by (unfold kRea_1, dzRea, dx, dy; cbn; ring).
    assert (E2 : kRea_2 (to_bh (sc b1)) (to_bh (sc b2)) = l * kRea_2 (to_bh b1) (to_bh b2)) by (unfold kRea_2, dzRea, dx, dy; cbn; ring).
    assert (I1 : kImg_1 (to_bh (sc b1)) (to_bh (sc b2)) = l * kImg_1 (to_bh b1) (to_bh b2)) by (unfold kImg_1, dzImg, dx, dy; cbn; ring).
    assert (I2 : kImg_2 (to_bh (sc b1)) (to_bh (sc b2)) = l * kImg_2 (to_bh b1) (to_bh b2)) by (unfold kImg_2, dzImg, dx, dy; cbn; ring).
    change (kRea_0 (to_bh (sc b1)) (to_bh (sc b2))) with (kRea_0 (to_bh b1) (to_bh b2)). change (kImg_0 (to_bh (sc b1)) (to_bh (sc b2))) with (kImg_0 (to_bh b1) (to_bh b2)).
    rewrite Er, Z1, Z2, E1, E2, I1, I2, !sc_term. cbn [to_bh b_H in_units bH]. field. split; lra.
  Qed.

  Lemma lower_units alpha t mu : 0 < alpha -> 0 < t -> 0 < mu -> FLS_Model.lower (l ^ 2 / mu * alpha) (mu * t) = FLS_Model.lower alpha t / l.
  Proof.
    intros. rewrite <- (lower_scale alpha t l) by auto. unfold FLS_Model.lower. do 2 f_equal. field. lra.
  Qed.

  Lemma sc_inclined uw b1 b2 alpha t mu : 0 < alpha -> 0 < t -> 0 < mu -> 0 < bH b2 -> off_nodes uw (to_bh b1) (to_bh b2) ->
    fls_inclined (to_bh (sc b1)) (to_bh (sc b2)) (rule uw) (mu * t) (l ^ 2 / mu * alpha) true true = fls_inclined (to_bh b1) (to_bh b2) (rule uw) t alpha true true.
  Proof.
    intros Pa Pt Pm PH C. pose proof (lower_pos alpha t Pa Pt) as L. unfold fls_inclined. rewrite lower_units by auto.
    rewrite (quad_ext _ (fun s => l * (l * inclined_integrand (to_bh b1) (to_bh b2) (rule uw) true true (l * s)))).
    2: { intros s Hs. apply sc_integrand. assert (0 < FLS_Model.lower alpha t / l) by (apply Rdiv_lt_0_compat; auto). lra. }
    pose proof (incl_off uw (to_bh b1) (to_bh b2) _ L PH C) as Cv.
    rewrite (quad_scale (fun s => l * inclined_integrand (to_bh b1) (to_bh b2) (rule uw) true true s)); [|auto|apply conv_scal; auto].
    rewrite (proj2 (conv_scal l _ _ Cv)). cbn [to_bh b_H in_units bH]. unfold Rdiv. rewrite Rinv_mult. set (Q := quad_inf _ _).
    replace (1 * / 2 * (/ l * / bH b2) * (l * Q)) with ((l * / l) * (1 * / 2 * / bH b2 * Q)) by ring. rewrite Rinv_r by lra. ring.
  Qed.

  Lemma sc_kernel uw v e r alpha t mu : 0 < alpha -> 0 < t -> 0 < mu -> 0 < br e -> 0 < bH r -> off_nodes uw (to_bh e) (to_bh r) ->
    line_kernel (l ^ 2 / mu * alpha) (mu * t) uw v (sc e) (sc r) = line_kernel alpha t uw v e r.
  Proof.
    intros Pa Pt Pm Pe Nr C. unfold line_kernel. destruct v; [|apply sc_inclined; auto].
    assert (D : 0 < Rmax (planar e r) (br e)) by (apply Rlt_le_trans with (br e); [auto|apply Rmax_r]).
    rewrite sc_planar. cbn [in_units br bH bD]. rewrite RmaxRmult by lra.
    replace (mu * t) with (l ^ 2 * t / (l ^ 2 / mu)) by (field; split; lra). rewrite fls_diffusivity by (apply Rgt_not_eq, Rdiv_lt_0_compat; [apply pow_lt; auto|auto]). apply fls_scale; auto; lra.
  Qed.

  (** segments *)
  Lemma sc_edges b n o : segment_edges (sc b) n o = map (Rmult l) (segment_edges b n o).
  Proof. unfold segment_edges. rewrite map_map. apply map_ext. intros z. cbn [in_units bH]. ring. Qed.
  Lemma removelast_units xs : removelast (map (Rmult l) xs) = map (Rmult l) (removelast xs).
  Proof. induction xs as [|a [|b xs] IH]; auto. cbn [map removelast] in *. rewrite IH. auto. Qed.
  Lemma combine_units {A} xs (ys : list A) : combine (map (Rmult l) xs) ys = map (fun p => (l * fst p, snd p)) (combine xs ys).
  Proof. revert ys. induction xs as [|x xs IH]; intros [|y ys]; cbn; auto. rewrite IH. auto. Qed.

  Lemma sc_segments b n o : segments (sc b) n o = map sc (segments b n o).
  Proof.
    unfold segments. rewrite sc_edges, removelast_units, combine_units, !map_map. apply map_ext. intros [z q]. cbn [fst snd]. unfold in_units, mk_bore. cbn [bH bD br bx by_ btilt bori]. f_equal; ring.
  Qed.
  Lemma sc_borehole_segments bs : forall ns rs, borehole_segments (map sc bs) ns rs = map sc (borehole_segments bs ns rs).
  Proof.
    induction bs as [|b bs IH]; intros ns rs; destruct ns as [|n ns], rs as [|r rs]; cbn [map borehole_segments]; auto.
    rewrite map_app, sc_segments, IH. auto.
  Qed.

  (** the check for duplicates *)
  Lemma sc_pdist bs : pdist (map sc bs) = map (Rmult l) (pdist bs).
  Proof. induction bs as [|b bs IH]; cbn [map pdist]; auto. rewrite IH, map_app, !map_map. f_equal. apply map_ext. intros e. apply sc_planar. Qed.
  Lemma sc_radii bs : map br (map sc bs) = map (Rmult l) (map br bs).
  Proof. rewrite !map_map. apply map_ext. reflexivity. Qed.
  Lemma sc_lmax xs : lmax (map (Rmult l) xs) = option_map (Rmult l) (lmax xs).
  Proof.
    destruct xs as [|x xs]; auto. cbn [map lmax option_map]. f_equal. revert x. induction xs as [|y xs IH]; intros x; cbn [map fold_left]; auto. rewrite RmaxRmult by lra. apply IH.
  Qed.
  Lemma sc_argwhere r xs : forall k, argwhere_lt (l * r) k (map (Rmult l) xs) = argwhere_lt r k xs.
  Proof. induction xs as [|x xs IH]; intros k; cbn [map argwhere_lt]; auto. rewrite (sc_lt l Lp), IH. auto. Qed.
  Lemma sc_duplicates bs : find_duplicates (map sc bs) = find_duplicates bs.
  Proof. unfold find_duplicates. rewrite map_length, sc_radii, sc_pdist, sc_lmax. destruct (lmax (map br bs)); cbn [option_map]; auto. rewrite sc_argwhere. auto. Qed.

  Section Field.
    Variables (bs : list bore) (ns : list nat) (rs : list (list R)).
    Local Notation B := (bore_segments bs ns rs).

    Lemma sc_B : bore_segments (map sc bs) ns rs = map sc B.
    Proof. apply sc_borehole_segments. Qed.
    Lemma sc_sources : n_sources (map sc bs) ns rs = n_sources bs ns rs.
    Proof. unfold n_sources. rewrite sc_B, map_length. auto. Qed.
    Lemma sc_nth_segment k : (k < length B)%nat -> nth k (bore_segments (map sc bs) ns rs) no_bore = sc (nth k B no_bore).
    Proof. intros Hk. rewrite sc_B. rewrite (nth_indep (map sc B) _ (sc no_bore)) by (rewrite map_length; auto). apply map_nth. Qed.
    Lemma sc_segment_length k : (k < n_sources bs ns rs)%nat -> segment_length (map sc bs) ns rs k = l * segment_length bs ns rs k.
    Proof. unfold n_sources. intros Hk. unfold segment_length. fold no_bore. rewrite sc_nth_segment by auto. auto. Qed.

    Hypothesis Sz : sized bs.
    Hypothesis Rs : some_ratios rs.
    Lemma segments_sized : forall ns0 e, In e (borehole_segments bs ns0 rs) -> 0 < br e /\ 0 < bH e.
    Proof.
      revert rs Sz Rs. induction bs as [|b bs0 IH]; intros rs0 Sz0 Rs0 nx e He; destruct nx as [|n nx], rs0 as [|r rs0]; cbn [borehole_segments] in He; try contradiction.
      apply in_app_iff in He as [He|He].
      - unfold segments in He. apply in_map_iff in He as [[z q] [<- Hz]]. apply in_combine_r in Hz. cbn [default_ratios] in Hz. destruct (Sz0 b) as [S1 S2]; [left; auto|]. unfold mk_bore. cbn [br bH]. split; auto.
        apply Rmult_lt_0_compat; [|lra]. apply (Rs0 r); auto. left. auto.
      - apply (IH rs0) with nx; auto. + intros b' Hb. apply Sz0. right. auto. + intros r' x Hr. apply Rs0. right. auto.
    Qed.

    Variables (uw : list (R * R)) (alpha mu : R).
    Hypothesis Pa : 0 < alpha.
    Hypothesis Pm : 0 < mu.
    Hypothesis C : forall e r, In e B -> In r B -> off_nodes uw (to_bh e) (to_bh r).
    Lemma sc_detailed t i j : 0 < t -> (i < n_sources bs ns rs)%nat -> (j < n_sources bs ns rs)%nat ->
      detailed_matrix (line_kernel (l ^ 2 / mu * alpha) (mu * t) uw) (map sc bs) ns rs i j = detailed_matrix (line_kernel alpha t uw) bs ns rs i j.
    Proof.
      unfold n_sources. intros Pt Hi Hj. symmetry. apply detailed_agree; auto.
      - rewrite map_length. auto.
      - rewrite map_map. apply map_ext. intros b. reflexivity.
      - rewrite sc_B, map_length. auto.
      - rewrite sc_B, map_map. apply map_ext. intros b. reflexivity.
      - intros v a b Ha Hb. rewrite !sc_nth_segment by auto. symmetry. apply sc_kernel; auto.
        + apply (segments_sized ns). apply nth_In. auto.
        + apply (segments_sized ns). apply nth_In. auto.
        + apply C; apply nth_In; auto.
      - intros a b Ha Hb. rewrite !sc_nth_segment by auto. cbn [in_units bH]. symmetry. apply sc_cancel. auto.
    Qed.
  End Field.
End Length.
