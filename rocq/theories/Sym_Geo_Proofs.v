(** Motions of the plane leave distances, segments and line source solutions unchanged. *)
From Verif Require Import Base LinAlg FLS_Model.
From Verif Require Import Bore_Model Solve_Model Detailed_Model Sim_Model GFun_Model Sym_Spec.
Local Open Scope R_scope.

Section Motion.
  Variable m : motion.
  Local Notation a := (mo_turn m).
  Local Notation s := (if mo_mirror m then -1 else 1).
  Local Notation mv := (moved m).

  Lemma sign2 : s * s = 1. Proof. destruct (mo_mirror m); ring. Qed.
  Lemma turn2 : cos a * cos a + sin a * sin a = 1. Proof. pose proof (sin2_cos2 a) as K. unfold Rsqr in K. lra. Qed.

  Lemma mv_H b : bH (mv b) = bH b. Proof. reflexivity. Qed.
  Lemma mv_D b : bD (mv b) = bD b. Proof. reflexivity. Qed.
  Lemma mv_r b : br (mv b) = br b. Proof. reflexivity. Qed.
  Lemma mv_tilt b : btilt (mv b) = btilt b. Proof. reflexivity. Qed.
  Lemma mv_vertical b : vertical (mv b) = vertical b. Proof. reflexivity. Qed.

  (** lengths of vectors of the plane and their products *)
  Lemma turn_product x1 y1 x2 y2 :
    (x1 * cos a - s * y1 * sin a) * (x2 * cos a - s * y2 * sin a) + (x1 * sin a + s * y1 * cos a) * (x2 * sin a + s * y2 * cos a)
    = x1 * x2 + y1 * y2.
  Proof.
    transitivity ((x1 * x2 + (s * s) * (y1 * y2)) * (cos a * cos a + sin a * sin a)); [ring|]. rewrite sign2, turn2. ring.
  Qed.

  Lemma mv_dx b1 b2 : bx (mv b1) - bx (mv b2) = (bx b1 - bx b2) * cos a - s * (by_ b1 - by_ b2) * sin a.
  Proof. cbn [moved mk_bore bx]. ring. Qed.
  Lemma mv_dy b1 b2 : by_ (mv b1) - by_ (mv b2) = (bx b1 - bx b2) * sin a + s * (by_ b1 - by_ b2) * cos a.
  Proof. cbn [moved mk_bore by_]. ring. Qed.

  Lemma mv_square b1 b2 : (bx (mv b1) - bx (mv b2)) ^ 2 + (by_ (mv b1) - by_ (mv b2)) ^ 2 = (bx b1 - bx b2) ^ 2 + (by_ b1 - by_ b2) ^ 2.
  Proof.
    rewrite mv_dx, mv_dy. pose proof (turn_product (bx b1 - bx b2) (by_ b1 - by_ b2) (bx b1 - bx b2) (by_ b1 - by_ b2)) as K. cbn [pow]. rewrite !Rmult_1_r. exact K.
  Qed.

  Lemma mv_planar b1 b2 : planar (mv b1) (mv b2) = planar b1 b2.
  Proof. unfold planar. rewrite mv_square. reflexivity. Qed.

  (** the direction of a turned angle *)
  Lemma dir_cos o : cos (s * o + a) = cos o * cos a - s * sin o * sin a.
  Proof. rewrite cos_plus. destruct (mo_mirror m). - replace (-1 * o) with (- o) by ring. rewrite cos_neg, sin_neg. ring. - rewrite !Rmult_1_l. ring. Qed.
  Lemma dir_sin o : sin (s * o + a) = cos o * sin a + s * sin o * cos a.
  Proof. rewrite sin_plus. destruct (mo_mirror m). - replace (-1 * o) with (- o) by ring. rewrite cos_neg, sin_neg. ring. - rewrite !Rmult_1_l. ring. Qed.
  Lemma dir_diff o1 o2 : cos ((s * o1 + a) - (s * o2 + a)) = cos (o1 - o2).
  Proof. destruct (mo_mirror m). - replace (-1 * o1 + a - (-1 * o2 + a)) with (- (o1 - o2)) by ring. apply cos_neg. - f_equal. ring. Qed.

  Definition plain (b : bore) : Prop := btilt b = 0 \/ tilted (btilt b) = true.

  (** the component of the head-to-head vector in the direction of a borehole *)
  Lemma mv_lean b b1 b2 : plain b ->
    sin (btilt b) * (cos (bori (mv b)) * (bx (mv b1) - bx (mv b2)) + sin (bori (mv b)) * (by_ (mv b1) - by_ (mv b2)))
    = sin (btilt b) * (cos (bori b) * (bx b1 - bx b2) + sin (bori b) * (by_ b1 - by_ b2)).
  Proof.
    intros [T|T]. { rewrite T, sin_0. ring. } f_equal. rewrite mv_dx, mv_dy. cbn [moved mk_bore bori]. rewrite T, dir_cos, dir_sin. apply turn_product.
  Qed.

  Lemma mv_angle b1 b2 : plain b1 -> plain b2 ->
    sin (btilt b1) * sin (btilt b2) * cos (bori (mv b1) - bori (mv b2)) = sin (btilt b1) * sin (btilt b2) * cos (bori b1 - bori b2).
  Proof.
    intros [T1|T1] [T2|T2]; try (rewrite ?T1, ?T2, sin_0; ring). f_equal. cbn [moved mk_bore bori]. rewrite T1, T2. apply dir_diff.
  Qed.

  (** the line source solution of two segments *)
  Lemma mv_inclined_integrand al b1 b2 : plain b1 -> plain b2 ->
    inclined_integrand (to_bh (mv b1)) (to_bh (mv b2)) al true true = inclined_integrand (to_bh b1) (to_bh b2) al true true.
  Proof.
    intros P1 P2. unfold inclined_integrand, inclined_term.
    assert (Er : rr (to_bh (mv b1)) (to_bh (mv b2)) = rr (to_bh b1) (to_bh b2)).
    { unfold rr, dx, dy. cbn [to_bh b_x b_y b_r]. rewrite mv_square. reflexivity. }
    assert (E0 : kRea_0 (to_bh (mv b1)) (to_bh (mv b2)) = kRea_0 (to_bh b1) (to_bh b2)).
    { unfold kRea_0. cbn [to_bh b_tilt b_ori]. rewrite !mv_tilt, mv_angle; auto. }
    assert (I0 : kImg_0 (to_bh (mv b1)) (to_bh (mv b2)) = kImg_0 (to_bh b1) (to_bh b2)).
    { unfold kImg_0. cbn [to_bh b_tilt b_ori]. rewrite !mv_tilt, mv_angle; auto. }
    assert (E1 : kRea_1 (to_bh (mv b1)) (to_bh (mv b2)) = kRea_1 (to_bh b1) (to_bh b2)).
    { unfold kRea_1, dzRea, dx, dy. cbn [to_bh b_tilt b_ori b_x b_y b_D]. rewrite !mv_tilt, !mv_D, mv_lean; auto. }
    assert (I1 : kImg_1 (to_bh (mv b1)) (to_bh (mv b2)) = kImg_1 (to_bh b1) (to_bh b2)).
    { unfold kImg_1, dzImg, dx, dy. cbn [to_bh b_tilt b_ori b_x b_y b_D]. rewrite !mv_tilt, !mv_D, mv_lean; auto. }
    assert (E2 : kRea_2 (to_bh (mv b1)) (to_bh (mv b2)) = kRea_2 (to_bh b1) (to_bh b2)).
    { unfold kRea_2, dzRea, dx, dy. cbn [to_bh b_tilt b_ori b_x b_y b_D]. rewrite !mv_tilt, !mv_D, mv_lean; auto. }
    assert (I2 : kImg_2 (to_bh (mv b1)) (to_bh (mv b2)) = kImg_2 (to_bh b1) (to_bh b2)).
    { unfold kImg_2, dzImg, dx, dy. cbn [to_bh b_tilt b_ori b_x b_y b_D]. rewrite !mv_tilt, !mv_D, mv_lean; auto. }
    rewrite Er, E0, I0, E1, I1, E2, I2. reflexivity.
  Qed.

  Lemma mv_line_kernel alpha t uw v b1 b2 : plain b1 -> plain b2 -> line_kernel alpha t uw v (mv b1) (mv b2) = line_kernel alpha t uw v b1 b2.
  Proof.
    intros P1 P2. unfold line_kernel. destruct v. { rewrite mv_planar. reflexivity. }
    unfold fls_inclined. rewrite mv_inclined_integrand by auto. reflexivity.
  Qed.

  Lemma mv_kernel_i alpha t uw p : plain (fst p) -> plain (snd p) -> kernel_i alpha t uw (mv (fst p), mv (snd p)) = kernel_i alpha t uw p.
  Proof. intros P1 P2. exact (mv_line_kernel alpha t uw false (fst p) (snd p) P1 P2). Qed.

  (** segments move with their borehole *)
  Lemma mv_segments b n o : plain b -> segments (mv b) n o = map mv (segments b n o).
  Proof.
    intros P. unfold segments. rewrite map_map. replace (segment_edges (mv b) n o) with (segment_edges b n o) by reflexivity.
    apply map_ext. intros [z ratio]. unfold moved, mk_bore. cbn [bH bD br bx by_ btilt bori].
    destruct P as [T|T].
    - rewrite T. rewrite sin_0. destruct (tilted 0) eqn:E0.
      + exfalso. unfold tilted in E0. apply Rltb_true in E0. rewrite Rabs_R0 in E0. assert (0 < / 10 ^ 6) by (apply Rinv_0_lt_compat; lra). lra.
      + f_equal; ring.
    - rewrite T. rewrite dir_cos, dir_sin. f_equal; ring.
  Qed.

  Lemma segments_plain b n o e : plain b -> In e (segments b n o) -> plain e.
  Proof. intros P He. unfold segments in He. apply in_map_iff in He as [[z q] [<- _]]. exact P. Qed.

  Lemma mv_borehole_segments bs : plain_tilts bs -> forall ns rs, borehole_segments (map mv bs) ns rs = map mv (borehole_segments bs ns rs).
  Proof.
    induction bs as [|b bs IH]; intros P ns rs; destruct ns as [|n ns], rs as [|r rs]; cbn [map borehole_segments]; auto.
    rewrite map_app, mv_segments, IH; auto. { intros b' Hb. apply P. right. auto. } apply (P b). left. auto.
  Qed.

  Lemma borehole_segments_plain bs : plain_tilts bs -> forall ns rs e, In e (borehole_segments bs ns rs) -> plain e.
  Proof.
    induction bs as [|b bs IH]; intros P ns rs e He; destruct ns as [|n ns], rs as [|r rs]; cbn [borehole_segments] in He; try contradiction.
    apply in_app_iff in He as [He|He]. - apply (segments_plain b n (Some r)); auto. apply (P b). left. auto.
    - apply (IH ltac:(intros b' Hb; apply P; right; auto) ns rs); auto.
  Qed.

  (** the check for duplicates *)
  Lemma mv_pdist bs : pdist (map mv bs) = pdist bs.
  Proof. induction bs as [|b bs IH]; cbn [map pdist]; auto. rewrite IH, map_map. f_equal. apply map_ext. intros e. apply mv_planar. Qed.
  Lemma mv_radii bs : map br (map mv bs) = map br bs.
  Proof. rewrite map_map. apply map_ext. reflexivity. Qed.
  Lemma mv_lengths bs : map bH (map mv bs) = map bH bs.
  Proof. rewrite map_map. apply map_ext. reflexivity. Qed.
  Lemma mv_duplicates bs : find_duplicates (map mv bs) = find_duplicates bs.
  Proof. unfold find_duplicates. rewrite map_length, mv_radii, mv_pdist. reflexivity. Qed.
End Motion.
