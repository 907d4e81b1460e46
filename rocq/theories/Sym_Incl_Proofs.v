(** Comparisons of inclined pairs in a moved field. *)
From Verif Require Import Base LinAlg FLS_Model.
From Verif Require Import Bore_Model Solve_Model Detailed_Model Sim_Model GFun_Model Sym_Spec Sym_Geo_Proofs.
Local Open Scope R_scope.

Lemma tiny_pos : 0 < tiny. Proof. unfold tiny. apply Rinv_0_lt_compat. apply pow_lt. lra. Qed.

Lemma sum_squares x y : x ^ 2 + y ^ 2 = 0 -> x = 0 /\ y = 0.
Proof. intros E. pose proof (pow2_ge_0 x). pose proof (pow2_ge_0 y). split; nra. Qed.

(** the plan distance of a pair and the directions of its boreholes *)
Definition pdis (p : pair) : R := planar (fst p) (snd p).
Definition psc (p : pair) (b : bore) : R := sin (btilt b) * cos_from (bx (fst p) - bx (snd p)) (by_ (fst p) - by_ (snd p)) (bori b).
Definition nearR (tol a b : R) : bool := Rltb (Rabs (a - b) / (Rabs a + tiny)) tol.

Lemma compare_inclined_split tol disTol p1 p2 q1 q2 :
  bH (fst p1) = bH (fst q1) -> bH (snd p1) = bH (snd q1) -> bH (fst p2) = bH (fst q2) -> bH (snd p2) = bH (snd q2) ->
  bD (fst p1) = bD (fst q1) -> bD (snd p1) = bD (snd q1) -> bD (fst p2) = bD (fst q2) -> bD (snd p2) = bD (snd q2) ->
  btilt (fst p1) = btilt (fst q1) -> btilt (snd p1) = btilt (snd q1) -> btilt (fst p2) = btilt (fst q2) -> btilt (snd p2) = btilt (snd q2) ->
  pdis p1 = pdis q1 -> pdis p2 = pdis q2 ->
  Rltb (Rabs (pdis q1 - pdis q2) / (Rabs (pdis q1) + tiny)) disTol = false \/
  (nearR tol (psc p1 (fst p1)) (psc p2 (fst p2)) = nearR tol (psc q1 (fst q1)) (psc q2 (fst q2)) /\
   nearR tol (psc p1 (snd p1)) (psc p2 (snd p2)) = nearR tol (psc q1 (snd q1)) (psc q2 (snd q2))) ->
  compare_inclined tol disTol p1 p2 = compare_inclined tol disTol q1 q2.
Proof.
  intros H1 H2 H3 H4 D1 D2 D3 D4 T1 T2 T3 T4 P1 P2 K. unfold compare_inclined. cbv zeta.
  change (sqrt ((bx (fst p1) - bx (snd p1)) ^ 2 + (by_ (fst p1) - by_ (snd p1)) ^ 2)) with (pdis p1).
  change (sqrt ((bx (fst p2) - bx (snd p2)) ^ 2 + (by_ (fst p2) - by_ (snd p2)) ^ 2)) with (pdis p2).
  change (sqrt ((bx (fst q1) - bx (snd q1)) ^ 2 + (by_ (fst q1) - by_ (snd q1)) ^ 2)) with (pdis q1).
  change (sqrt ((bx (fst q2) - bx (snd q2)) ^ 2 + (by_ (fst q2) - by_ (snd q2)) ^ 2)) with (pdis q2).
  rewrite P1, P2. destruct K as [K|[K1 K2]].
  - rewrite K. rewrite !andb_false_r. cbn [andb]. auto.
  - assert (A : forall p b, sin (btilt b) * cos_from (bx (fst p) - bx (snd p)) (by_ (fst p) - by_ (snd p)) (bori b) = psc p b) by reflexivity.
    rewrite !A. unfold nearR in K1, K2. rewrite K1, K2. unfold cond_H. rewrite H1, H2, H3, H4, D1, D2, D3, D4, T1, T2, T3, T4. auto.
Qed.

Section Motion.
  Variable m : motion.
  Local Notation mv := (moved m).
  Local Notation mp := (fun p : pair => (mv (fst p), mv (snd p))).

  (** the direction relative to the line through the heads *)
  Lemma mv_psc p b : plain b -> pdis p <> 0 -> psc (mp p) (mv b) = psc p b.
  Proof.
    intros P N. unfold psc. cbn [fst snd]. rewrite mv_tilt. unfold cos_from.
    assert (Z : forall x y, sqrt (x ^ 2 + y ^ 2) <> 0 -> Reqb x 0 && Reqb y 0 = false).
    { intros x y K. destruct (Reqb x 0) eqn:E1, (Reqb y 0) eqn:E2; auto. apply Reqb_true in E1, E2. subst. exfalso. apply K. replace (0 ^ 2 + 0 ^ 2) with 0 by ring. apply sqrt_0. }
    assert (N' : sqrt ((bx (mv (fst p)) - bx (mv (snd p))) ^ 2 + (by_ (mv (fst p)) - by_ (mv (snd p))) ^ 2) <> 0).
    { rewrite mv_square. exact N. }
    rewrite (Z _ _ N'), (Z _ _ N). rewrite mv_square. unfold Rdiv. rewrite <- !Rmult_assoc. f_equal.
    pose proof (mv_lean m b (fst p) (snd p) P) as K.
    transitivity (sin (btilt b) * (cos (bori (mv b)) * (bx (mv (fst p)) - bx (mv (snd p))) + sin (bori (mv b)) * (by_ (mv (fst p)) - by_ (mv (snd p))))); [ring|].
    rewrite K. ring.
  Qed.

  Lemma mv_pdis p : pdis (mp p) = pdis p.
  Proof. unfold pdis. apply mv_planar. Qed.

  Lemma vertical_psc p b : btilt b = 0 -> psc p b = 0.
  Proof. intros T. unfold psc. rewrite T, sin_0. ring. Qed.

  Lemma still_psc p b : displacement m -> plain b -> psc (mp p) (mv b) = psc p b.
  Proof.
    intros [F T] [P|P]. { rewrite !vertical_psc; auto. }
    unfold psc. cbn [fst snd]. rewrite mv_dx, mv_dy, mv_tilt, F, T, cos_0, sin_0. cbn [moved mk_bore bori]. rewrite P, F, T. f_equal. f_equal; ring.
  Qed.

  Lemma compare_moved tol disTol p1 p2 :
    Rltb (Rabs (pdis p1 - pdis p2) / (Rabs (pdis p1) + tiny)) disTol = false \/
    (nearR tol (psc (mp p1) (mv (fst p1))) (psc (mp p2) (mv (fst p2))) = nearR tol (psc p1 (fst p1)) (psc p2 (fst p2)) /\
     nearR tol (psc (mp p1) (mv (snd p1))) (psc (mp p2) (mv (snd p2))) = nearR tol (psc p1 (snd p1)) (psc p2 (snd p2))) ->
    compare_inclined tol disTol (mp p1) (mp p2) = compare_inclined tol disTol p1 p2.
  Proof. intros K. apply compare_inclined_split; auto; try apply mv_pdis. Qed.

  (** boreholes whose heads are apart *)
  Lemma compare_apart tol disTol p1 p2 : plain (fst p1) -> plain (snd p1) -> plain (fst p2) -> plain (snd p2) -> pdis p1 <> 0 -> pdis p2 <> 0 ->
    compare_inclined tol disTol (mp p1) (mp p2) = compare_inclined tol disTol p1 p2.
  Proof. intros A1 A2 A3 A4 N1 N2. apply compare_moved. right. rewrite !mv_psc; auto. Qed.

  Lemma compare_still tol disTol p1 p2 : displacement m -> plain (fst p1) -> plain (snd p1) -> plain (fst p2) -> plain (snd p2) ->
    compare_inclined tol disTol (mp p1) (mp p2) = compare_inclined tol disTol p1 p2.
  Proof. intros S A1 A2 A3 A4. apply compare_moved. right. rewrite !still_psc; auto. Qed.

  Lemma compare_upright tol disTol p1 p2 : btilt (fst p1) = 0 -> btilt (snd p1) = 0 -> btilt (fst p2) = 0 -> btilt (snd p2) = 0 ->
    compare_inclined tol disTol (mp p1) (mp p2) = compare_inclined tol disTol p1 p2.
  Proof. intros A1 A2 A3 A4. apply compare_moved. right. rewrite !vertical_psc; auto. Qed.

  Lemma near_itself tol x y : nearR tol x x = nearR tol y y.
  Proof. unfold nearR. rewrite !Rminus_diag_eq by reflexivity. rewrite Rabs_R0. unfold Rdiv. rewrite !Rmult_0_l. auto. Qed.

  Lemma head_zero p b : pdis p = 0 -> psc p b = sin (btilt b) * cos (bori b).
  Proof.
    intros E. unfold psc, cos_from. unfold pdis, planar in E. apply sqrt_eq_0 in E. 2: { pose proof (pow2_ge_0 (bx (fst p) - bx (snd p))). pose proof (pow2_ge_0 (by_ (fst p) - by_ (snd p))). lra. }
    apply sum_squares in E as [E1 E2]. rewrite E1, E2. destruct (Reqb 0 0) eqn:Z; auto. exfalso. assert (Reqb 0 0 = true) by (apply Reqb_true; auto). congruence.
  Qed.

  (** segments of the same two boreholes *)
  Lemma compare_clear tol disTol p1 p2 : disTol <= 1 / 2 ->
    plain (fst p1) -> plain (snd p1) -> plain (fst p2) -> plain (snd p2) ->
    btilt (fst p1) = btilt (fst p2) -> btilt (snd p1) = btilt (snd p2) -> bori (fst p1) = bori (fst p2) -> bori (snd p1) = bori (snd p2) ->
    (pdis p1 = 0 \/ tiny <= pdis p1) -> (pdis p2 = 0 \/ tiny <= pdis p2) ->
    compare_inclined tol disTol (mp p1) (mp p2) = compare_inclined tol disTol p1 p2.
  Proof.
    intros HT A1 A2 A3 A4 T1 T2 O1 O2 [Z1|Z1] [Z2|Z2]; pose proof tiny_pos as TP.
    - apply compare_moved. right. rewrite !head_zero; auto; try (rewrite mv_pdis; auto). rewrite !mv_tilt, T1, T2, O1, O2.
      assert (E : forall a b, btilt a = btilt b -> bori a = bori b -> bori (mv a) = bori (mv b)) by (intros a b Ea Eb; cbn [moved mk_bore bori]; rewrite Ea, Eb; auto).
      rewrite (E _ _ T1 O1), (E _ _ T2 O2). split; apply near_itself.
    - apply compare_moved. left. apply Rltb_false. rewrite Z1. replace (0 - pdis p2) with (- pdis p2) by ring. rewrite Rabs_R0, Rabs_Ropp, Rabs_pos_eq by lra.
      apply Rle_trans with 1; [lra|]. apply Rmult_le_reg_r with (0 + tiny); [lra|]. unfold Rdiv. rewrite Rmult_assoc, Rinv_l by lra. lra.
    - apply compare_moved. left. apply Rltb_false. rewrite Z2, Rminus_0_r, Rabs_pos_eq by lra.
      apply Rle_trans with (1/2); [lra|]. apply Rmult_le_reg_r with (pdis p1 + tiny); [lra|]. unfold Rdiv. rewrite (Rmult_assoc (pdis p1)), Rinv_l by lra. lra.
    - apply compare_apart; auto; lra.
  Qed.
End Motion.
