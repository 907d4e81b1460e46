(** Comparisons on a grid of lengths and depths. *)
From Verif Require Import Base LinAlg FLS_Model FLS_Spec FLS_Sol_Proofs.
From Verif Require Import Bore_Model Solve_Model Detailed_Model Detailed_Spec Detailed_Proofs Detailed_Sol_Proofs Sim_Model Sim_Spec.

Lemma tiny_pos : 0 < tiny. Proof. unfold tiny. apply Rinv_0_lt_compat. apply pow_lt. lra. Qed.

Lemma multiple_close u x y : 0 < u -> multiple u x -> multiple u y -> Rabs (x - y) < u -> x = y.
Proof.
  intros Hu [k ->] [l ->] H. replace (IZR k * u - IZR l * u) with (IZR (k - l) * u) in H by (rewrite minus_IZR; ring).
  rewrite Rabs_mult, (Rabs_right u) in H by lra. assert (A : Rabs (IZR (k - l)) < 1) by nra. rewrite <- abs_IZR in A. apply lt_IZR in A.
  assert (k = l) by lia. subst. auto.
Qed.
Lemma multiple_minus u x y : multiple u x -> multiple u y -> multiple u (x - y).
Proof. intros [k ->] [l ->]. exists (k - l)%Z. rewrite minus_IZR. ring. Qed.
Lemma multiple_plus u x y : multiple u x -> multiple u y -> multiple u (x + y).
Proof. intros [k ->] [l ->]. exists (k + l)%Z. rewrite plus_IZR. ring. Qed.
Lemma multiple_abs u x : 0 < u -> multiple u x -> multiple u (Rabs x).
Proof. intros Hu [k ->]. exists (Z.abs k). rewrite Rabs_mult, (Rabs_right u) by lra. rewrite abs_IZR. auto. Qed.
Lemma multiple_nonzero u x : 0 < u -> multiple u x -> x = 0 \/ u <= Rabs x.
Proof.
  intros Hu [k ->]. destruct (Z.eq_dec k 0) as [->|N]; [left; ring|right]. rewrite Rabs_mult, (Rabs_right u) by lra. rewrite <- abs_IZR.
  assert (1 <= IZR (Z.abs k)) by (apply IZR_le; lia). nra.
Qed.

Lemma ratio_lt x y tol : 0 < Rabs y -> Rabs (x / y) < tol -> Rabs x < tol * Rabs y.
Proof. intros Hy H. unfold Rdiv in H. rewrite Rabs_mult, Rabs_inv in H. apply (Rmult_lt_compat_r (Rabs y)) in H; auto. rewrite Rmult_assoc, Rinv_l, Rmult_1_r in H by lra. auto. Qed.
Lemma ratio_lt' x y tol : 0 < y -> x / y < tol -> x < tol * y.
Proof. intros Hy H. apply (Rmult_lt_compat_r y) in H; auto. unfold Rdiv in H. rewrite Rmult_assoc, Rinv_l, Rmult_1_r in H by lra. auto. Qed.

Section Grid.
  Variables (tol u M : R).
  Hypothesis Hu : / 10 ^ 30 < u.
  Hypothesis Ht : 0 < tol.
  Hypothesis HM : tol * (2 * M + / 10 ^ 30) <= u.
  Definition sized (s : bore) : Prop := 0 < bH s /\ 0 <= bD s /\ multiple u (bH s) /\ multiple u (bD s) /\ bH s <= M /\ bD s <= M.

  Lemma u_pos : 0 < u. Proof. pose proof tiny_pos. unfold tiny in *. lra. Qed.
  Lemma close_u x y z B : multiple u x -> multiple u y -> Rabs (x - y) < tol * B -> B <= z -> tol * z <= u -> x = y.
  Proof. intros X Y H HB Hz. apply (multiple_close u); auto; [apply u_pos|]. assert (tol * B <= tol * z) by nra. lra. Qed.

  Lemma cond_H_exact p q : sized (fst p) -> sized (snd p) -> sized (fst q) -> sized (snd q) -> cond_H tol p q = true -> bH (fst p) = bH (fst q) /\ bH (snd p) = bH (snd q).
  Proof.
    intros [P1 [P2 [P3 [P4 [P5 P6]]]]] [Q1 [Q2 [Q3 [Q4 [Q5 Q6]]]]] [A1 [A2 [A3 [A4 [A5 A6]]]]] [B1 [B2 [B3 [B4 [B5 B6]]]]] H.
    unfold cond_H in H. apply andb_true_iff in H. rewrite !Rltb_true in H. destruct H as [H1 H2]. pose proof tiny_pos as T. unfold tiny in T.
    apply ratio_lt in H1; [|apply Rabs_pos_lt; lra]. apply ratio_lt in H2; [|apply Rabs_pos_lt; lra]. rewrite (Rabs_right (bH (fst p))) in H1 by lra. rewrite (Rabs_right (bH (snd p))) in H2 by lra.
    split; eapply close_u; eauto; nra.
  Qed.

  Lemma compare_v_exact p q : sized (fst p) -> sized (snd p) -> sized (fst q) -> sized (snd q) -> compare_vertical tol p q = true ->
    bH (fst p) = bH (fst q) /\ bH (snd p) = bH (snd q) /\
    ((bD (fst p) = bD (fst q) /\ bD (snd p) = bD (snd q)) \/ (bH (fst p) = bH (snd p) /\ bD (fst p) = bD (snd q) /\ bD (snd p) = bD (fst q))).
  Proof.
    intros S1 S2 S3 S4 H. unfold compare_vertical in H. apply andb_true_iff in H. destruct H as [Hr Hi]. unfold compare_real in Hr. unfold compare_image in Hi.
    apply andb_true_iff in Hr. apply andb_true_iff in Hi. destruct Hr as [HH Hd]. destruct Hi as [_ Hs].
    destruct (cond_H_exact p q S1 S2 S3 S4 HH) as [E1 E2]. split; auto. split; auto. pose proof tiny_pos as T. pose proof u_pos as U. unfold tiny in *.
    destruct S1 as [P1 [P2 [P3 [P4 [P5 P6]]]]], S2 as [Q1 [Q2 [Q3 [Q4 [Q5 Q6]]]]], S3 as [A1 [A2 [A3 [A4 [A5 A6]]]]], S4 as [B1 [B2 [B3 [B4 [B5 B6]]]]].
    rewrite Rltb_true in Hs. apply ratio_lt in Hs; [|apply Rabs_pos_lt; lra]. rewrite (Rabs_right (_ + _ + _)) in Hs by lra.
    assert (Es : bD (snd p) + bD (fst p) = bD (snd q) + bD (fst q)).
    { eapply close_u; [apply multiple_plus; auto|apply multiple_plus; auto|exact Hs| |exact HM]. lra. }
    apply orb_true_iff in Hd. destruct Hd as [Hd|Hd].
    - rewrite Rltb_true in Hd. left. set (x := bD (snd p) - bD (fst p)) in *. assert (Mx : multiple u x) by (apply multiple_minus; auto).
      assert (Bx : Rabs x <= M) by (unfold x; apply Rabs_le; lra).
      assert (Px : 0 < Rabs (x + / 10 ^ 30) /\ Rabs (x + / 10 ^ 30) <= M + / 10 ^ 30).
      { split; [|eapply Rle_trans; [apply Rabs_triang|rewrite (Rabs_right (/ _)) by lra; lra]].
        apply Rabs_pos_lt. destruct (multiple_nonzero u x U Mx) as [->|Q]; [lra|]. intros Z. replace x with (- (/ 10 ^ 30)) in Q by lra. rewrite Rabs_Ropp, Rabs_right in Q by lra. lra. }
      apply ratio_lt' in Hd; [|apply Px].
      assert (Ed : x = bD (snd q) - bD (fst q)). { eapply close_u; [auto|apply multiple_minus; auto|exact Hd|apply Px|]. nra. }
      unfold x in Ed. lra.
    - apply andb_true_iff in Hd. rewrite !Rltb_true in Hd. destruct Hd as [HE Hd].
      apply ratio_lt in HE; [|apply Rabs_pos_lt; lra]. rewrite (Rabs_right (bH (fst p))) in HE by lra.
      assert (EH : bH (fst p) = bH (snd p)) by (eapply close_u; eauto; nra).
      set (x := bD (snd p) - bD (fst p)) in *. assert (Mx : multiple u x) by (apply multiple_minus; auto).
      set (y := bD (snd q) - bD (fst q)) in *. assert (My : multiple u y) by (apply multiple_minus; auto).
      assert (Bx : Rabs x <= M) by (unfold x; apply Rabs_le; lra). pose proof (Rabs_pos x) as Ax.
      apply ratio_lt in Hd; [|apply Rabs_pos_lt; lra]. rewrite (Rabs_right (Rabs x + _)) in Hd by lra.
      assert (Ed : Rabs x = Rabs y). { eapply close_u; [apply multiple_abs; auto|apply multiple_abs; auto|exact Hd| |exact HM]. lra. }
      assert (C : x = y \/ x = - y) by (unfold Rabs in Ed; destruct (Rcase_abs x), (Rcase_abs y); lra). unfold x, y in C. destruct C as [C|C]; [left; lra|right].
      split; auto. lra.
  Qed.

  Lemma compare_b_exact a b : sized a -> sized b -> 0 < br a -> compare_boreholes tol a b = true -> bH a = bH b /\ bD a = bD b /\ Rabs (br a - br b) < tol * br a.
  Proof.
    intros [P1 [P2 [P3 [P4 [P5 P6]]]]] [Q1 [Q2 [Q3 [Q4 [Q5 Q6]]]]] Pr H. unfold compare_boreholes in H. rewrite !andb_true_iff, !Rltb_true in H.
    destruct H as [[[H1 H2] H3] _]. pose proof tiny_pos as T. unfold tiny in *.
    apply ratio_lt in H1; [|apply Rabs_pos_lt; lra]. apply ratio_lt in H2; [|apply Rabs_pos_lt; lra]. apply ratio_lt in H3; [|apply Rabs_pos_lt; lra].
    rewrite (Rabs_right (bH a)) in H1 by lra. rewrite (Rabs_right (br a)) in H2 by lra. rewrite (Rabs_right (bD a + _)) in H3 by lra.
    split; [|split; auto]; eapply close_u; eauto; nra.
  Qed.

  (** the solution between similar pairs of segments *)
  Lemma kernel_similar alpha t d p q : sized (fst p) -> sized (snd p) -> sized (fst q) -> sized (snd q) -> compare_vertical tol p q = true ->
    kernel_v alpha t d p = kernel_v alpha t d q /\ bH (fst p) = bH (fst q) /\ bH (snd p) = bH (snd q).
  Proof.
    intros S1 S2 S3 S4 H. destruct (compare_v_exact p q S1 S2 S3 S4 H) as [E1 [E2 E]]. split; auto. unfold kernel_v.
    destruct E as [[D1 D2]|[EH [D1 D2]]]; [rewrite E1, E2, D1, D2; auto|].
    destruct S1 as [P1 _], S2 as [P2 _]. rewrite <- E1, <- E2, <- D1, <- D2. rewrite <- EH in *.
    pose proof (recip_transient t alpha d (bH (fst p)) (bD (fst p)) (bH (fst p)) (bD (snd p)) true true ltac:(lra) ltac:(lra)) as Q. nra.
  Qed.

  Lemma kernel_transposed alpha t d p : sized (fst p) -> sized (snd p) ->
    kernel_v alpha t d p * bH (snd p) / bH (fst p) = kernel_v alpha t d (snd p, fst p).
  Proof.
    intros [P1 _] [P2 _]. unfold kernel_v. cbn [fst snd].
    pose proof (recip_transient t alpha d (bH (fst p)) (bD (fst p)) (bH (snd p)) (bD (snd p)) true true ltac:(lra) ltac:(lra)) as Q.
    rewrite (Rmult_comm _ (bH (snd p))), Q. field. lra.
  Qed.
End Grid.

Lemma allclose_spec rtol a b : allclose rtol a b = true -> length a = length b ->
  forall k, (k < length a)%nat -> Rabs (nth k a 0 - nth k b 0) <= / 10 ^ 8 + rtol * Rabs (nth k b 0).
Proof.
  unfold allclose. rewrite forallb_forall. intros H L k Hk. specialize (H (nth k (combine a b) (0, 0)) ltac:(apply nth_In; rewrite combine_length; lia)).
  rewrite combine_nth in H by auto. apply Rleb_true in H. exact H.
Qed.
