(** The response matrix of the similarities solver against that of the detailed solver. *)
From Coq Require Import Reals Lra Lia List Bool Psatz.
From Verif Require Import Base FLS_Model FLS_Spec FLS_Proofs FLS_Sol_Proofs FLS_Line_Proofs.
From Verif Require Import Bore_Model Solve_Model Detailed_Model Detailed_Spec Detailed_Proofs Detailed_Sol_Proofs
  Sim_Model Sim_Spec Sim_Exact_Proofs Sim_Matrix_Proofs Sim_Sol_Proofs Sim_Dist_Proofs.
Local Open Scope R_scope.

Section Final.
  Variables (alpha t tol disTol u M : R) (bs : list bore) (ns : list nat) (rs : list (list R)) (uw : list (R * R)) (ki : pair -> R).
  Hypotheses (W : segmented bs ns rs) (V : vertical_field bs) (G : good_ratios rs) (Gr : on_grid tol u M bs ns rs)
    (Ra : radii_apart tol bs) (Rt : ratios_apart tol rs) (Hd : 0 < disTol) (Ne : (0 < length bs)%nat) (Lv : level bs).
  Notation b_ i := (nth i bs no_bore).
  Notation seg k := (nth k (borehole_segments bs ns rs) no_bore).

  Lemma seg_distance a b r c : (a < length bs)%nat -> (b < length bs)%nat -> owns ns a r -> owns ns b c ->
    Rmax (planar (seg c) (seg r)) (br (seg c)) = (if Nat.eqb a b then br (b_ a) else planar (b_ a) (b_ b)).
  Proof.
    intros Ha Hb Or Oc. rewrite (place_distance _ _ (b_ b) (b_ a)); [|apply (seg_place bs ns rs W V b c); auto|apply (seg_place bs ns rs W V a r); auto].
    destruct (Nat.eqb_spec a b) as [<-|N].
    - apply Rmax_right. unfold planar. rewrite !Rminus_eq_0. replace (0 ^ 2 + 0 ^ 2) with 0 by ring. rewrite sqrt_0.
      destruct (proj1 V (b_ a)) as [_ [_ [_ P]]]; [apply nth_In; auto|lra].
    - rewrite planar_sym. apply Rmax_left. rewrite planar_sym. apply (proj2 V); auto.
  Qed.

  Lemma distance_pos x : field_distance bs x -> 0 < x.
  Proof.
    intros [a [b [Ha [Hb [N ->]]]]]. apply Rlt_le_trans with (br (b_ a)); [|apply (proj2 V); auto].
    apply (proj1 V). apply nth_In. auto.
  Qed.

  Lemma sim_exact : distances_apart disTol bs -> exists m, sim_matrix tol disTol bs ns rs (kernel_v alpha t) ki = Some m /\
    forall r c, (r < list_sum ns)%nat -> (c < list_sum ns)%nat -> m r c = detailed_matrix (line_kernel alpha t uw) bs ns rs r c.
  Proof.
    intros Da. destruct (sim_level alpha t tol disTol u M bs ns rs ki) as [m [E P]]; auto. exists m. split; auto.
    intros r c Hr Hc. rewrite matrix_response by auto. pose proof (proj1 W) as L.
    destruct (owner_exists ns r Hr) as [a [Ha Oa]]. destruct (owner_exists ns c Hc) as [b [Hb Ob]]. rewrite L in Ha, Hb.
    destruct (P r c a b Ha Hb Oa Ob) as [d [Ds [Dp ->]]]. unfold kernel_v, response, bore_segments. cbn [fst snd].
    rewrite (seg_distance a b) by auto. destruct (Nat.eqb_spec a b) as [Eab|N]; [rewrite Ds; auto|].
    rewrite (class_mean_exact disTol _ _ _ Hd Da (Dp N)). auto.
  Qed.

  Lemma sim_bracket : 0 < alpha -> 0 < t -> exists m, sim_matrix tol disTol bs ns rs (kernel_v alpha t) ki = Some m /\
    forall r c a b, (a < length bs)%nat -> (b < length bs)%nat -> owns ns a r -> owns ns b c ->
      (a = b -> m r c = detailed_matrix (line_kernel alpha t uw) bs ns rs r c) /\
      (a <> b -> let d := planar (b_ a) (b_ b) in
         kernel_v alpha t ((1 + disTol) * d) (seg c, seg r) < m r c < kernel_v alpha t (d / (1 + disTol)) (seg c, seg r) /\
         detailed_matrix (line_kernel alpha t uw) bs ns rs r c = kernel_v alpha t d (seg c, seg r)).
  Proof.
    intros Ha0 Ht0. destruct (sim_level alpha t tol disTol u M bs ns rs ki) as [m [E P]]; auto. exists m. split; auto.
    intros r c a b Ha Hb Oa Ob. destruct W as [L1 [L2 L3]].
    assert (Hr : (r < list_sum ns)%nat) by (pose proof (first_le ns a ltac:(lia)); unfold owns in Oa; lia).
    assert (Hc : (c < list_sum ns)%nat) by (pose proof (first_le ns b ltac:(lia)); unfold owns in Ob; lia).
    rewrite !matrix_response by auto. destruct (P r c a b Ha Hb Oa Ob) as [d [Ds [Dp Em]]].
    unfold response, bore_segments. rewrite (seg_distance a b) by auto. split.
    - intros Eab. rewrite Em, Ds by auto. rewrite <- Eab, Nat.eqb_refl. auto.
    - intros N. destruct (Nat.eqb_spec a b); [contradiction|]. cbv zeta. split; auto.
      assert (F : field_distance bs (planar (b_ a) (b_ b))) by (exists a, b; auto). pose proof (distance_pos _ F) as Fp.
      destruct (class_mean_close disTol _ _ _ Hd distance_pos (Dp N)) as [_ [B1 B2]]. rewrite Em. unfold kernel_v. cbn [fst snd].
      assert (In (seg r) (borehole_segments bs ns rs)) as Ir by (apply nth_In; rewrite (proj1 (segments_all bs ns rs W)); auto).
      assert (In (seg c) (borehole_segments bs ns rs)) as Ic by (apply nth_In; rewrite (proj1 (segments_all bs ns rs W)); auto).
      destruct (seg_props bs ns rs V G _ Ir) as [_ [R1 [R2 _]]]. destruct (seg_props bs ns rs V G _ Ic) as [_ [C1 [C2 _]]].
      assert (0 < planar (b_ a) (b_ b) / (1 + disTol)) by (apply Rdiv_lt_0_compat; lra).
      split; apply fls_decr; auto; lra.
  Qed.
End Final.
