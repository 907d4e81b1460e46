(** Uniform heat extraction rates with equivalent boreholes. *)
From Verif Require Import Base TimeGrid_Spec LinAlg FLS_Model FLS_Sol_Proofs FLS_Line_Proofs.
From Verif Require Import Bore_Model Bore_Spec UniqueDist_Proofs Net_Model Solve_Model Solve_Spec Solve_Sol_Proofs Detailed_Model Detailed_Spec Detailed_Proofs Detailed_Sol_Proofs
  Sim_Model Sim_Spec Sim_Cells_Proofs Sim_Exact_Proofs Eq_Model Eq_Spec Eq_Group_Proofs Eq_Cluster_Proofs Eq_Dist_Proofs Eq_Field_Proofs Eq_Block_Proofs Eq_Main_Proofs.

Lemma sumn_blocks n m F : sumn (n * m) F = sumn m (fun i => sumn n (fun a => F (n * i + a)%nat)).
Proof.
  induction m as [|m IH]; [rewrite Nat.mul_0_r; auto|]. replace (n * S m)%nat with (n * m + n)%nat by lia. rewrite sumn_split. cbn [sumn]. rewrite IH. ring.
Qed.
Lemma sumn_Rsum {A} m (F : nat -> A -> R) l : sumn m (fun i => Rsum (map (F i) l)) = Rsum (map (fun x => sumn m (fun i => F i x)) l).
Proof.
  induction l as [|x l IH]; cbn [map Rsum]; [apply sumn_zero; auto|]. rewrite sumn_plus, IH. ring.
Qed.

Section Heat.
  Variables (tol disTol u M : R) (bs : list bore) (ls : list nat) (E : list ebore) (n : nat) (r : list R) (alpha : R).
  Local Notation nB := (length bs).
  Local Notation nE := (length E).
  Local Notation b_ k := (nth k bs no_bore).
  Local Notation ks i := (owners ls nB i).
  Local Notation ns := (repeat n nB).
  Local Notation rs := (repeat r nB).
  Hypothesis Ga : gathers bs ls E.
  Hypothesis Sd : forall p q, (p < nB)%nat -> (q < nB)%nat -> nth p ls O = nth q ls O -> same_dims (b_ p) (b_ q).
  Hypothesis Vf : vertical_field bs.
  Hypothesis Lr : length r = n.
  Hypothesis Gr : good_ratios [r].
  Hypothesis Og : on_grid tol u M bs ns rs.
  Hypothesis Rd : radii_apart tol bs.
  Hypothesis Lev : level bs.
  Hypothesis Nb : (0 < nB)%nat.
  Hypothesis Hd : 0 < disTol.
  Hypothesis Sp : spaced disTol bs.
  Hypothesis Ap : distances_apart disTol bs.
  Hypothesis Ha : 0 < alpha.
  Variable dis : list R.
  Hypothesis Ed : field_distances disTol bs = Some dis.

  Local Notation mat t := (eq_matrix tol E n r dis (kernel_e alpha t) (kernel_v alpha t)).
  Local Notation sg := (sg bs n r).

  Lemma by_owner (F : nat -> R) : sumn nB F = sumn nE (fun i => Rsum (map F (ks i))).
  Proof.
    assert (S : sumn nB F = Rsum (map F (seq 0 nB))) by (rewrite Rsum_seq; auto). rewrite S.
    apply filter_sum. intros k I. apply in_seq in I. apply Ga. lia.
  Qed.
  Lemma owned i : (i < nE)%nat -> 0 < INR (length (ks i)).
  Proof. intros Hi. destruct (e_props bs ls E n r Ga Sd Vf Lr Nb i Hi) as [N _]. apply lt_0_INR. destruct (ks i); [congruence|cbn; lia]. Qed.
  Lemma length_at i a y : (i < nE)%nat -> (a < n)%nat -> In y (ks i) -> eq_lengths E n r (n * i + a)%nat = bH (sg y a) * INR (length (ks i)).
  Proof.
    intros Hi Hx Iy. rewrite eq_length_at; auto.
    - rewrite (e_count bs ls E n r Ga Sd Vf Lr Nb) by auto. f_equal. apply (es_sg bs ls E n r Ga Sd Vf Lr Nb i a y Hi Hx Iy).
    - apply (e_wf bs ls E n r Ga Sd Vf Lr Nb).
  Qed.

  (** temperatures are means over the boreholes *)
  Lemma equivalent_mean t m uw : 0 < t -> mat t = Some m -> forall j b, (j < nE)%nat -> (b < n)%nat ->
    sumn (n * nE) (fun c => m (n * j + b)%nat c) * INR (length (ks j))
    = Rsum (map (fun y => sumn (n * nB) (fun c => detailed_matrix (line_kernel alpha t uw) bs ns rs (n * y + b)%nat c)) (ks j)).
  Proof.
    intros Ht Em j b Hj Hb. destruct (matrix_exact tol disTol u M bs ls E n r alpha t Ga Sd Vf Lr Gr Og Rd Lev Nb Hd Sp Ha Ht dis uw Ed Ap) as [m' [Em' V]].
    rewrite Em in Em'. injection Em' as <-. pose proof (owned j Hj) as P. rewrite sumn_blocks.
    rewrite (sumn_ext nE _ (fun i => Rsum (map (fun y => Rsum (map (fun x => sumn n (fun a => detailed_matrix (line_kernel alpha t uw) bs ns rs (n * y + b)%nat (n * x + a)%nat)) (ks i))) (ks j)) * / INR (length (ks j)))).
    2:{ intros i Hi. rewrite (sumn_ext n _ (fun a => Rsum (map (fun y => Rsum (map (fun x => detailed_matrix (line_kernel alpha t uw) bs ns rs (n * y + b)%nat (n * x + a)%nat) (ks i))) (ks j)) * / INR (length (ks j)))).
        - rewrite sumn_scal_r. f_equal. rewrite (sumn_Rsum n (fun a y => Rsum (map (fun x => detailed_matrix (line_kernel alpha t uw) bs ns rs (n * y + b)%nat (n * x + a)%nat) (ks i)))).
          apply Rsum_ext_in. intros y _. rewrite (sumn_Rsum n (fun a x => detailed_matrix (line_kernel alpha t uw) bs ns rs (n * y + b)%nat (n * x + a)%nat)). auto.
        - intros a Hx. rewrite V by auto. reflexivity. }
    rewrite sumn_scal_r. rewrite Rmult_assoc, Rinv_l, Rmult_1_r by lra.
    rewrite (sumn_Rsum nE (fun i y => Rsum (map (fun x => sumn n (fun a => detailed_matrix (line_kernel alpha t uw) bs ns rs (n * y + b)%nat (n * x + a)%nat)) (ks i)))).
    apply Rsum_ext_in. intros y _. rewrite sumn_blocks, by_owner. auto.
  Qed.

  Lemma uhtr_equivalent time k : positive time -> (k < length time)%nat ->
    nth k (fst (solve_uhtr (n * nE) (eq_lengths E n r) (fun tl i j p => match mat (nth p tl 0) with Some m => m i j | None => 0 end) time 0)) 0 = field_mean alpha (nth k time 0) bs.
  Proof.
    intros P Hk. set (trf := fun tl i j p => match mat (nth p tl 0) with Some m => m i j | None => 0 end).
    pose proof (segmented_all bs n r Lr) as W. pose proof (good_all tol u M bs n r Lr Gr Og) as Gd. rewrite <- (uhtr_field bs ns rs W Vf Gd alpha [] time k Ha P Hk).
    pose proof (uhtr_values (n * nE) (eq_lengths E n r) trf time k P Hk) as U.
    pose proof (uhtr_values (n_sources bs ns rs) (segment_length bs ns rs) (detailed_trf alpha [] bs ns rs) time k P Hk) as U'.
    destruct (solve_uhtr (n * nE) (eq_lengths E n r) trf time 0) as [g T]. destruct U as [UT UG].
    destruct (solve_uhtr (n_sources bs ns rs) (segment_length bs ns rs) (detailed_trf alpha [] bs ns rs) time 0) as [g' T']. destruct U' as [UT' UG']. cbn [fst]. rewrite UG, UG'.
    set (t := nth k time 0) in *. assert (Ht : 0 < t) by (apply P, nth_In; auto).
    destruct (matrix_main tol disTol u M bs ls E n r alpha t Ga Sd Vf Lr Gr Og Rd Lev Nb Hd Sp Ha Ht dis Ed) as [m [Em _]].
    assert (NS : n_sources bs ns rs = (n * nB)%nat). { unfold n_sources. change (bore_segments bs ns rs) with (borehole_segments bs ns rs). rewrite (proj1 (segments_all bs ns rs W)), (sum_all bs n r Lr Nb). auto. }
    rewrite NS in *.
    assert (SL : forall y b, (y < nB)%nat -> (b < n)%nat -> segment_length bs ns rs (n * y + b)%nat = bH (sg y b)).
    { intros y b Hy Hb. unfold segment_length. change (bore_segments bs ns rs) with (borehole_segments bs ns rs). change (Bore 0 0 0 0 0 0 0) with no_bore. rewrite (seg_at bs n r Lr Nb) by auto. auto. }
    assert (In_ : forall j y, In y (ks j) -> (y < nB)%nat) by (intros j y I; apply (in_owner bs ls n r Lr Nb) in I; tauto).
    f_equal.
    - rewrite sumn_blocks, (sumn_blocks n nB), by_owner. apply sumn_ext. intros j Hj. rewrite <- (sumn_Rsum n (fun b y => segment_length bs ns rs (n * y + b)%nat * nth k T' zero_vec (n * y + b)%nat)).
      apply sumn_ext. intros b Hb. rewrite UT. unfold trf. fold t. rewrite Em.
      assert (Pj := owned j Hj). destruct (e_head bs ls E n r Ga Sd Vf Lr Nb j Hj) as [y0 I0]. rewrite (length_at j b y0) by auto.
      rewrite Rmult_assoc, (Rmult_comm (INR _)), (equivalent_mean t m [] Ht Em j b Hj Hb). rewrite <- Rsum_map_scal. apply Rsum_ext_in. intros y Iy.
      rewrite UT', SL by eauto. unfold detailed_trf. fold t. f_equal.
      pose proof (length_at j b y Hj Hb Iy) as Q1. rewrite (length_at j b y0 Hj Hb I0) in Q1. apply (Rmult_eq_reg_r (INR (length (ks j)))); lra.
    - rewrite sumn_blocks, (sumn_blocks n nB), by_owner. apply sumn_ext. intros j Hj. rewrite <- (sumn_Rsum n (fun b y => segment_length bs ns rs (n * y + b)%nat)).
      apply sumn_ext. intros b Hb. destruct (e_head bs ls E n r Ga Sd Vf Lr Nb j Hj) as [y0 I0]. rewrite (length_at j b y0) by auto.
      assert (Cst : forall l, (forall y, In y l -> In y (ks j)) -> Rsum (map (fun y => segment_length bs ns rs (n * y + b)%nat) l) = bH (sg y0 b) * INR (length l)).
      { induction l as [|y l IH]; intros Q; [cbn; ring|]. cbn [map length]. rewrite S_INR. cbn [Rsum]. rewrite IH by (intros z I; apply Q; right; auto). assert (Iy : In y (ks j)) by (apply Q; left; auto).
        rewrite SL by eauto. pose proof (length_at j b y Hj Hb Iy) as Q1. rewrite (length_at j b y0 Hj Hb I0) in Q1. assert (Pj := owned j Hj). apply Rmult_eq_reg_r in Q1; [rewrite Q1; ring|lra]. }
      rewrite Cst; auto.
  Qed.
End Heat.
