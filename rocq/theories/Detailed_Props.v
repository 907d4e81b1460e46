(** Properties of the segments and of the response matrix: C48, C49, C80. *)
From Verif Require Import Base LinAlg FLS_Model.
From Verif Require Import Bore_Model Solve_Model Solve_Spec Detailed_Model Detailed_Spec Detailed_Proofs Detailed_Sol_Proofs.

(** Two vertical boreholes with two and three segments. *)
Definition ex_bs : list bore := [Bore 100 4 (3/40) 0 0 0 0; Bore 150 2 (3/40) 5 0 0 0].
Definition ex_ns : list nat := [2; 3]%nat.
Definition ex_rs : list (list R) := [[1/4; 3/4]; [1/4; 1/2; 1/4]].
Lemma ex_segmented : segmented ex_bs ex_ns ex_rs.
Proof. refine (conj eq_refl (conj eq_refl _)). intros [|[|b]] Hb; cbn in *; auto; lia. Qed.
Lemma ex_ratios : good_ratios ex_rs.
Proof. intros r [<-|[<-|[]]]; (split; [cbn; lra|]); intros x Hx; cbn in Hx; intuition lra. Qed.
Lemma ex_field : vertical_field ex_bs.
Proof.
  split.
  - intros b [<-|[<-|[]]]; cbn; lra.
  - assert (P : forall x, x = 25 -> 3/40 <= sqrt x). { intros x ->. replace 25 with (5 * 5) by ring. rewrite sqrt_square by lra. lra. }
    intros [|[|a]] [|[|b]] Ha Hb N; cbn in Ha, Hb; try lia; unfold planar, ex_bs; cbn [nth bx by_ br]; apply P; ring.
Qed.

(** * C48 *)

(** Each segment belongs to exactly one borehole. *)
Theorem C48_partition : forall ns k, (k < list_sum ns)%nat ->
  exists b, ((b < length ns)%nat /\ owns ns b k) /\ forall a, (a < length ns)%nat -> owns ns a k -> a = b.
Proof. intros ns k Hk. destruct (owner_exists ns k Hk) as [b [Hb O]]. exists b. split; auto. intros a Ha Oa. eapply owner_unique; eauto. Qed.
Print Assumptions C48_partition.
(** The segments of a borehole are consecutive and are those of [Borehole.segments]. *)
Theorem C48_segments : forall bs ns rs, segmented bs ns rs ->
  n_sources bs ns rs = list_sum ns /\
  forall b s, (b < length bs)%nat -> (s < nth b ns O)%nat ->
    nth (first ns b + s) (bore_segments bs ns rs) no_bore = nth s (segments (nth b bs no_bore) (nth b ns O) (Some (nth b rs []))) no_bore.
Proof. exact segments_all. Qed.
Print Assumptions C48_segments.
(** First and last index of each borehole. *)
Theorem C48_indices : forall nB ns b k, (b < nB)%nat -> length ns = nB ->
  (nth b (i0_segments nB ns) O <= k < nth b (i1_segments nB ns) O)%nat <-> owns ns b k.
Proof.
  intros nB ns b k Hb L. unfold i0_segments, i1_segments. rewrite !nth_map_seq by auto. unfold owns. fold (first ns b). fold (first ns (S b)).
  rewrite first_S by lia. tauto.
Qed.
Print Assumptions C48_indices.
(** Accepted arguments with one number of segments and one list of ratios per borehole:
    every borehole has at least one segment, and the requested number of them. *)
Theorem C48_accepted : forall bs ns rs, check_segments bs ns rs = true -> length ns = length bs -> length rs = length bs ->
  segmented bs ns rs /\ forall b, (b < length bs)%nat -> owns ns b (first ns b).
Proof.
  intros bs ns rs E L1 L2. unfold check_segments in E. apply andb_true_iff in E. destruct E as [E E2]. apply andb_true_iff in E. destruct E as [_ E1].
  rewrite forallb_forall in E1, E2. split.
  - refine (conj L1 (conj L2 _)). intros b Hb.
    assert (I : In (nth b rs [], nth b ns O) (combine rs ns)).
    { rewrite <- (combine_nth rs ns b [] O) by lia. apply nth_In. rewrite combine_length. lia. }
    specialize (E2 _ I). cbn [fst snd] in E2. apply andb_true_iff in E2. apply Nat.eqb_eq, E2.
  - intros b Hb. assert (Hn : (b < length ns)%nat) by lia. specialize (E1 (nth b ns O) (nth_In ns O Hn)). apply Nat.leb_le in E1. unfold owns. lia.
Qed.
Print Assumptions C48_accepted.
(** An integer number of segments and uniform ratios. *)
Theorem C48_integer : forall bs n, (0 < n)%nat -> let ns := format_segments (length bs) (SInt n) in
  segmented bs ns (format_ratios (length bs) ns RNone) /\ list_sum ns = (n * length bs)%nat.
Proof.
  intros bs n Hn. cbn [format_segments format_ratios]. split.
  - refine (conj (repeat_length _ _) (conj _ _)); [rewrite map_length; apply repeat_length|]. intros b Hb.
    rewrite (nth_map _ _ b O []) by (rewrite repeat_length; auto). apply repeat_length.
  - generalize (length bs) as m. induction m as [|m IH]; [cbn; lia|]. cbn [repeat]. change (list_sum (n :: repeat n m)) with (n + list_sum (repeat n m))%nat. rewrite IH. lia.
Qed.
Print Assumptions C48_integer.
Example C48_ex : segmented ex_bs ex_ns ex_rs /\ list_sum ex_ns = 5%nat /\ owns ex_ns 1 4.
Proof. refine (conj ex_segmented (conj eq_refl _)). unfold owns, first. cbn. lia. Qed.

(** A list of numbers of segments shorter than the list of boreholes is accepted, and the
    remaining boreholes have no segments. *)
Theorem C48_refuted : exists bs a, let ns := format_segments (length bs) a in let rs := format_ratios (length bs) ns RNone in
  check_segments bs ns rs = true /\ (length ns < length bs)%nat /\
  exists b, (b < length bs)%nat /\ (forall k, ~ owns ns b k) /\ forall s, In s (bore_segments bs ns rs) -> bx s <> bx (nth b bs no_bore).
Proof.
  exists ex_bs, (SList [1%nat]). cbn [format_segments format_ratios]. cbv zeta. split.
  - unfold check_segments. cbn. destruct (Rltb (Rabs (1 - (1 / 1 + 0))) (1 / (10 * (10 * (10 * (10 * (10 * (10 * 1)))))))) eqn:E; auto. apply Rltb_false in E.
    replace (1 - (1 / 1 + 0)) with 0 in E by field. rewrite Rabs_R0 in E. lra.
  - split; [cbn; lia|]. exists 1%nat. split; [cbn; lia|]. split.
    + intros k [A B]. unfold first in *. cbn in *. lia.
    + intros s Hs. cbn in Hs. destruct Hs as [<-|[]]. cbn. rewrite sin_0. lra.
Qed.
Print Assumptions C48_refuted.

(** * C49 *)

(** Every entry is set.  Segments of the same borehole: the solution from segment c to
    segment r.  Boreholes a < b: the solution from the segments of b to those of a, and
    its reciprocal. *)
Theorem C49_self : forall ker bs ns rs, segmented bs ns rs -> forall b r c, (b < length bs)%nat -> owns ns b r -> owns ns b c ->
  detailed_matrix ker bs ns rs r c = ker (forallb vertical bs) (nth c (bore_segments bs ns rs) no_bore) (nth r (bore_segments bs ns rs) no_bore).
Proof. exact matrix_self. Qed.
Print Assumptions C49_self.
Theorem C49_reciprocal : forall ker bs ns rs, segmented bs ns rs -> (forall s, In s (bore_segments bs ns rs) -> bH s <> 0) ->
  forall a b r c, (a < length bs)%nat -> (b < length bs)%nat -> a <> b -> owns ns a r -> owns ns b c ->
  segment_length bs ns rs r * detailed_matrix ker bs ns rs r c = segment_length bs ns rs c * detailed_matrix ker bs ns rs c r.
Proof.
  intros ker bs ns rs W P. assert (K : forall a b r c, (a < b)%nat -> (b < length bs)%nat -> owns ns a r -> owns ns b c ->
    segment_length bs ns rs r * detailed_matrix ker bs ns rs r c = segment_length bs ns rs c * detailed_matrix ker bs ns rs c r).
  { intros a b r c L Hb Oa Ob. destruct (matrix_upper ker bs ns rs W a b r c L Hb Oa Ob) as [M1 M2]. rewrite M1, M2. unfold segment_length.
    assert (Hc : bH (nth c (bore_segments bs ns rs) no_bore) <> 0).
    { apply P, nth_In. change (length (bore_segments bs ns rs)) with (length (borehole_segments bs ns rs)). rewrite (proj1 (segments_all bs ns rs W)). destruct W as [L1 _]. pose proof (first_le ns b ltac:(lia)). unfold owns in Ob. lia. }
    change (Bore 0 0 0 0 0 0 0) with no_bore. field. exact Hc. }
  intros a b r c Ha Hb N Oa Ob. destruct (Nat.lt_gt_cases a b) as [[L|L] _]; auto; [eapply K; eauto|]. symmetry. eapply K; eauto.
Qed.
Print Assumptions C49_reciprocal.
(** Vertical fields: every entry is the line source solution from segment c to segment r. *)
Theorem C49_response : forall bs ns rs, segmented bs ns rs -> vertical_field bs -> good_ratios rs ->
  forall alpha t uw r c, (r < list_sum ns)%nat -> (c < list_sum ns)%nat ->
  detailed_matrix (line_kernel alpha t uw) bs ns rs r c
  = response alpha t (nth c (bore_segments bs ns rs) no_bore) (nth r (bore_segments bs ns rs) no_bore).
Proof. exact matrix_response. Qed.
Print Assumptions C49_response.
Example C49_ex : segmented ex_bs ex_ns ex_rs /\ vertical_field ex_bs /\ good_ratios ex_rs /\ owns ex_ns 0 1 /\ owns ex_ns 1 4.
Proof. refine (conj ex_segmented (conj ex_field (conj ex_ratios _))). unfold owns, first. cbn. lia. Qed.

(** * C80 *)

(** Uniform heat extraction rates and vertical boreholes: the g-function does not depend
    on the segments, it is the mean over the field of the responses of whole boreholes. *)
Theorem C80_segmentation : forall bs ns rs, segmented bs ns rs -> vertical_field bs -> good_ratios rs ->
  forall alpha uw time k, 0 < alpha -> positive time -> (k < length time)%nat ->
  nth k (fst (solve_uhtr (n_sources bs ns rs) (segment_length bs ns rs) (detailed_trf alpha uw bs ns rs) time 0)) 0
  = field_mean alpha (nth k time 0) bs.
Proof. exact uhtr_field. Qed.
Print Assumptions C80_segmentation.
(** It is positive and increases with time. *)
Theorem C80_positive : forall alpha t bs, 0 < alpha -> 0 < t -> bs <> [] -> vertical_field bs -> 0 < field_mean alpha t bs.
Proof. intros alpha t bs A T N V. apply field_mean_pos; auto. apply V. Qed.
Print Assumptions C80_positive.
Theorem C80_increasing : forall alpha t1 t2 bs, 0 < alpha -> 0 < t1 -> t1 < t2 -> bs <> [] -> vertical_field bs ->
  field_mean alpha t1 bs < field_mean alpha t2 bs.
Proof. intros alpha t1 t2 bs A T1 T2 N V. apply field_mean_incr; auto. apply V. Qed.
Print Assumptions C80_increasing.
Example C80_detailed_ex : segmented ex_bs ex_ns ex_rs /\ vertical_field ex_bs /\ good_ratios ex_rs /\ positive [1; 3; 4].
Proof. refine (conj ex_segmented (conj ex_field (conj ex_ratios _))). intros t [<-|[<-|[<-|[]]]]; lra. Qed.
