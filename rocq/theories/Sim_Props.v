(** Properties of the similarities solver: C50 to C53. *)
From Coq Require Import Lra Lia.
From Verif Require Import Base LinAlg FLS_Model FLS_Spec.
From Verif Require Import Bore_Model Solve_Model Detailed_Model Detailed_Spec Detailed_Proofs Sim_Model Sim_Spec
  Sim_Dist_Proofs Sim_Group_Proofs Sim_Matrix_Proofs Sim_Sol_Proofs Sim_All_Proofs Sim_Fill_Proofs Sim_Kernel_Proofs
  Sim_Incl_Proofs Sim_Single_Proofs Sim_Skew_Proofs Sim_Flat_Proofs Sim_Step_Proofs Sim_Final_Proofs.

(** * C50 *)

(** Every borehole is in exactly one group, and so is every pair of boreholes. *)
Theorem C50_once : forall tol disTol bs ns rs,
  ((0 < length bs)%nat -> each_once (length bs) (concat (fst (self_groups tol bs ns rs)) ++ concat (snd (self_groups tol bs ns rs)))) /\
  each_pair_once (length bs) (concat (fst (pair_groups tol disTol bs ns rs)) ++ concat (snd (pair_groups tol disTol bs ns rs))).
Proof. intros. split; [apply selfs_once|apply pairs_once]. Qed.
Print Assumptions C50_once.

(** The groups solved with the vertical solution have vertical boreholes only, the others
    have at least one inclined borehole. *)
Theorem C50_kinds : forall tol disTol bs ns rs,
  let vert a := vertical (nth a bs no_bore) in
  (forall a b, In (a, b) (concat (fst (pair_groups tol disTol bs ns rs))) -> vert a = true /\ vert b = true) /\
  (forall a b, In (a, b) (concat (snd (pair_groups tol disTol bs ns rs))) -> vert a = false \/ vert b = false).
Proof.
  intros tol disTol bs ns rs vert. destruct (pair_kinds tol disTol bs ns rs) as [P Q]. split; intros a b H.
  - specialize (P _ H). unfold both_vertical in P. apply andb_true_iff in P. auto.
  - specialize (Q _ H). unfold both_vertical in Q. apply andb_false_iff in Q. auto.
Qed.
Print Assumptions C50_kinds.

(** When the segments of each borehole are at distinct depths there is a matrix, and
    every entry of it is written. *)
Theorem C50_filled : forall tol disTol bs ns rs kv ki, segmented bs ns rs -> (0 < length bs)%nat ->
  (forall i, (i < length bs)%nat -> (0 < nth i ns 0)%nat) -> (forall s, In s (borehole_segments bs ns rs) -> 0 < bH s) ->
  (forall d p, 0 < kv d p) -> (forall p, 0 < ki p) -> (forall b, In b bs -> 0 < br b) -> 0 < disTol ->
  depths_apart tol bs ns rs ->
  exists m, sim_matrix tol disTol bs ns rs kv ki = Some m /\
    forall r c, (r < list_sum ns)%nat -> (c < list_sum ns)%nat -> 0 < m r c.
Proof.
  intros tol disTol bs ns rs kv ki W Ne Np Ps Pv Pi Pr Pd Da.
  destruct (matrix_exists tol disTol bs ns rs kv ki W Ne Np Da Pd Pr) as [m E]. exists m. split; auto.
  intros r c Hr Hc. apply (all_written tol disTol bs ns rs kv ki W Ne Pv Pi); auto. intros i a Hi Ha. apply Ps.
  destruct (segments_all bs ns rs W) as [L S]. unfold sg. rewrite <- S by auto. apply nth_In. rewrite L.
  destruct W as [L1 _]. pose proof (first_le ns i ltac:(lia)). lia.
Qed.
Print Assumptions C50_filled.

(** Every entry of a matrix is written, whatever the field. *)
Theorem C50_written : forall tol disTol bs ns rs kv ki m, segmented bs ns rs -> (0 < length bs)%nat ->
  (forall i, (i < length bs)%nat -> (0 < nth i ns 0)%nat) -> (forall s, In s (borehole_segments bs ns rs) -> 0 < bH s) ->
  (forall d p, 0 < kv d p) -> (forall p, 0 < ki p) ->
  sim_matrix tol disTol bs ns rs kv ki = Some m -> forall r c, (r < list_sum ns)%nat -> (c < list_sum ns)%nat -> 0 < m r c.
Proof.
  intros tol disTol bs ns rs kv ki m W Ne Np Ps Pv Pi E r c Hr Hc. apply (all_written tol disTol bs ns rs kv ki W Ne Pv Pi); auto. intros i a Hi Ha. apply Ps.
  destruct (segments_all bs ns rs W) as [L S]. unfold sg. rewrite <- S by auto. apply nth_In. rewrite L.
  destruct W as [L1 _]. pose proof (first_le ns i ltac:(lia)). lia.
Qed.
Print Assumptions C50_written.

Lemma posts_sizes D s : 0 <= D -> In s (borehole_segments (posts D) post_ns post_rs) -> bH s = 50 /\ 0 <= bD s.
Proof.
  intros HD. unfold posts, post_ns, post_rs. cbn [borehole_segments]. rewrite !post_segs_at. cbn [app In].
  intros Hs. decompose [or] Hs; subst; cbn; try contradiction; lra.
Qed.
Example C50_ex : segmented (posts 1) post_ns post_rs /\ (forall s, In s (borehole_segments (posts 1) post_ns post_rs) -> 0 < bH s) /\
  (forall b, In b (posts 1) -> 0 < br b) /\ 0 < skew_dis /\ depths_apart skew_tol (posts 1) post_ns post_rs /\ list_sum post_ns = 6%nat.
Proof.
  refine (conj (post_segmented 1) (conj _ (conj _ (conj _ (conj post_depths eq_refl))))).
  - intros s Hs. destruct (posts_sizes 1 s ltac:(lra) Hs). lra.
  - intros b [<-|[<-|[<-|[]]]]; cbn; lra.
  - unfold skew_dis. lra.
Qed.

(** Two horizontal boreholes of lengths 100 and 50 m, 10 m apart, with two segments each:
    an index is out of range and there is no matrix, whatever the solutions. *)
Theorem C50_refuted : exists bs ns rs, segmented bs ns rs /\ good_ratios rs /\ length bs = 2%nat /\
  (forall b, In b bs -> 50 <= bH b <= 100 /\ bD b = 4 /\ br b = 3 / 40 /\ btilt b = PI / 2) /\
  planar (nth 0 bs no_bore) (nth 1 bs no_bore) = 10 /\
  forall kv ki, sim_matrix (/ 10 ^ 6) (1 / 100) bs ns rs kv ki = None.
Proof.
  exists flat_field, flat_ns, flat_rs. split; [|split; [|split; [reflexivity|split; [|split]]]].
  - repeat split; auto. intros [|[|i]] Hi; cbn in *; auto; lia.
  - intros r [<-|[<-|[]]]; (split; [cbn; lra|intros x [<-|[<-|[]]]; lra]).
  - intros b [<-|[<-|[]]]; cbn; lra.
  - unfold planar. cbn [nth flat_field flat bx by_]. replace ((0 - 0) ^ 2 + (0 - 10) ^ 2) with (10 * 10) by ring. apply sqrt_square. lra.
  - exact flat_none.
Qed.
Print Assumptions C50_refuted.

(** * C51 *)

(** Vertical boreholes of which those of the same length are at the same depth, all
    lengths, depths, radii and distances that are not equal being further apart than the
    tolerances: the matrix is that of the detailed solver. *)
Theorem C51_exact : forall alpha t tol disTol u M bs ns rs uw, segmented bs ns rs -> vertical_field bs -> good_ratios rs ->
  on_grid tol u M bs ns rs -> radii_apart tol bs -> ratios_apart tol rs -> 0 < disTol -> (0 < length bs)%nat -> level bs ->
  distances_apart disTol bs ->
  exists m, sim_matrix tol disTol bs ns rs (kernel_v alpha t) (kernel_i alpha t uw) = Some m /\
    forall r c, (r < list_sum ns)%nat -> (c < list_sum ns)%nat -> m r c = detailed_matrix (line_kernel alpha t uw) bs ns rs r c.
Proof. intros. eapply sim_exact; eauto. Qed.
Print Assumptions C51_exact.

(** With any distances, an entry is between the solutions at a distance larger and at a
    distance smaller by the tolerance. *)
Theorem C51_tolerance : forall alpha t tol disTol u M bs ns rs uw, 0 < alpha -> 0 < t ->
  segmented bs ns rs -> vertical_field bs -> good_ratios rs ->
  on_grid tol u M bs ns rs -> radii_apart tol bs -> ratios_apart tol rs -> 0 < disTol -> (0 < length bs)%nat -> level bs ->
  exists m, sim_matrix tol disTol bs ns rs (kernel_v alpha t) (kernel_i alpha t uw) = Some m /\
    forall r c a b, (a < length bs)%nat -> (b < length bs)%nat -> owns ns a r -> owns ns b c ->
      let seg k := nth k (borehole_segments bs ns rs) no_bore in
      let sol d := fls t alpha d (bH (seg c)) (bD (seg c)) (bH (seg r)) (bD (seg r)) true true in
      let d := planar (nth a bs no_bore) (nth b bs no_bore) in
      let exact_value := detailed_matrix (line_kernel alpha t uw) bs ns rs r c in
      (a = b -> m r c = exact_value) /\
      (a <> b -> sol ((1 + disTol) * d) < m r c < sol (d / (1 + disTol)) /\ exact_value = sol d).
Proof. intros. eapply sim_bracket; eauto. Qed.
Print Assumptions C51_tolerance.

Example C51_ex : segmented (posts 1) post_ns post_rs /\ vertical_field (posts 1) /\ good_ratios post_rs /\ on_grid (/ 10 ^ 6) 1 100 (posts 1) post_ns post_rs /\
  radii_apart (/ 10 ^ 6) (posts 1) /\ ratios_apart (/ 10 ^ 6) post_rs /\ level (posts 1) /\ distances_apart (1 / 100) (posts 1) /\ length (posts 1) = 3%nat.
Proof.
  refine (conj (post_segmented 1) (conj (post_field 1 _) (conj post_ratios (conj (post_grid 1 _) (conj (post_radii 1) (conj post_split (conj post_level (conj (post_far 1) eq_refl)))))))); [lra|lia].
Qed.

(** Everything but the depths of the boreholes of the same length: three boreholes of
    100 m, the second one buried at 3 m and the others at 1 m.  The third borehole gets the
    response of the deeper of two segments to the shallower one. *)
Theorem C51_refuted : exists bs ns rs, segmented bs ns rs /\ vertical_field bs /\ good_ratios rs /\ on_grid (/ 10 ^ 6) 1 100 bs ns rs /\
  radii_apart (/ 10 ^ 6) bs /\ ratios_apart (/ 10 ^ 6) rs /\ distances_apart (1 / 100) bs /\
  forall alpha t uw, 0 < alpha -> 0 < t -> exists m r c,
    sim_matrix (/ 10 ^ 6) (1 / 100) bs ns rs (kernel_v alpha t) (kernel_i alpha t uw) = Some m /\
    (r < list_sum ns)%nat /\ (c < list_sum ns)%nat /\ m r c < detailed_matrix (line_kernel alpha t uw) bs ns rs r c.
Proof.
  exists (posts 3), post_ns, post_rs.
  refine (conj (post_segmented 3) (conj (post_field 3 _) (conj post_ratios (conj (post_grid 3 _) (conj (post_radii 3) (conj post_split (conj (post_far 3) _))))))); [lra|lia|].
  intros alpha t uw Ha Ht. destruct (post_wrong alpha t uw Ha Ht) as [m [E L]]. exists m, 5%nat, 2%nat. cbn [list_sum post_ns fold_right]. repeat split; auto; cbn; lia.
Qed.
Print Assumptions C51_refuted.

(** Three boreholes of the same length, depth, radius and inclination in a row.  All of them
    lean at 60 degrees from the line through their heads, the last one to the other side.
    Two neighbours that lean to the same side and two neighbours that lean apart get the
    same value: the entry of the second pair exceeds the response of its own segments, both
    with the quadrature rule and with the exact integral. *)
Theorem C51_inclined_refuted : exists bs ns rs, segmented bs ns rs /\ good_ratios rs /\
  (forall b, In b bs -> bH b = 100 /\ bD b = 4 /\ br b = 3 / 40 /\ btilt b = PI / 6) /\ distances_apart (1 / 100) bs /\
  let seg k := nth k (borehole_segments bs ns rs) no_bore in
  forall alpha t, 0 < alpha -> 0 < t ->
    (forall uw, good_rule uw -> exists m r c,
       sim_matrix (/ 10 ^ 6) (1 / 100) bs ns rs (kernel_v alpha t) (kernel_i alpha t uw) = Some m /\
       (r < list_sum ns)%nat /\ (c < list_sum ns)%nat /\ kernel_i alpha t uw (seg c, seg r) < m r c) /\
    (exists m r c,
       sim_matrix (/ 10 ^ 6) (1 / 100) bs ns rs (kernel_v alpha t) (kernel_exact alpha t) = Some m /\
       (r < list_sum ns)%nat /\ (c < list_sum ns)%nat /\ kernel_exact alpha t (seg c, seg r) < m r c).
Proof.
  exists skew_field, skew_ns, skew_rs. split; [|split; [|split; [|split]]].
  - repeat split; auto. intros [|[|[|i]]] Hi; cbn in *; auto; lia.
  - intros r [<-|[<-|[<-|[]]]]; (split; [cbn; lra|intros x [<-|[]]; lra]).
  - intros b [<-|[<-|[<-|[]]]]; cbn; auto.
  - assert (V : forall x, field_distance skew_field x -> x = 5 \/ x = 10).
    { intros x [a [b [Ha [Hb [N ->]]]]]. destruct a as [|[|[|a]]], b as [|[|[|b]]]; cbn in Ha, Hb; try lia; cbn [nth skew_field]; unfold planar, skew; cbn [bx by_]; rewrite line_dist;
        unfold Rabs; destruct Rcase_abs; try lra; auto. }
    intros x y Hx Hy L. destruct (V x Hx), (V y Hy); lra.
  - intros seg alpha t Ha Ht. split.
    + intros uw G. destruct (skew_wrong uw alpha t (kernel_v alpha t) G Ha Ht) as [m [E L]]. exists m, 2%nat, 1%nat. repeat split; auto; cbn; lia.
    + destruct (skew_wrong_exact alpha t (kernel_v alpha t) Ha Ht) as [m [E L]]. exists m, 2%nat, 1%nat. repeat split; auto; cbn; lia.
Qed.
Print Assumptions C51_inclined_refuted.

Example C51_rule_ex : good_rule [(1 / 4, 1 / 2); (3 / 4, 1 / 2)].
Proof. split; [discriminate|]. intros c [<-|[<-|[]]]; cbn; lra. Qed.

(** * C52 *)

(** The search ends, every distance has a class, and the representative distance of the
    class is within the tolerance of it. *)
Theorem C52_classes : forall tol all, 0 < tol -> (forall x, In x all -> 0 < x) ->
  exists ds ind, find_distances (length all) tol all = Some (ds, ind) /\ length ind = length all /\
    forall q, (q < length all)%nat -> (nth q ind O < length ds)%nat /\
      let x := nth q all 0 in let y := nth (nth q ind O) ds 0 in
      class_mean tol (fun z => In z all) x y /\ Rabs (x - y) < tol * x.
Proof.
  intros tol all Ht P. destruct (find_distances_classes tol all Ht P) as [ds [ind [E [L Q]]]]. exists ds, ind. split; auto. split; auto.
  intros q Hq. destruct (Q q Hq) as [A B]. split; auto. cbv zeta. split; auto. apply (class_mean_close tol (fun z => In z all)); auto.
Qed.
Print Assumptions C52_classes.
Example C52_ex : 0 < 1 / 100 /\ (forall x, In x [5; 5 * sqrt 2; 10; 5] -> 0 < x).
Proof.
  split; [lra|]. pose proof (sqrt_lt_R0 2 ltac:(lra)). intros x [<-|[<-|[<-|[<-|[]]]]]; lra.
Qed.

(** * C53 *)

(** With more than one borehole, the inclined ones are solved as inclined. *)
Theorem C53_several : forall tol bs ns rs a, (1 < length bs)%nat -> (a < length bs)%nat ->
  (vertical (nth a bs no_bore) = true <-> In a (concat (fst (self_groups tol bs ns rs)))) /\
  (vertical (nth a bs no_bore) = false <-> In a (concat (snd (self_groups tol bs ns rs)))).
Proof.
  intros tol bs ns rs a L La. destruct (self_kinds tol bs ns rs L) as [P Q]. destruct (selfs_once tol bs ns rs ltac:(lia)) as [_ O].
  pose proof (proj2 (O a) La) as I. apply in_app_iff in I.
  split; (split; [intros V; destruct I as [I|I]; auto; exfalso; (apply P in I || apply Q in I); congruence|auto]).
Qed.
Print Assumptions C53_several.
Example C53_several_ex : (1 < length skew_field)%nat /\ vertical (nth 1 skew_field no_bore) = false.
Proof. split; [cbn; lia|]. unfold vertical. cbn [nth skew_field btilt skew]. rewrite skew_tilted. auto. Qed.

(** A single borehole is solved as vertical whatever its inclination: with one segment its
    value does not depend on the inclination, and is larger than the solution for the
    inclined borehole. *)
Theorem C53_single : forall tol disTol b ki, 0 < bH b -> 0 < bD b -> 0 < br b -> 0 < btilt b <= PI / 2 ->
  forall alpha t, 0 < alpha -> 0 < t ->
  exists m, sim_matrix tol disTol [b] [1%nat] [[1]] (kernel_v alpha t) ki = Some m /\
    m 0%nat 0%nat = fls t alpha (br b) (bH b) (bD b) (bH b) (bD b) true true /\
    fls_inclined (to_bh b) (to_bh b) exact t alpha true true < m 0%nat 0%nat.
Proof.
  intros tol disTol b ki PH PD Pr T alpha t Ha Ht. destruct (single_value tol disTol b (kernel_v alpha t) ki) as [m [s [E [V [S1 S2]]]]].
  exists m. split; auto. unfold kernel_v in V. cbn [fst snd] in V. rewrite S1, S2 in V. split; auto. rewrite V.
  apply (tilt_lower (to_bh b)); auto.
Qed.
Print Assumptions C53_single.
Example C53_single_ex : let b := Bore 100 4 (3 / 40) 0 0 (PI / 6) 0 in 0 < bH b /\ 0 < bD b /\ 0 < br b /\ 0 < btilt b <= PI / 2.
Proof. pose proof PI2_3_2. cbn. lra. Qed.

Theorem C53_refuted : exists b, tilted (btilt b) = true /\ forall alpha t, 0 < alpha -> 0 < t -> exists m,
  (forall ki, sim_matrix (/ 10 ^ 6) (1 / 100) [b] [1%nat] [[1]] (kernel_v alpha t) ki = Some m) /\
  m 0%nat 0%nat <> fls_inclined (to_bh b) (to_bh b) exact t alpha true true.
Proof.
  exists (Bore 100 4 (3 / 40) 0 0 (PI / 6) 0). split; [exact skew_tilted|]. intros alpha t Ha Ht. pose proof C53_single_ex as [A [B [C D]]].
  destruct (C53_single (/ 10 ^ 6) (1 / 100) _ (fun _ => 0) A B C D alpha t Ha Ht) as [m [E [_ L]]].
  exists m. split; [|lra]. intros ki. rewrite (single_any _ _ _ _ _ _ ki (fun _ => 0)). auto.
Qed.
Print Assumptions C53_refuted.
