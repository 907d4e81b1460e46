(** Boreholes: C10 - C13, C19, C59, C60. *)
From Verif Require Import Base Bore_Model Bore_Spec TimeGrid_Spec Bore_Proofs UniqueDist_Proofs.
From Coq Require Import Permutation Relations Sorted.

(** C10: every segment lies on the axis of the borehole, from the sum of the
    ratios above it to that sum plus its own ratio. *)
Theorem C10_segments_on_axis b n o i : bore_ok b -> (i < length (default_ratios n o))%nat ->
  let r := default_ratios n o in let s := nth i (segments b n o) b0 in
  bH s = nth i r 0 * bH b /\ btilt s = btilt b /\ bori s = bori b /\ br s = br b
  /\ head s = axis b (bH b * sumn i (fun k => nth k r 0))
  /\ toe s = axis b (bH b * sumn (S i) (fun k => nth k r 0)).
Proof. exact (segments_axis b n o i). Qed.
Print Assumptions C10_segments_on_axis.

(** C10: consecutive segments touch, and together they are the borehole. *)
Theorem C10_segments_partition b n o : bore_ok b -> Rsum (default_ratios n o) = 1 ->
  let r := default_ratios n o in let s := segments b n o in
  length s = length r
  /\ (forall i, (S i < length s)%nat -> toe (nth i s b0) = head (nth (S i) s b0))
  /\ head (nth 0 s b0) = head b
  /\ toe (nth (length s - 1) s b0) = toe b
  /\ Rsum (map bH s) = bH b.
Proof. exact (segments_partition b n o). Qed.
Print Assumptions C10_segments_partition.

Theorem C10_default_ratios n : (1 <= n)%nat -> Rsum (default_ratios n None) = 1.
Proof. exact (default_ratios_sum n). Qed.
Print Assumptions C10_default_ratios.

Theorem C10_midpoints b n o i : (i < length (default_ratios n o))%nat ->
  nth i (segment_midpoints b n o) 0 = (nth i (segment_edges b n o) 0 + nth (S i) (segment_edges b n o) 0) / 2.
Proof. exact (midpoints_spec b n o i). Qed.
Print Assumptions C10_midpoints.

(** An inclined borehole with three unequal segments. *)
Example C10_example : let b := Bore 150 4 (3/40) 1 2 (1/4) 1 in
  bore_ok b /\ Rsum (default_ratios 3 (Some [1/4; 1/2; 1/4])) = 1.
Proof.
  split; [|cbn; lra]. intros H. exfalso. unfold tilted in H. cbn [btilt] in H. apply Rltb_false in H.
  rewrite Rabs_right in H by lra. lra.
Qed.

(** C11 *)
Theorem C11_distance_partial a b :
  (br a = br b -> bdist a b = bdist b a)
  /\ br a <= bdist a b /\ plane_dist a b <= bdist a b
  /\ (br a <= plane_dist a b -> bdist a b = plane_dist a b)
  /\ (0 <= br a -> bdist a a = br a)
  /\ forall u v, bdist (shift u v a) (shift u v b) = bdist a b.
Proof. exact (dist_props a b). Qed.
Print Assumptions C11_distance_partial.

(** C11: symmetry fails for overlapping boreholes of different radii. *)
Theorem C11_symmetry_refuted : exists a b, bore_ok a /\ bore_ok b /\ 0 < br a /\ 0 < br b /\ bdist a b <> bdist b a.
Proof. exact dist_asym. Qed.
Print Assumptions C11_symmetry_refuted.

Example C11_example : let a := Bore 100 2 1 0 0 0 0 in let b := Bore 100 2 1 3 4 0 0 in
  br a = br b /\ br a <= plane_dist a b.
Proof.
  cbn. split; [reflexivity|]. unfold plane_dist. cbn [bx by_].
  replace ((0 - 3) ^ 2 + (0 - 4) ^ 2) with (5 * 5) by ring. rewrite sqrt_square; lra.
Qed.

(** C12 *)
Theorem C12_find_duplicates f r : is_max_radius f r ->
  exists ps, find_duplicates f = Some ps /\ StronglySorted lex_lt ps
    /\ forall i j, In (i, j) ps <-> dup_pair f r i j.
Proof. exact (find_duplicates_spec f r). Qed.
Print Assumptions C12_find_duplicates.

(** C13 *)
Theorem C13_remove_duplicates f r : is_max_radius f r ->
  exists ks, remove_duplicates f = Some (map (fun k => nth k f b0) ks)
    /\ StronglySorted lt ks
    /\ (forall k, In k ks <-> (k < length f)%nat /\ forall i, ~ dup_pair f r i k).
Proof. exact (remove_spec f r). Qed.
Print Assumptions C13_remove_duplicates.

(** C13: the boreholes kept are apart, and every borehole is linked by
    duplicates to one that is kept. *)
Theorem C13_no_duplicates_left f r ks :
  (forall k, In k ks <-> (k < length f)%nat /\ forall i, ~ dup_pair f r i k) ->
  (forall i j, In i ks -> In j ks -> i <> j -> r <= plane_dist (nth i f b0) (nth j f b0))
  /\ (forall j, (j < length f)%nat -> exists k, In k ks /\ (k <= j)%nat /\ clos_refl_trans nat (dup_pair f r) k j).
Proof. exact (remove_clean f r ks). Qed.
Print Assumptions C13_no_duplicates_left.

Theorem C13_identity f r : is_max_radius f r -> (forall i j, ~ dup_pair f r i j) -> remove_duplicates f = Some f.
Proof. exact (remove_identity f r). Qed.
Print Assumptions C13_identity.

Theorem C13_idempotent f g : remove_duplicates f = Some g -> remove_duplicates g = Some g.
Proof. exact (remove_idempotent f g). Qed.
Print Assumptions C13_idempotent.

(** A field of three boreholes with one duplicate pair. *)
Example C12_C13_example : let f := [Bore 100 2 1 0 0 0 0; Bore 100 2 (1/2) (1/2) 0 0 0; Bore 100 2 1 5 0 0 0] in
  is_max_radius f 1 /\ dup_pair f 1 0 1 /\ ~ dup_pair f 1 0 2 /\ ~ dup_pair f 1 1 2.
Proof.
  assert (Q : forall u v w, 0 <= w -> u ^ 2 + v ^ 2 = w * w -> sqrt (u ^ 2 + v ^ 2) = w).
  { intros u v w Hw ->. now apply sqrt_square. }
  cbn zeta. repeat split.
  - exists (Bore 100 2 1 0 0 0 0). split; [now left|reflexivity].
  - intros b [<-|[<-|[<-|[]]]]; cbn [br]; lra.
  - lia.
  - cbn [length]. lia.
  - unfold plane_dist. cbn [nth bx by_]. rewrite (Q _ _ (1/2)); lra.
  - intros [_ H]. unfold plane_dist in H. cbn [nth bx by_] in H. rewrite (Q _ _ 5) in H; lra.
  - intros [_ H]. unfold plane_dist in H. cbn [nth bx by_] in H. rewrite (Q _ _ (9/2)) in H; lra.
Qed.

(** C19 *)
Theorem C19_unique_distance tol b t : 0 < tol -> 0 < er b ->
  length (ex b) = length (ey b) -> length (ex t) = length (ey t) ->
  exists ds ws, (forall f, (length (ex b) * length (ex t) <= f)%nat -> unique_distance f tol b t = Some (ds, ws))
    /\ distance_classes tol (group_distances b t) ds ws.
Proof. exact (unique_distance_main tol b t). Qed.
Print Assumptions C19_unique_distance.

Theorem C19_classes tol all ds ws : 0 < tol -> (forall x, In x all -> 0 < x) ->
  distance_classes tol all ds ws ->
  fold_right Nat.add O ws = length all /\ length ds = length ws /\ strictly_increasing ds
  /\ Rsum (map (fun p => fst p * INR (snd p)) (combine ds ws)) = Rsum all
  /\ (forall x, In x all -> exists k, (k < length ds)%nat /\ Rabs (x - nth k ds 0) < tol * x).
Proof. exact (classes_consequences tol all ds ws). Qed.
Print Assumptions C19_classes.

(** C19: with a tolerance of zero, distances 5 and 10 end up in one class. *)
Theorem C19_zero_tolerance_refuted : exists b t f ds ws, 0 < er b
  /\ unique_distance f 0 b t = Some (ds, ws) /\ ds = [(5 + 10) / 2] /\ ws = [2%nat]
  /\ group_distances b t = [5; 10].
Proof. exact unique_distance_zero_tol. Qed.
Print Assumptions C19_zero_tolerance_refuted.

Example C19_example : let b := EBore 100 2 1 [0; 5] [0; 0] 0 [0; 0] in
  0 < er b /\ length (ex b) = length (ey b) /\ length (group_distances b b) = 4%nat.
Proof. cbn. repeat split. lra. Qed.

(** C59: the tuple (H, D, r_b, x, y) documented for equivalent boreholes is
    refused; seven attributes are needed. *)
Theorem C59_five_tuple_refuted : exists H D r x y, eb_of_tuple H D r x y None = None.
Proof. exists 100, 2, 1, [0], [0]. reflexivity. Qed.
Print Assumptions C59_five_tuple_refuted.

Theorem C59_seven_tuple_partial H D r x y t o : exists e, eb_of_tuple H D r x y (Some (t, o)) = Some e
  /\ forall k, member e k = Bore H D r (nth k x 0) (nth k y 0) t (nth k o 0).
Proof. eexists. split; [reflexivity|]. intros k. reflexivity. Qed.
Print Assumptions C59_seven_tuple_partial.

(** C60: an equivalent borehole stands for its boreholes, one by one. *)
Theorem C60_members l e k : eb_of_bores l = Some e ->
  (forall b, In b l -> bH b = bH (hd b0 l) /\ bD b = bD (hd b0 l) /\ br b = br (hd b0 l) /\ btilt b = btilt (hd b0 l)) ->
  (k < length l)%nat -> length (ex e) = length l /\ length (ey e) = length l /\ length (eori e) = length l
  /\ member e k = nth k l b0.
Proof. exact (eb_of_bores_member l e k). Qed.
Print Assumptions C60_members.

(** C60: its segments are the segments of each of its boreholes. *)
Theorem C60_segments e n o k : length (ex e) = length (ey e) -> length (eori e) = length (ex e) ->
  (k < length (ex e))%nat -> bore_ok (member e k) ->
  map (fun s => member s k) (eb_segments e n o) = segments (member e k) n o.
Proof. exact (eb_segments_member e n o k). Qed.
Print Assumptions C60_segments.

(** C60: merging two equivalent boreholes of the same dimensions appends them. *)
Theorem C60_merge a c e k : eb_of_ebores [a; c] = Some e ->
  length (ex a) = length (ey a) -> length (eori a) = length (ex a) ->
  eH a = eH c -> eD a = eD c -> er a = er c -> etilt a = etilt c ->
  member e k = if (k <? length (ex a))%nat then member a k else member c (k - length (ex a)).
Proof. exact (eb_merge_members a c e k). Qed.
Print Assumptions C60_merge.

Example C60_example : let l := [Bore 100 2 1 0 0 (1/4) 1; Bore 100 2 1 5 0 (1/4) 2] in
  exists e, eb_of_bores l = Some e /\ length (ex e) = 2%nat /\ member e 1 = nth 1 l b0.
Proof. eexists. split; [reflexivity|]. split; reflexivity. Qed.
