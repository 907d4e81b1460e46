(** Properties of the solver of equivalent boreholes: C54, C55, C81, C82, C83. *)
From Coq Require Import Lra Lia Permutation.
From Verif Require Import Base TimeGrid_Spec LinAlg FLS_Model FLS_Spec.
From Verif Require Import Bore_Model Solve_Model Solve_Spec Detailed_Model Detailed_Spec Sim_Model Sim_Spec Eq_Model Eq_Spec
  Eq_Group_Proofs Eq_Cluster_Proofs Eq_Mix_Proofs Eq_Dist_Proofs Eq_Field_Proofs Eq_Main_Proofs Eq_Heat_Proofs Eq_Sym_Proofs Eq_Square_Proofs Eq_Final_Proofs.

(** * C54 *)

(** Every borehole is in one of the equivalent boreholes, and none of them is empty. *)
Theorem C54_partition : forall link kC tol bs, agglomerative link -> (0 < length bs)%nat ->
  exists ls E, equivalent_boreholes link kC tol bs = Some E /\ gathers bs ls E.
Proof. intros link kC tol bs Ag H. destruct (partition_main link kC tol Ag bs H) as [ls [E [A [B _]]]]. eauto. Qed.
Print Assumptions C54_partition.

(** Fields in which the boreholes of the same dimensions follow each other: the members of
    an equivalent borehole have the same dimensions, and the length is conserved. *)
Theorem C54_same : forall link kC tol bs, agglomerative link -> (0 < length bs)%nat -> 0 < tol -> dims_apart tol bs -> in_blocks bs ->
  (forall b, In b bs -> 0 < bH b /\ 0 <= bD b /\ 0 < br b) ->
  exists ls E, equivalent_boreholes link kC tol bs = Some E /\ gathers bs ls E /\
    (forall p q, (p < length bs)%nat -> (q < length bs)%nat -> nth p ls O = nth q ls O -> same_dims (nth p bs no_bore) (nth q bs no_bore)) /\
    equivalent_length E = total_length bs.
Proof.
  intros link kC tol bs Ag H Ht Da Bl P. destruct (blocks_main link kC tol Ag bs H Ht Da Bl P) as [ls [E [A [B C]]]]. exists ls, E. repeat (split; auto).
  apply (length_conserved bs ls E B C).
Qed.
Print Assumptions C54_same.

(** The lengths of the segments of the sources add up to the length of the field. *)
Theorem C54_segments : forall link kC tol disTol u M alpha bs n r, agglomerative link -> regular_field tol disTol u M bs n r ->
  exists E L h, equivalent link kC tol disTol alpha bs n r = Some (E, L, h) /\ sumn (n * length E) L = total_length bs.
Proof.
  intros link kC tol disTol u M alpha bs n r Ag Rf. destruct (regular_some link kC tol disTol u M alpha bs n r Ag Rf) as [ls [E [dis [A [B [C _]]]]]].
  eexists. eexists. eexists. split; [exact A|]. destruct Rf as [Nb [Vf [Lr [Gr _]]]]. apply (lengths_total bs ls); auto. apply (Gr r). left; auto.
Qed.
Print Assumptions C54_segments.

Example C54_ex : agglomerative plain_link /\ (0 < length square)%nat /\ dims_apart (/ 10 ^ 6) square /\ in_blocks square /\ (forall b, In b square -> 0 < bH b /\ 0 <= bD b /\ 0 < br b) /\
  regular_field (/ 10 ^ 6) (1 / 100) 1 100 square 2 [1 / 2; 1 / 2] /\
  exists E, equivalent_boreholes plain_link 1 (/ 10 ^ 6) square = Some E /\ length E = 1%nat.
Proof.
  pose proof square_regular as Rf. refine (conj plain_ok (conj _ (conj (regular_dims _ _ _ _ _ _ _ Rf) (conj _ (conj _ (conj Rf _)))))).
  - cbn; lia.
  - apply Rf.
  - intros b I. destruct (proj1 (proj1 (proj2 Rf)) b I) as [_ V]. tauto.
  - eexists. split; [apply square_boreholes, plain_ok|reflexivity].
Qed.

(** Four boreholes at the corners of a square of 5 m, of lengths 100, 50, 100 and 50 m: with
    every clustering the first two are gathered and both count as 100 m, and the length of
    the equivalent boreholes is 400 m instead of 300 m. *)
Theorem C54_refuted : exists bs, length bs = 4%nat /\ (forall b, In b bs -> (bH b = 100 \/ bH b = 50) /\ bD b = 4 /\ br b = 3 / 40 /\ btilt b = 0) /\
  dims_apart (/ 10 ^ 6) bs /\
  forall link kC, agglomerative link -> exists ls E, equivalent_boreholes link kC (/ 10 ^ 6) bs = Some E /\ gathers bs ls E /\
    nth 0 ls O = nth 1 ls O /\ bH (nth 0 bs no_bore) = 100 /\ bH (nth 1 bs no_bore) = 50 /\
    equivalent_length E = 400 /\ total_length bs = 300.
Proof.
  exists mix_field. split; [reflexivity|]. split; [|split].
  - intros b I. cbn in I. decompose [or] I; subst; try contradiction; cbn; repeat split; auto.
  - intros a b Ia Ib H _ _. assert (Q : forall c, In c mix_field -> (bH c = 100 \/ bH c = 50) /\ bD c = 4 /\ br c = 3 / 40) by (intros c I; cbn in I; decompose [or] I; subst; try contradiction; cbn; repeat split; auto).
    destruct (Q a Ia) as [[A1|A1] [A2 A3]], (Q b Ib) as [[B1|B1] [B2 B3]]; unfold same_dims; rewrite A1, B1 in *; repeat split; try congruence; exfalso; unfold Rabs in H; destruct Rcase_abs; lra.
  - intros link kC Ag. exists [0; 0; 1; 1]%nat. eexists. split; [apply mix_wrong; auto|]. split; [|split; [reflexivity|split; [reflexivity|split; [reflexivity|]]]].
    + split; auto. split; [intros [|[|[|[|k]]]] Hk; cbn in *; lia|]. intros [|[|i]] Hi; cbn in Hi; [| |lia]; cbn; repeat split; try reflexivity; discriminate.
    + unfold equivalent_length, total_length. cbn. lra.
Qed.
Print Assumptions C54_refuted.

(** * C55 *)

(** The weights count every distance at the closest of the distances. *)
Theorem C55_weights : forall dis l, dis <> [] -> strictly_increasing dis ->
  exists w, weights dis l = Some w /\ counts dis l w /\ list_sum w = length l.
Proof.
  intros dis l N Si. destruct (weights_count dis l N) as [w [A B]].
  - intros i j Hij Hj. induction j as [|j IH]; [assert (i = O) by lia; subst; lra|]. destruct (Nat.eq_dec i (S j)) as [->|Nq]; [lra|].
    apply Rle_trans with (nth j dis 0); [apply IH; lia|]. left. apply Si. lia.
  - exists w. split; auto. split; auto. apply (counts_total dis); auto.
Qed.
Print Assumptions C55_weights.

(** The distances that are counted are those of every pair of different boreholes. *)
Theorem C55_pairs : forall E i j, (i < length E)%nat -> (j < length E)%nat ->
  (forall k, (k < length E)%nat -> length (ex (nth k E (EBore 0 0 0 [] [] 0 []))) = length (ey (nth k E (EBore 0 0 0 [] [] 0 [])))) ->
  let N k := length (ex (nth k E (EBore 0 0 0 [] [] 0 []))) in
  pair_distances E i j = distances_between E i j /\
  length (pair_distances E i j) = if Nat.eqb i j then (N i * (N i - 1))%nat else (N i * N j)%nat.
Proof. intros E i j Hi Hj L N. split; [apply pair_distances_are; auto|apply distances_number; auto]. Qed.
Print Assumptions C55_pairs.

(** Every distance of the field is within the tolerance of the closest one, and equal to it
    if the distances are further apart than the tolerance. *)
Theorem C55_close : forall tol bs, 0 < tol -> vertical_field bs -> spaced tol bs -> (0 < length bs)%nat ->
  exists dis, field_distances tol bs = Some dis /\ strictly_increasing dis /\
  forall a b, (a < length bs)%nat -> (b < length bs)%nat -> a <> b ->
    let d := planar (nth a bs no_bore) (nth b bs no_bore) in
    let d' := nth (closest dis d) dis 0 in
    Rabs (d - d') < tol * d /\ (distances_apart tol bs -> d' = d).
Proof.
  intros tol bs Ht V Sp Nb. destruct (field_main tol bs Ht Nb) as [dis [A [B [C D]]]]; auto; [apply (proj1 V), nth_In; auto|].
  exists dis. split; auto. split; auto. intros a b Ha Hb N d d'. destruct (D a b Ha Hb N) as [k [Hk [Ck Xk]]]. fold d in Ck, Xk.
  assert (Nd : dis <> []) by (intros ->; cbn in Hk; lia). destruct (closest_spec dis d Nd (increasing_of bs Nb dis B)) as [C1 C2]. specialize (C2 k Hk). fold d' in C2.
  split; [lra|]. intros Ap. specialize (Xk Ap). rewrite Xk, Rminus_eq_0, Rabs_R0 in C2.
  destruct (Req_dec (d - d') 0) as [Z|Z]; [lra|]. apply Rabs_pos_lt in Z. lra.
Qed.
Print Assumptions C55_close.

Example C55_ex : [5; 7; 10] <> [] /\ strictly_increasing [5; 7; 10] /\ 0 < 1 / 100 /\ vertical_field square /\ spaced (1 / 100) square /\ distances_apart (1 / 100) square /\ length square = 4%nat.
Proof.
  split; [discriminate|]. split; [intros [|[|[|k]]] Hk; cbn in *; try lra; lia|]. split; [lra|]. pose proof square_regular as Rf.
  split; [apply Rf|]. split; [apply Rf|]. split; [apply square_apart|reflexivity].
Qed.

(** * C81 *)

(** The response factors of the equivalent boreholes are the means, over the boreholes of the
    receiving one, of the sums over the boreholes of the emitting one of the response
    factors of the detailed solver. *)
Theorem C81_exact : forall link kC tol disTol u M alpha bs n r, agglomerative link -> regular_field tol disTol u M bs n r -> distances_apart disTol bs -> 0 < alpha ->
  exists ls E L h, equivalent link kC tol disTol alpha bs n r = Some (E, L, h) /\ gathers bs ls E /\
  forall t uw, 0 < t -> exists m, h t = Some m /\
    forall i j a b, (i < length E)%nat -> (j < length E)%nat -> (a < n)%nat -> (b < n)%nat ->
      m (n * j + b)%nat (n * i + a)%nat
      = block_mean ls (length bs) i j (fun x y => detailed_matrix (line_kernel alpha t uw) bs (repeat n (length bs)) (repeat r (length bs)) (n * y + b)%nat (n * x + a)%nat).
Proof.
  intros link kC tol disTol u M alpha bs n r Ag Rf Ap Ha. destruct (regular_some link kC tol disTol u M alpha bs n r Ag Rf) as [ls [E [dis [A [B [C D]]]]]].
  exists ls, E. eexists. eexists. split; [exact A|]. split; auto. intros t uw Ht. destruct Rf as [Nb [Vf [Lr [Gr [Og [Rd [Lev [Bl [Hd Sp]]]]]]]]].
  exact (matrix_exact tol disTol u M bs ls E n r alpha t B C Vf Lr Gr Og Rd Lev Nb Hd Sp Ha Ht dis uw D Ap).
Qed.
Print Assumptions C81_exact.

(** With any distances, they are between the means for distances larger and smaller by the
    tolerance. *)
Theorem C81_tolerance : forall link kC tol disTol u M alpha bs n r, agglomerative link -> regular_field tol disTol u M bs n r -> disTol < 1 -> 0 < alpha ->
  exists ls E L h, equivalent link kC tol disTol alpha bs n r = Some (E, L, h) /\ gathers bs ls E /\
  forall t, 0 < t -> exists m, h t = Some m /\
    forall i j a b, (i < length E)%nat -> (j < length E)%nat -> (a < n)%nat -> (b < n)%nat ->
      let seg k q := nth q (segments (nth k bs no_bore) n (Some r)) no_bore in
      let sol c x y := fls t alpha (if Nat.eqb x y then br (nth x bs no_bore) else c * planar (nth x bs no_bore) (nth y bs no_bore))
                         (bH (seg x a)) (bD (seg x a)) (bH (seg y b)) (bD (seg y b)) true true in
      block_mean ls (length bs) i j (sol (1 + disTol)) <= m (n * j + b)%nat (n * i + a)%nat <= block_mean ls (length bs) i j (sol (1 - disTol)).
Proof.
  intros link kC tol disTol u M alpha bs n r Ag Rf L1 Ha. destruct (regular_some link kC tol disTol u M alpha bs n r Ag Rf) as [ls [E [dis [A [B [C D]]]]]].
  exists ls, E. eexists. eexists. split; [exact A|]. split; auto. intros t Ht. destruct Rf as [Nb [Vf [Lr [Gr [Og [Rd [Lev [Bl [Hd Sp]]]]]]]]].
  exact (matrix_bracket tol disTol u M bs ls E n r alpha t B C Vf Lr Gr Og Rd Lev Nb Hd Sp Ha Ht dis D L1).
Qed.
Print Assumptions C81_tolerance.

Example C81_ex : agglomerative plain_link /\ regular_field (/ 10 ^ 6) (1 / 100) 1 100 square 2 [1 / 2; 1 / 2] /\ distances_apart (1 / 100) square.
Proof. exact (conj plain_ok (conj square_regular square_apart)). Qed.

(** * C82 *)

(** With uniform heat extraction rates the g-function is the mean response of the field,
    that of the detailed solver, whatever the clusters and the segments. *)
Theorem C82_field : forall link kC tol disTol u M alpha bs n r, agglomerative link -> regular_field tol disTol u M bs n r -> distances_apart disTol bs -> 0 < alpha ->
  exists E L h, equivalent link kC tol disTol alpha bs n r = Some (E, L, h) /\
  forall time k, positive time -> (k < length time)%nat ->
    nth k (fst (solve_uhtr (n * length E) L (factors h) time 0)) 0 = field_mean alpha (nth k time 0) bs.
Proof.
  intros link kC tol disTol u M alpha bs n r Ag Rf Ap Ha. destruct (regular_some link kC tol disTol u M alpha bs n r Ag Rf) as [ls [E [dis [A [B [C D]]]]]].
  exists E. eexists. eexists. split; [exact A|]. intros time k P Hk. destruct Rf as [Nb [Vf [Lr [Gr [Og [Rd [Lev [Bl [Hd Sp]]]]]]]]].
  exact (uhtr_equivalent tol disTol u M bs ls E n r alpha B C Vf Lr Gr Og Rd Lev Nb Hd Sp Ap Ha dis D time k P Hk).
Qed.
Print Assumptions C82_field.
Example C82_ex : agglomerative plain_link /\ regular_field (/ 10 ^ 6) (1 / 100) 1 100 square 2 [1 / 2; 1 / 2] /\ distances_apart (1 / 100) square /\ positive [1; 2].
Proof. refine (conj plain_ok (conj square_regular (conj square_apart _))). intros t [<-|[<-|[]]]; lra. Qed.

(** * C83 *)

(** With a uniform wall temperature, if the boreholes of each equivalent borehole see the
    others at the same distances, the g-function is that of the detailed solver, and so are
    the heat extraction rates. *)
Theorem C83_exact : forall link kC tol disTol u M alpha bs n r, agglomerative link -> regular_field tol disTol u M bs n r -> distances_apart disTol bs -> 0 < alpha ->
  exists E L h, equivalent link kC tol disTol alpha bs n r = Some (E, L, h) /\
  forall ls, gathers bs ls E -> equitable ls bs -> forall uw time Q g, grid time ->
    let ns := repeat n (length bs) in let rs := repeat r (length bs) in
    solve_ubwt (n_sources bs ns rs) (segment_length bs ns rs) (detailed_trf alpha uw bs ns rs) time 0 = Some (Q, g) ->
    exists Q', solve_ubwt (n * length E) L (factors h) time 0 = Some (Q', g) /\
      forall p y b, (p < length time)%nat -> (y < length bs)%nat -> (b < n)%nat ->
        nth p Q zero_vec (n * y + b)%nat = nth p Q' zero_vec (n * nth y ls O + b)%nat.
Proof.
  intros link kC tol disTol u M alpha bs n r Ag Rf Ap Ha. destruct (regular_some link kC tol disTol u M alpha bs n r Ag Rf) as [ls [E [dis [A [B [C D]]]]]].
  exists E. eexists. eexists. split; [exact A|]. intros ls' B' Eq uw time Q g G ns rs Es. destruct Rf as [Nb [Vf [Lr [Gr [Og [Rd [Lev [Bl [Hd Sp]]]]]]]]].
  rewrite (labels_unique bs ls' ls E Vf B' B) in *.
  exact (ubwt_equivalent tol disTol u M bs ls E n r alpha B C Vf Lr Gr Og Rd Lev Nb Hd Sp Ap Ha Eq dis D uw time Q g G Es).
Qed.
Print Assumptions C83_exact.

(** Equal boreholes at the corners of a square: every clustering gathers the four of them,
    and they see each other at the same distances. *)
Example C83_ex : regular_field (/ 10 ^ 6) (1 / 100) 1 100 square 2 [1 / 2; 1 / 2] /\ distances_apart (1 / 100) square /\ equitable [0; 0; 0; 0]%nat square /\
  forall link kC, agglomerative link -> exists E, equivalent_boreholes link kC (/ 10 ^ 6) square = Some E /\ gathers square [0; 0; 0; 0]%nat E.
Proof.
  refine (conj square_regular (conj square_apart (conj square_equitable _))). intros link kC Ag. eexists. split; [apply square_boreholes; auto|apply square_gathers].
Qed.
