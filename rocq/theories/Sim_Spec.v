(** Specification of the similarities solver: C50 to C53. *)
From Verif Require Import Base FLS_Model FLS_Spec.
From Verif Require Import Bore_Model Solve_Model Detailed_Model Detailed_Spec Sim_Model.

(** Every pair of distinct boreholes is there exactly once, one way or the other. *)
Definition each_pair_once (n : nat) (l : list (nat * nat)) : Prop :=
  NoDup l /\ (forall a b, In (a, b) l -> (a < n)%nat /\ (b < n)%nat /\ a <> b /\ ~ In (b, a) l) /\
  (forall a b, (a < n)%nat -> (b < n)%nat -> a <> b -> In (a, b) l \/ In (b, a) l).

(** Every borehole is there exactly once. *)
Definition each_once (n : nat) (l : list nat) : Prop := NoDup l /\ forall a, In a l <-> (a < n)%nat.

(** y is the mean of a class of distances that has x and does not spread over more than
    the tolerance. *)
Definition class_mean (tol : R) (all : R -> Prop) (x y : R) : Prop :=
  exists cs, (forall z, In z cs -> all z) /\ In x cs /\ y = mean cs /\ exists lo, In lo cs /\ forall z, In z cs -> lo <= z < (1 + tol) * lo.

(** A distance between two boreholes of the field. *)
Definition field_distance (bs : list bore) (x : R) : Prop :=
  exists a b, (a < length bs)%nat /\ (b < length bs)%nat /\ a <> b /\ x = planar (nth a bs no_bore) (nth b bs no_bore).

(** Lengths and depths of the boreholes and of the segments are multiples of a unit that
    the tolerance cannot confuse. *)
Definition multiple (u x : R) : Prop := exists k : Z, x = IZR k * u.
Definition on_grid (tol u M : R) (bs : list bore) (ns : list nat) (rs : list (list R)) : Prop :=
  / 10 ^ 30 < u /\ 0 < tol /\ tol * (2 * M + / 10 ^ 30) <= u /\
  forall s, In s (bs ++ borehole_segments bs ns rs) -> multiple u (bH s) /\ multiple u (bD s) /\ bH s <= M /\ bD s <= M.

(** Radii, ratios that are close are equal. *)
Definition radii_apart (tol : R) (bs : list bore) : Prop :=
  forall a b, In a bs -> In b bs -> Rabs (br a - br b) < tol * br a -> br a = br b.
Definition ratios_apart (tol : R) (rs : list (list R)) : Prop :=
  (forall r r', In r rs -> In r' rs -> length r = length r' ->
     (forall k, (k < length r)%nat -> Rabs (nth k r 0 - nth k r' 0) <= / 10 ^ 8 + Rmax tol (/ 10 ^ 5) * Rabs (nth k r' 0)) -> r = r') /\
  (forall r, In r rs -> (forall k, (k < length r)%nat -> Rabs (nth k r 0 - nth 0 r 0) <= / 10 ^ 8 + / 10 ^ 6 * Rabs (nth 0 r 0)) ->
     forall k, (k < length r)%nat -> nth k r 0 = nth 0 r 0).

(** Boreholes of the same length are at the same depth. *)
Definition level (bs : list bore) : Prop := forall a b, In a bs -> In b bs -> bH a = bH b -> bD a = bD b.

(** Distances that are not equal are apart. *)
Definition distances_apart (tol : R) (bs : list bore) : Prop :=
  forall x y, field_distance bs x -> field_distance bs y -> x < y -> (1 + tol) * x <= y.

(** The segments of a borehole are not at the same depth. *)
Definition depths_apart (tol : R) (bs : list bore) (ns : list nat) (rs : list (list R)) : Prop :=
  forall i a b, (i < length bs)%nat -> (a < nth i ns O)%nat -> (b < nth i ns O)%nat -> a <> b ->
    let s k := nth k (segments (nth i bs no_bore) (nth i ns O) (Some (nth i rs []))) no_bore in
    tol * (Rabs (bD (s a)) + / 10 ^ 30) <= Rabs (bD (s a) - bD (s b)).

(** Nodes inside of the interval, with positive weights. *)
Definition good_rule (uw : list (R * R)) : Prop := uw <> [] /\ forall c, In c uw -> 0 < fst c < 1 /\ 0 < snd c.

(** Response of a segment to another one by the exact integral along the first one. *)
Definition kernel_exact (alpha t : R) : pair -> R := fun p => fls_inclined (to_bh (fst p)) (to_bh (snd p)) exact t alpha true true.
