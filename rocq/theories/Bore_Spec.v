(** Specification of boreholes: axes, duplicates, distance classes. *)
From Verif Require Import Base Bore_Model.
From Coq Require Import Permutation Relations.

(** Point of the axis of a borehole at length [s] from the head: x, y, depth. *)
Definition axis (b : bore) (s : R) : R * R * R :=
  (bx b + s * (sin (btilt b) * cos (bori b)),
   by_ b + s * (sin (btilt b) * sin (bori b)),
   bD b + s * cos (btilt b)).
Definition head (b : bore) := axis b 0.
Definition toe (b : bore) := axis b (bH b).

(** A vertical borehole has orientation zero (established by the constructor). *)
Definition bore_ok (b : bore) : Prop := tilted (btilt b) = false -> bori b = 0.

(** Euclidean distance of the heads in the plane. *)
Definition plane_dist (a b : bore) : R := sqrt ((bx a - bx b) ^ 2 + (by_ a - by_ b) ^ 2).

Definition shift (u v : R) (b : bore) : bore :=
  Bore (bH b) (bD b) (br b) (bx b + u) (by_ b + v) (btilt b) (bori b).

(** Largest radius of a field. *)
Definition is_max_radius (f : list bore) (r : R) : Prop :=
  (exists b, In b f /\ br b = r) /\ forall b, In b f -> br b <= r.

Definition b0 : bore := Bore 0 0 0 0 0 0 0.

(** Boreholes of indices i < j closer than r. *)
Definition dup_pair (f : list bore) (r : R) (i j : nat) : Prop :=
  (i < j < length f)%nat /\ plane_dist (nth i f b0) (nth j f b0) < r.

(** Lists of pairs in lexicographic order. *)
Definition lex_lt (p q : nat * nat) : Prop :=
  (fst p < fst q)%nat \/ (fst p = fst q /\ (snd p < snd q)%nat).

(** Distances between two groups of boreholes, each pair once. *)
Definition group_distances (b t : ebore) : list R :=
  concat (map (fun j => map (fun i =>
      Rmax (sqrt ((nth j (ex t) 0 - nth i (ex b) 0) ^ 2 + (nth j (ey t) 0 - nth i (ey b) 0) ^ 2)) (er b))
    (seq 0 (length (ex b)))) (seq 0 (length (ex t)))).

(** Classes of distances within a relative tolerance. *)
Definition distance_classes (tol : R) (all : list R) (ds : list R) (ws : list nat) : Prop :=
  exists cls : list (list R),
    Permutation (concat cls) all
    /\ ds = map mean cls /\ ws = map (@length R) cls
    /\ (forall c, In c cls -> exists lo, In lo c /\ forall x, In x c -> lo <= x < (1 + tol) * lo)
    /\ (forall a b, (a < b < length cls)%nat -> forall lo y, In lo (nth a cls []) ->
          (forall x, In x (nth a cls []) -> lo <= x) -> In y (nth b cls []) -> (1 + tol) * lo <= y).

(** The k-th borehole represented by an equivalent borehole. *)
Definition member (e : ebore) (k : nat) : bore :=
  Bore (eH e) (eD e) (er e) (nth k (ex e) 0) (nth k (ey e) 0) (etilt e) (nth k (eori e) 0).
