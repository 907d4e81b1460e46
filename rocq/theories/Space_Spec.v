(** Fields with more space between the boreholes, and deeper fields. *)
From Verif Require Import Base Bore_Model Detailed_Spec.
Local Open Scope R_scope.

(** The same boreholes in the same order, no pair of which is closer. *)
Definition further (bs bs' : list bore) : Prop :=
  length bs' = length bs /\
  (forall i, (i < length bs)%nat -> bH (nth i bs' no_bore) = bH (nth i bs no_bore) /\ bD (nth i bs' no_bore) = bD (nth i bs no_bore) /\ br (nth i bs' no_bore) = br (nth i bs no_bore)) /\
  forall i j, (i < length bs)%nat -> (j < length bs)%nat -> i <> j -> planar (nth i bs no_bore) (nth j bs no_bore) <= planar (nth i bs' no_bore) (nth j bs' no_bore).

(** Some pair is further apart. *)
Definition some_further (bs bs' : list bore) : Prop :=
  exists i j, (i < length bs)%nat /\ (j < length bs)%nat /\ i <> j /\ planar (nth i bs no_bore) (nth j bs no_bore) < planar (nth i bs' no_bore) (nth j bs' no_bore).

(** The same field d deeper in the ground. *)
Definition deeper (d : R) (b : bore) : bore := Bore (bH b) (bD b + d) (br b) (bx b) (by_ b) (btilt b) (bori b).
