(** Fields and times of a call of evaluate_g_function: C124 and the following. *)
From Verif Require Import Base Bore_Model Bore_Spec.
From Coq Require Import Sorted.

(** Positive times, each later than the one before *)
Definition later_times (l : list R) : Prop := l <> [] /\ Forall (fun t => 0 < t) l /\ StronglySorted Rlt l.

(** Vertical boreholes of positive dimensions, at least one, each of them at least six of
    the radii away from the others *)
Definition spread (bs : list bore) : Prop :=
  bs <> [] /\ (forall b, In b bs -> btilt b = 0 /\ 0 < bH b /\ 0 <= bD b /\ 0 < br b) /\
  forall a b c, (a < length bs)%nat -> (b < length bs)%nat -> In c bs -> a <> b -> 6 * br c <= plane_dist (nth a bs b0) (nth b bs b0).
