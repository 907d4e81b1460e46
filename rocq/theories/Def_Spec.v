(** Fields whose boreholes are far apart compared with their radii. *)
From Coq Require Import Reals List.
From Verif Require Import Base Bore_Model Detailed_Spec.
Import ListNotations.
Local Open Scope R_scope.

(** Boreholes at least six times the largest radius apart, from axis to axis. *)
Definition well_spaced (bs : list bore) : Prop :=
  forall a b c, (a < length bs)%nat -> (b < length bs)%nat -> (c < length bs)%nat -> a <> b ->
  6 * br (nth c bs no_bore) <= planar (nth a bs no_bore) (nth b bs no_bore).
