(** Boreholes added to a field (C146). *)
From Coq Require Import Reals List.
From Verif Require Import Base Bore_Model Detailed_Model GFun_Model.
Import ListNotations.
Local Open Scope R_scope.

(** Options that are the same for every borehole: one number of segments and no list with
    ratios for each of the boreholes. *)
Definition shared_options (o : options) : Prop :=
  (exists n, o_n o = SInt n) /\ forall l, o_r o <> Detailed_Model.RList l.

(** No borehole of xs is wider than all of those of bs. *)
Definition no_wider (xs bs : list bore) : Prop := forall b, In b xs -> exists b', In b' bs /\ br b <= br b'.

(** The total length of the boreholes *)
Definition total_length (bs : list bore) : R := Rsum (map bH bs).
