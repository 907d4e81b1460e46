(** Boreholes held by the operands of + : read off the operand, not by the model's own conversion. *)
From Coq Require Import List ZArith.
From Verif Require Import Base Bore_Model Field_Model.
Import ListNotations.

(** [l] are the boreholes of the operand: the borehole, the list, or what indexing the field gives. *)
Definition holds (o : operand) (l : list bore) : Prop :=
  match o with
  | OBore b => l = [b]
  | OList m => l = m
  | OField f => length l = nBoreholes f /\ forall i, (i < nBoreholes f)%nat -> getitem f (Z.of_nat i) = nth_error l i
  end.
