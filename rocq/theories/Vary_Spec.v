(** Total variation of a load history. *)
From Verif Require Import Base.

(** Sum of the sizes of the changes of a quantity that is [x] at first. *)
Fixpoint vary (x : R) (l : list R) : R :=
  match l with
  | [] => 0
  | y :: r => Rabs (y - x) + vary y r
  end.

(** All changes of a load, from the time before it was first applied. *)
Definition swings (h : list R) : R := vary 0 h.
