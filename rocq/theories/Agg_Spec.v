(** Notions for the statements about the answers of the load aggregation
    schemes: responses that grow, larger loads, idle starts. *)
From Verif Require Import Base LoadAgg_Model.

(** A unit load switched on has an effect that is not negative and never diminishes. *)
Definition grows (g : nat -> R) : Prop := 0 <= g O /\ forall k, g k <= g (S k).

(** The same calls, with loads that are nowhere smaller in the second simulation. *)
Fixpoint no_less (o1 o2 : list op) : Prop :=
  match o1, o2 with
  | [], [] => True
  | Next :: r1, Next :: r2 => no_less r1 r2
  | SetLoad q1 :: r1, SetLoad q2 :: r2 => Forall2 Rle q1 q2 /\ no_less r1 r2
  | _, _ => False
  end.

(** [n] time steps during which no load is set. *)
Definition idle (n : nat) : list op := repeat Next n.

(** A response that levels off: one more per step, up to [m]. *)
Definition levelling (m : R) (k : nat) : R := Rmin (INR (S k)) m.
