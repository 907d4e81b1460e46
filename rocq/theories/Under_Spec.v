(** Loads and thermal responses of one sign of curvature. *)
From Verif Require Import Base.

(** A load history (oldest first) that starts at or above zero and never decreases. *)
Definition never_decreasing (h : list R) : Prop :=
  0 <= nth 0 h 0 /\ forall m, (S m < length h)%nat -> nth m h 0 <= nth (S m) h 0.

(** Rise of a thermal response during the [k]-th time step. *)
Definition rise (dt : R) (g : R -> R) (k : nat) : R :=
  match k with O => g dt | S _ => g (INR (S k) * dt) - g (INR k * dt) end.

(** A thermal response which grows, in each time step by no more than in the step before. *)
Definition slowing (dt : R) (g : R -> R) : Prop :=
  forall k, 0 <= rise dt g (S k) <= rise dt g k.

(** A load history (oldest first) that never decreases, of any sign. *)
Definition rising (h : list R) : Prop := forall m, (S m < length h)%nat -> nth m h 0 <= nth (S m) h 0.

(** A load history (oldest first) that never increases, of any sign. *)
Definition falling (h : list R) : Prop := forall m, (S m < length h)%nat -> nth (S m) h 0 <= nth m h 0.
