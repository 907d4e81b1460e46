(** Specification of the grids. *)
From Verif Require Import Base.

(** A time grid covering (0, tmax] whose j-th step (0-based) is [dt * w j]. *)
Definition grid_of (dt tmax : R) (w : nat -> R) (time : list R) : Prop :=
  (forall k, (k < length time)%nat -> nth k time 0 = dt * sumn (S k) w)
  /\ (forall k, (S k < length time)%nat -> nth k time 0 < tmax)
  /\ (0 < tmax -> time <> [] /\ tmax <= last time 0)
  /\ (tmax <= 0 -> time = []).

Definition strictly_increasing (l : list R) : Prop :=
  forall k, (S k < length l)%nat -> nth k l 0 < nth (S k) l 0.

(** Step sizes, in multiples of dt. *)
Definition cj_steps (cpl j : nat) : R := 2 ^ (j / cpl).
Definition mp_steps (nec j : nat) : R := if (j <? nec)%nat then 1 else 2 ^ (j + 1 - nec).

(** Symmetric list. *)
Definition symmetric (l : list R) : Prop := rev l = l.

(** Geometric expansion by a factor [x] from the top to the middle. *)
Definition expands (x : R) (l : list R) : Prop :=
  forall k, (2 * (k + 1) < length l)%nat -> nth (S k) l 0 = x * nth k l 0.
