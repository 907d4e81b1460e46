(** What the name of a direction means on a map with x to the east and y to the north. *)
From Coq Require Import Reals List String Ascii.
Import ListNotations.
Local Open Scope string_scope.
Local Open Scope R_scope.

Definition letter (c : ascii) : option (R * R) :=
  match c with
  | "E"%char => Some (1, 0) | "N"%char => Some (0, 1) | "W"%char => Some (-1, 0) | "S"%char => Some (0, -1)
  | _ => None
  end.

(** w is the unit vector halfway between u and v. *)
Definition halfway (u v w : R * R) : Prop :=
  fst w ^ 2 + snd w ^ 2 = 1 /\ exists k, 0 < k /\ k * fst w = fst u + fst v /\ k * snd w = snd u + snd v.

(** A letter followed by a direction is halfway between both. *)
Inductive points : string -> R * R -> Prop :=
| points_letter c u : letter c = Some u -> points (String c "") u
| points_half c s u v w : letter c = Some u -> points s v -> halfway u v w -> points (String c s) w.

(** The names in use: a letter, north or south followed by east or west, and a letter followed
    by a name of two letters with this letter. *)
Definition two_letters (a b : ascii) : Prop := (a = "N"%char \/ a = "S"%char) /\ (b = "E"%char \/ b = "W"%char).
Definition in_use (d : string) : Prop :=
  (exists c, letter c <> None /\ d = String c "")
  \/ (exists a b, two_letters a b /\ d = String a (String b ""))
  \/ (exists c a b, two_letters a b /\ (c = a \/ c = b) /\ d = String c (String a (String b ""))).
