(** Names without regard to case. *)
From Coq Require Import String Ascii List Arith.
Import ListNotations.

(** Two characters that are equal, or the upper and the lower case of one letter. *)
Definition same_letter (a b : ascii) : Prop :=
  a = b \/ (65 <= nat_of_ascii a <= 90 /\ nat_of_ascii b = nat_of_ascii a + 32)
  \/ (65 <= nat_of_ascii b <= 90 /\ nat_of_ascii a = nat_of_ascii b + 32).

Fixpoint same_word (s t : string) : Prop :=
  match s, t with
  | EmptyString, EmptyString => True
  | String a s', String b t' => same_letter a b /\ same_word s' t'
  | _, _ => False
  end.

(** The documented names and the long ones. *)
Definition known_names : list string :=
  ["Water"; "MPG"; "PropyleneGlycol"; "MEG"; "EthyleneGlycol"; "MMA"; "MethylAlcohol"; "MEA"; "EthylAlcohol"]%string.
