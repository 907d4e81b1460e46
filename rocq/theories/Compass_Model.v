(** Compass directions: pygfunction/utilities.py 9-22, [cardinal_point].

    Strings are sequences of ASCII characters; str.upper also maps some other letters to
    capitals, U+017F to S for instance (not modelled). *)
From Coq Require Import Reals List String.
From Verif Require Import Base.
From Verif Require GFun_Model.
Import ListNotations.
Local Open Scope string_scope.
Local Open Scope R_scope.

(** utilities.py 10-13, accepted_inputs *)
Definition accepted_inputs : list string :=
  ["E"; "ENE"; "NE"; "NNE"; "N"; "NNW"; "NW"; "WNW"; "W"; "WSW"; "SW"; "SSW"; "S"; "SSE"; "SE"; "ESE"].

(** utilities.py 19-22: the dictionary maps each name, in order, to a multiple of pi / 8;
    15-17: another name raises ValueError *)
Fixpoint compass (i : nat) (names : list string) (d : string) : option R :=
  match names with
  | [] => None
  | x :: r => if String.eqb d x then Some (INR i * PI / 8) else compass (S i) r d
  end.
Definition cardinal_point (d : string) : option R := compass 0 accepted_inputs (GFun_Model.upper d).
