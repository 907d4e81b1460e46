(** Circuits of a network of boreholes (for C141, C142). *)
From Coq Require Import Reals List.
From Verif Require Import Base Net_Model.
Local Open Scope R_scope.

(* Number of boreholes of circuit k *)
Definition circuit_len (N : net) (k : nat) : nat := count_occ Nat.eq_dec (n_circ N) k.

(* Fluid entering all circuits at one, each borehole multiplying its temperature by a:
   mean temperature at the outlets of the circuits *)
Definition circuit_mean (N : net) (a : R) : R :=
  sumn (nInlets N) (fun k => a ^ circuit_len N k) / INR (nInlets N).
