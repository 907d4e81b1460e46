(* Specification of a borehole with two legs: energy balances of the fluid, in
   terms of thermal conductances, flow and temperatures. *)
From Coq Require Import Reals List Bool.
From Coquelicot Require Import Coquelicot.
From Verif Require Import Base LinAlg Bore_Model Net_Model Pipe_Model.
Import ListNotations.
Local Open Scope R_scope.

(* Thermal conductance (W/m.K) between pipe i and the borehole wall (i = j) or
   between pipes i and j: the inverse of the resistance, zero if it is infinite. *)
Definition cond (u : utube) (i j : nat) : R :=
  match u_Rd u i j with Res r => 1 / r | Infinite => 0 end.

(* The fluid goes down in pipe d and comes back in pipe e. *)
Definition legs (u : utube) (m : R) (d e : nat) : Prop :=
  (d = 0%nat /\ e = 1%nat /\ (0 < m \/ (m < 0 /\ u_reversible u = false)))
  \/ (d = 1%nat /\ e = 0%nat /\ m < 0 /\ u_reversible u = true).

(* The conductances define a passive circuit: heat flows to the wall unless both
   pipes are at its temperature.  It holds when all conductances are positive,
   also when one of the pipes is shielded from the wall (coaxial). *)
Definition conducting (u : utube) (d e : nat) : Prop :=
  0 < cond u d d + cond u e e
  /\ 0 < cond u d d * cond u e e + cond u d e * (cond u d d + cond u e e).

(* No resistance is zero (the code would divide by zero). *)
Definition no_short (u : utube) : Prop := forall i j r, u_Rd u i j = Res r -> r <> 0.

(* Segment ratios as documented: one per segment, not negative, of sum one. *)
Definition good_ratios (n : nat) (r : option (list R)) : Prop :=
  match r with
  | None => (0 < n)%nat
  | Some l => length l = n /\ Forall (fun x => 0 <= x) l /\ Rsum l = 1
  end.

(* Depth of the upper end of segment k *)
Definition depth (u : utube) (n : nat) (r : option (list R)) (k : nat) : R :=
  bH (u_b u) * Rsum (firstn k (match r with Some l => l | None => repeat (1 / INR n) n end)).

(* The fluid in the down leg, with heat capacity rate M (W/K), warms up by what
   it receives from the wall at temperature tb and from the other leg; the fluid
   in the up leg flows towards decreasing z. *)
Definition energy_balance (u : utube) (d e : nat) (M tb : R) (T : nat -> R -> R) (z : R) : Prop :=
  exists Td' Te', is_derive (T d) z Td' /\ is_derive (T e) z Te'
  /\ M * Td' = cond u d d * (tb - T d z) + cond u d e * (T e z - T d z)
  /\ - M * Te' = cond u e e * (tb - T e z) + cond u d e * (T d z - T e z).

(* A usable call: the flow does not vanish, the properties are positive. *)
Definition good_flow (u : utube) (m cp : R) (n : nat) (r : option (list R)) (d e : nat) : Prop :=
  legs u m d e /\ no_short u /\ conducting u d e /\ 0 < cp /\ 0 < bH (u_b u) /\ good_ratios n r.

(* The same borehole with pipes 0 and 1 exchanged *)
Definition other (i : nat) : nat := match i with O => 1%nat | _ => O end.
Definition exchanged (u : utube) : utube :=
  mkutube (fun i j => u_Rd u (other i) (other j)) (u_b u) (u_reversible u).
