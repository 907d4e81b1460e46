(** Networks whose flow can be reversed: C156, C157. *)
From Coq Require Import Reals List.
From Verif Require Import Base LinAlg Bore_Model Pipe_Model Multi_Model Net_Model Net_Spec.
From Verif Require Pipe_Spec Multi_Spec.
Import ListNotations.
Local Open Scope R_scope.

(** Outlet temperature of a borehole and heat extracted from one of its segments, from the
    coefficients of its pipe *)
Definition own_outlet (p : pipe) (m cp : R) (n : nat) (r : option (list R)) (tin : R) (Tb : nat -> R) : R :=
  fst (p_out p m cp n r) * tin + sumn n (fun k => snd (p_out p m cp n r) k * Tb k).
Definition own_heat (p : pipe) (m cp : R) (n : nat) (r : option (list R)) (tin : R) (Tb : nat -> R) (l : nat) : R :=
  fst (p_qb p m cp n r) l * tin + sumn n (fun k => snd (p_qb p m cp n r) l k * Tb k).

(** A borehole that is the reciprocal of itself with the flow reversed *)
Definition pipe_reciprocal (p : pipe) (m cp : R) (n : nat) (r : option (list R)) : Prop :=
  forall t s Tb Sb,
    sumn n (fun l => Sb l * own_heat p m cp n r t Tb l) - sumn n (fun l => Tb l * own_heat p (- m) cp n r s Sb l)
    = Rabs m * cp * (own_outlet p m cp n r t Tb * s - t * own_outlet p (- m) cp n r s Sb).

(** A pipe of the library that is meant for both directions of the flow, used with a flow m
    for which its coefficients are defined *)
Definition two_way_pipe (p : pipe) (m cp : R) (k : nat) (r : option (list R)) : Prop :=
  (exists u, p = net_pipe u /\ m <> 0 /\ u_reversible u = true /\ Pipe_Spec.cond u 0 1 = Pipe_Spec.cond u 1 0
      /\ Pipe_Spec.good_flow u (Rabs m) cp k r 0 1)
  \/ (exists eig u, p = multi_pipe eig u /\ x_kind u <> Separate /\ x_reversible u = true /\ Multi_Spec.usable u [m] [cp]
      /\ Multi_Spec.passive_circuit u /\ 0 < bH (x_b u) /\ Multi_Spec.segment_shares k r
      /\ Multi_Spec.eig_ok eig u [m] [cp] /\ Multi_Spec.eig_ok eig u [- m] [cp]).

(** The same call with all flows reversed *)
Definition reversed (g : args) : args := mkargs (map Ropp (g_m g)) (g_cp g) (g_n g) (g_r g).

(** Some fluid flows. *)
Definition flowing (g : args) : Prop := exists x, In x (g_m g) /\ x <> 0.

(** Wall temperatures Tb of K segments that result from heat extraction rates q, in a ground
    at the undisturbed temperature Tg: h i j is the drop of the temperature of the wall of
    segment i for one watt extracted at segment j. *)
Definition ground (K : nat) (Tg : R) (h : nat -> nat -> R) (q Tb : nat -> R) : Prop :=
  forall i, (i < K)%nat -> Tb i = Tg - sumn K (fun j => h i j * q j).
