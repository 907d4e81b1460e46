(** Boreholes and networks that do not create energy: C108 and the following. *)
From Coq Require Import Reals List.
From Verif Require Import Base LinAlg Bore_Model Net_Model Net_Spec Pipe_Model Multi_Model GFun_Model.
From Verif Require Pipe_Spec Multi_Spec.
Local Open Scope R_scope.

(** [Multi_Spec.pipe_passive]: the heat that a borehole takes from its wall, weighted with
    the temperatures above t, is at least the energy that the fluid gains. *)

(** The fluid forgets, in part, the temperature at which it entered. *)
Definition pipe_contracts (p : pipe) (m cp : R) (k : nat) (r : option (list R)) : Prop :=
  Rabs (fst (p_out p m cp k r)) < 1.

(** One of the pipes of the library, with the flow, the segments and the resistances for
    which it is meant: SingleUTube and Coaxial, or MultipleUTube. *)
Definition library_pipe (p : pipe) (m cp : R) (k : nat) (r : option (list R)) : Prop :=
  (exists u d e, p = net_pipe u /\ Pipe_Spec.good_flow u m cp k r d e /\ (0 < m \/ u_reversible u = true))
  \/ (exists eig u, p = multi_pipe eig u /\ x_kind u <> Separate /\ Multi_Spec.usable u (m :: nil) (cp :: nil)
      /\ Multi_Spec.reversals_meant u (m :: nil) /\ Multi_Spec.passive_circuit u /\ 0 < bH (x_b u)
      /\ Multi_Spec.segment_shares k r /\ Multi_Spec.eig_ok eig u (m :: nil) (cp :: nil)).

(** A pipe whose heat is accounted for, that creates no energy and whose outlet depends on
    the wall *)
Definition sound_pipe (p : pipe) (m cp : R) (k : nat) (r : option (list R)) : Prop :=
  pipe_balanced p m cp k r /\ Multi_Spec.pipe_passive p m cp k r /\ pipe_contracts p m cp k r.

(** The call of a g-function for the coefficients of the network *)
Definition flow_call (x : R) (ns : list nat) (rs : list (list R)) (row : list R) : args :=
  mkargs row (x :: nil) (SegL ns) (RList rs).
