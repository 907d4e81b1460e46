(** Order of the boundary conditions: statements (C149, C150). *)
From Coq Require Import Reals List.
From Verif Require Import Base LinAlg Bore_Model Net_Model Net_Spec Pipe_Model Solve_Model GFun_Model GFun_Spec Passive_Spec.
From Verif Require Pipe_Spec.
Local Open Scope R_scope.

(** All the boreholes of the network are in parallel. *)
Definition in_parallel (w : network) : Prop :=
  build_net (List.length (w_b w)) None = Some (w_c w) /\ List.length (w_p w) = List.length (w_b w).

(** The heat taken at one segment for one degree at the wall of another is that taken at
    the other for one degree at the wall of the first (C148). *)
Definition reciprocal_pipe (p : pipe) (m cp : R) (k : nat) (r : option (list R)) : Prop :=
  forall i j, (i < k)%nat -> (j < k)%nat -> snd (p_qb p m cp k r) i j = snd (p_qb p m cp k r) j i.

(** A borehole of the library, with one segment or with the two legs of a single U-tube at
    the same resistance from the wall *)
Definition balanced_legs (p : pipe) (m cp : R) (k : nat) (r : option (list R)) : Prop :=
  library_pipe p m cp k r /\
  (k = 1%nat \/ exists u d e, p = net_pipe u /\ Pipe_Spec.good_flow u m cp k r d e /\ (0 < m \/ u_reversible u = true)
      /\ Pipe_Spec.cond u d d = Pipe_Spec.cond u e e).

(** Coefficients of a field: equal temperatures exchange no heat, the heat between two
    segments goes both ways alike, and the resistance relates the mean temperature of the
    fluid to the heat at a uniform wall temperature over the length Ht. *)
Definition reciprocal_field (n : nat) (Ht : R) (F : flow) : Prop :=
  (forall i j, (i < n)%nat -> (j < n)%nat -> f_b F i j = f_b F j i) /\
  (forall i, (i < n)%nat -> f_in F i + sumn n (f_b F i) = 0) /\
  sumn n (f_in F) < 0 /\ 0 < f_mcp F /\
  f_R F = Ht * (/ - sumn n (f_in F) - / (2 * f_mcp F)).

(** The segments of a field at a uniform wall temperature take heat in proportion to their
    lengths. *)
Definition evenly_fed (n : nat) (L : nat -> R) (F : flow) : Prop :=
  exists beta, 0 < beta /\ forall i, (i < n)%nat -> - f_in F i = beta * L i.

(** Boreholes alike, with one segment each: the same length, pipes and flow. *)
Definition alike (w : network) (ns : list nat) (f : fmt) : Prop :=
  (forall k, In k ns -> k = 1%nat) /\
  exists L p m, (forall b, In b (w_b w) -> bH b = L) /\ (forall q, In q (w_p w) -> q = p) /\ (forall y, In y (f_mb f) -> y = m).
