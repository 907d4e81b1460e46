(* Specification of networks: what a user expects, without the matrices and the
   loops of the code. *)
From Coq Require Import Reals Lra Lia List ZArith Bool.
From Verif Require Import Base LinAlg Net_Model.
Import ListNotations.
Local Open Scope R_scope.

(* Following the feeds from borehole i ends at borehole r, fed by the field. *)
Inductive root (c : list Z) : nat -> nat -> Prop :=
| root_here i : nth_error c i = Some (-1)%Z -> root c i i
| root_up i j r : nth_error c i = Some (Z.of_nat j) -> root c j r -> root c i r.

(* A connectivity list of n boreholes that is a set of disjoint chains. *)
Definition chains (n : nat) (c : list Z) : Prop :=
  length c = n /\ (0 < n)%nat
  /\ (forall i z, nth_error c i = Some z -> z = (-1)%Z \/ (0 <= z < Z.of_nat n)%Z)
  /\ (forall i j z, nth_error c i = Some z -> nth_error c j = Some z -> z <> (-1)%Z -> i = j)
  /\ (forall i, (i < n)%nat -> exists r, root c i r).

(* The fluid leaving borehole i enters borehole j. *)
Definition feeds (c : list Z) (rev : bool) (i j : nat) : Prop :=
  if rev then nth_error c i = Some (Z.of_nat j)
  else nth_error c j = Some (Z.of_nat i).

(* Inlet temperatures tin and outlet temperatures tout follow the connections,
   the field inlet being at t. *)
Definition connected (c : list Z) (rev : bool) (t : R) (tin tout : nat -> R) : Prop :=
  forall j, (j < length c)%nat ->
    (forall i, feeds c rev i j -> tin j = tout i)
    /\ ((forall i, (i < length c)%nat -> ~ feeds c rev i j) -> tin j = t).

(* Borehole b is the last one, along the flow, of the circuit of the field inlet
   that feeds borehole h in the forward direction. *)
Definition circuit_end (c : list Z) (rev : bool) (h b : nat) : Prop :=
  (b < length c)%nat /\ root c b h /\ forall j, (j < length c)%nat -> ~ feeds c rev b j.

(* The arguments have the shape the documentation asks for, with K segments in
   all. *)
Definition good_args (N : net) (ps : list pipe) (g : args) (F : fmt) : Prop :=
  format_inputs N g = Some F /\ length ps = nB N /\ length (f_rat F) = nB N.

(* A pipe that is never used, for lookups out of range *)
Definition no_pipe : pipe := mkpipe (fun _ _ _ _ => (0, fun _ => 0)) (fun _ _ _ _ => (fun _ => 0, fun _ _ => 0)).

(* Own outlet temperature of borehole i for a given inlet temperature and wall
   temperatures, from the coefficients of its pipe and the flow it receives *)
Definition bore_outlet (ps : list pipe) (F : fmt) (i : nat) (tin : R) (Tb : nat -> R) : R :=
  let p := nth i ps no_pipe in
  let ab := p_out p (nth i (f_mb F) 0) (nth i (f_cpb F) 0) (nth i (f_seg F) O) (nth i (f_rat F) None) in
  fst ab * tin
  + sumn (nth i (f_seg F) O) (fun k => snd ab k * Tb (seg_off (f_seg F) i + k)%nat).

(* The outlet coefficients of a pipe add up to one: at uniform temperature the
   fluid leaves as it entered (C27). *)
Definition pipe_neutral (p : pipe) (m cp : R) (n : nat) (r : option (list R)) : Prop :=
  fst (p_out p m cp n r) + sumn n (snd (p_out p m cp n r)) = 1
  /\ forall k, (k < n)%nat ->
       fst (p_qb p m cp n r) k + sumn n (snd (p_qb p m cp n r) k) = 0.

(* The heat taken along the segments is the heat gained by the fluid (C28). *)
Definition pipe_balanced (p : pipe) (m cp : R) (n : nat) (r : option (list R)) : Prop :=
  sumn n (fst (p_qb p m cp n r)) = fst (p_qf p m cp n r)
  /\ forall l, (l < n)%nat ->
       sumn n (fun k => snd (p_qb p m cp n r) k l) = snd (p_qf p m cp n r) l.

(* Two calls look alike to the stored coefficients only when they are the same
   call. *)
Definition told_apart (g h : args) : Prop :=
  forall mcp, bcast Rmult (g_m h) (g_cp h) = Some mcp ->
  forall v, check_coefficients g (Some (mkentry mcp (g_n h) (g_r h) v)) = Some true -> g = h.

(* E k is the last borehole of circuit k; circuits are numbered as their first
   boreholes, in the order of the connectivity list. *)
Definition ends (N : net) (rev : bool) (E : nat -> nat) : Prop :=
  forall k, (k < nInlets N)%nat -> circuit_end (n_c N) rev (nth k (n_in N) O) (E k).

(* Situations in which the weights of the circuits reach the right boreholes:
   reversed flow, the same flow in all circuits, or circuits that end in the
   order in which they begin. *)
Definition well_mixed (N : net) (F : fmt) (E : nat -> nat) : Prop :=
  f_rev F = true
  \/ (exists x, forall k, (k < nInlets N)%nat -> nth k (f_m F) 0 = x)
  \/ (forall j k, (j < k)%nat -> (k < nInlets N)%nat -> (E j < E k)%nat).

(* A condition on every pipe of the network, with the flow it receives *)
Definition every_pipe (P : pipe -> R -> R -> nat -> option (list R) -> Prop)
  (N : net) (ps : list pipe) (F : fmt) : Prop :=
  forall i p, nth_error ps i = Some p ->
    P p (nth i (f_mb F) 0) (nth i (f_cpb F) 0) (nth i (f_seg F) O) (nth i (f_rat F) None).

(* Total flow *)
Definition total_flow (N : net) (F : fmt) : R := sumn (nInlets N) (fun k => Rabs (nth k (f_m F) 0)).

(* Formatted inputs of a call whose arguments have the documented shape *)
Definition fmt_default : fmt := mkfmt [] false [] [] [] [].
Definition the_fmt (N : net) (g : args) : fmt := match format_inputs N g with Some F => F | None => fmt_default end.

Definition good_call (N : net) (ps : list pipe) (g : args) : Prop := exists F, good_args N ps g F.


(* pipes.py 669-708, effective_borehole_thermal_resistance, from the
   coefficients of the pipe with one segment *)
Definition effective_resistance (p : pipe) (H m cp : R) : R :=
  - (1/2) * H * (1 + fst (p_out p m cp 1 None)) / fst (p_qb p m cp 1 None) O.

(* A call with one flow for the whole network, n segments of equal length *)
Definition scalar_call (cp : R) (x : R * nat) : args := mkargs [fst x] [cp] (SegN (snd x)) RNone.

(* Flows that are the same or differ by more than the tolerance of the stored
   coefficients *)
Definition well_apart (x y : R) : Prop := x = y \/ Rabs y / 1000000 <= Rabs (x - y).
