(** Model of boreholes with one U-tube or with coaxial pipes:
    pygfunction/pipes.py, classes [_BasePipe], [SingleUTube] and [Coaxial].

    Temperatures, flows and resistances are real numbers.  Arrays over segments
    are functions of the segment index; matrices are of type [Mx] (LinAlg).
    m_flow_borehole and cp_f are scalars (or arrays of length one, which pipes.py
    1627-1655 treat alike). *)
From Verif Require Import Base LinAlg Bore_Model Net_Model.

(** ** Delta-circuit resistances *)

(** An entry of the matrix [_Rd]: a number, or numpy.inf (pipes.py 2634). *)
Inductive xres := Res (r : R) | Infinite.

(** 1. / (r * x), with 1. / numpy.inf = 0. (pipes.py 1595-1600) *)
Definition over (r : xres) (x : R) : R :=
  match r with Res r => 1 / (r * x) | Infinite => 0 end.

(** The attributes of a [SingleUTube] or [Coaxial] that enter the fluid
    temperatures: pipes.py 1066-1092 and 2580-2606.  [u_Rd] is the matrix
    [_Rd], [u_b] the borehole. *)
Record utube := mkutube { u_Rd : nat -> nat -> xres; u_b : bore; u_reversible : bool }.

(** ** Flow direction and model variables *)

(** pipes.py 1638, [_is_reversed]. *)
Definition is_reversed (u : utube) (m : R) : bool := Rltb m 0 && u_reversible u.

(** pipes.py 1639-1644, [_iInlet] and [_iOutlet]. *)
Definition i_inlet (u : utube) (m : R) : nat := if is_reversed u m then 1%nat else 0%nat.
Definition i_outlet (u : utube) (m : R) : nat := if is_reversed u m then 0%nat else 1%nat.

(** pipes.py 1635, [_m_flow_pipe]: the flows of pipes 0 and 1. *)
Definition m_flow_pipe (m : R) (i : nat) : R :=
  match i with O => m | S O => - m | _ => 0 end.

(** The attributes set by [_update_model_variables]. *)
Record uvars := mkuv { v1 : R; v2 : R; v12 : R; vb : R; vg : R; vd : R }.

(** pipes.py 1601-1606: [_beta], [_gamma], [_delta] from the conductances. *)
Definition vars_of (b1 b2 b12 : R) : uvars :=
  let g := sqrt (1/4 * (b1 + b2) ^ 2 + b12 * (b1 + b2)) in
  mkuv b1 b2 b12 (1/2 * (b2 - b1)) g (1 / g * (b12 + 1/2 * (b1 + b2))).

(** pipes.py 1587-1606, [_update_model_variables]; [mcp] is
    [abs(m_flow_borehole) * cp_f].  The code multiplies the resistance by the
    flow first; over the reals the order does not matter. *)
Definition update_vars (Rd : nat -> nat -> xres) (iin iout : nat) (mcp : R) : uvars :=
  vars_of (over (Rd iin iin) mcp) (over (Rd iout iout) mcp) (over (Rd iin iout) mcp).

Definition model_vars (u : utube) (m cp : R) : uvars :=
  update_vars (u_Rd u) (i_inlet u m) (i_outlet u m) (Rabs m * cp).

(** ** Outlet temperature *)

(** pipes.py 1149-1151 and 1232-1234. *)
Definition cA (v : uvars) : R := 1 - 1/2 * (v1 v + v2 v) / vg v.
Definition cB (v : uvars) : R := 1 + 1/2 * (v1 v + v2 v) / vg v.
Definition cC (v : uvars) (H : R) : R := 1 / (cB v + cA v * exp (- 2 * vg v * H)).

(** pipes.py 1153 *)
Definition out_in (v : uvars) (H : R) : R :=
  (cA v + cB v * exp (- 2 * vg v * H)) / (cB v + cA v * exp (- 2 * vg v * H)).

(** pipes.py 1156-1159, at one edge *)
Definition out_edge (v : uvars) (H z : R) : R :=
  (v1 v + v2 v) / vg v * cC v H
  * (exp (- z * (vb v + vg v)) - exp (- z * (vb v - vg v) - 2 * vg v * H)).

(** pipes.py 1160, minus numpy.diff over the edges *)
Definition out_b (v : uvars) (H : R) (edges : list R) (k : nat) : R :=
  - (out_edge v H (nth (S k) edges 0) - out_edge v H (nth k edges 0)).

(** pipes.py 1094-1167, [coefficients_outlet_temperature] without the storage
    (which is in PipeCache_Model.v). *)
Definition outlet (u : utube) (m cp : R) (n : nat) (r : option (list R)) : R * (nat -> R) :=
  let v := model_vars u m cp in
  let H := bH (u_b u) in
  (out_in v H, out_b v H (segment_edges (u_b u) n r)).

(** ** Fluid temperature at a depth *)

(** pipes.py 1236-1241: leg of the inlet *)
Definition t_in0 (v : uvars) (H z : R) : R :=
  let a00 := (1 - vd v) * cA v + v12 v / vg v * cB v in
  let a01 := (1 + vd v) * cB v - v12 v / vg v * cA v in
  1/2 * cC v H * (a00 * exp ((vb v + vg v) * z - 2 * vg v * H) + a01 * exp ((vb v - vg v) * z)).

(** pipes.py 1243-1248: leg of the outlet *)
Definition t_in1 (v : uvars) (H z : R) : R :=
  let a10 := (1 + vd v) * cB v - v12 v / vg v * cA v in
  let a11 := (1 - vd v) * cA v + v12 v / vg v * cB v in
  1/2 * cC v H * (a10 * exp ((vb v + vg v) * z - 2 * vg v * H) + a11 * exp ((vb v - vg v) * z)).

(** pipes.py 1253-1256 *)
Definition cA4 (v : uvars) : R := (v1 v - vd v * v1 v - v2 v * v12 v / vg v) / (vb v + vg v).
Definition cB4 (v : uvars) : R := (v1 v + vd v * v1 v + v2 v * v12 v / vg v) / (vb v - vg v).
Definition cA5 (v : uvars) : R := (v2 v + vd v * v2 v + v1 v * v12 v / vg v) / (vb v + vg v).
Definition cB5 (v : uvars) : R := (v2 v - vd v * v2 v - v1 v * v12 v / vg v) / (vb v - vg v).

(** pipes.py 1266-1293, leg of the inlet, depth z, edge w (the array [index]
    of 1259 is the test). *)
Definition t_edge0 (v : uvars) (H z w : R) : R :=
  let a0 := - cA4 v * cB v in
  let a1 := - cA4 v * cA v in
  let a2 := - cB4 v * cB v in
  let a3 := - cB4 v * cA v in
  let a4 := v12 v / vg v * (v1 v + v2 v) / vg v in
  let a5 := - v12 v / vg v * (v1 v + v2 v) / vg v in
  let b := vb v in let g := vg v in let dz := z - w in
  if Rleb 0 dz then
    1/2 * (a1 * exp ((b + g) * dz - 2 * g * H)
           + a2 * exp ((b - g) * dz)
           + a3 * exp ((b - g) * dz - 2 * g * H)
           + a4 * exp ((b - g) * z - (b + g) * w)
           - a5 * exp ((b + g) * z - (b - g) * w - 2 * g * H)
           + a5 * exp ((b - g) * dz - 2 * g * H))
  else
    1/2 * (a0 - a4 * exp ((b + g) * dz)
           + a1 * exp (- 2 * g * H)
           + a2
           + a3 * exp (- 2 * g * H)
           + a4 * exp ((b - g) * z - (b + g) * w)
           - a5 * exp ((b + g) * z - (b - g) * w - 2 * g * H)
           + a5 * exp ((b - g) * dz - 2 * g * H)).

(** pipes.py 1294-1321, leg of the outlet *)
Definition t_edge1 (v : uvars) (H z w : R) : R :=
  let a0 := cA5 v * cB v in
  let a1 := cA5 v * cA v in
  let a2 := cB5 v * cB v in
  let a3 := cB5 v * cA v in
  let a4 := (vd v + 1) * (v1 v + v2 v) / vg v in
  let a5 := (vd v - 1) * (v1 v + v2 v) / vg v in
  let b := vb v in let g := vg v in let dz := z - w in
  if Rleb 0 dz then
    1/2 * (a1 * exp ((b + g) * dz - 2 * g * H)
           + a2 * exp ((b - g) * dz)
           + a3 * exp ((b - g) * dz - 2 * g * H)
           + a5 * exp ((b - g) * z - (b + g) * w)
           + a4 * exp ((b + g) * z - (b - g) * w - 2 * g * H)
           - a5 * exp ((b - g) * dz - 2 * g * H))
  else
    1/2 * (a0 - a4 * exp ((b + g) * dz)
           + a1 * exp (- 2 * g * H)
           + a2
           + a3 * exp (- 2 * g * H)
           + a5 * exp ((b - g) * z - (b + g) * w)
           + a4 * exp ((b + g) * z - (b - g) * w - 2 * g * H)
           - a5 * exp ((b - g) * dz - 2 * g * H)).

(** pipes.py 1323, numpy.diff over the edges *)
Definition t_b0 (v : uvars) (H : R) (edges : list R) (z : R) (k : nat) : R :=
  cC v H * (t_edge0 v H z (nth (S k) edges 0) - t_edge0 v H z (nth k edges 0)).
Definition t_b1 (v : uvars) (H : R) (edges : list R) (z : R) (k : nat) : R :=
  cC v H * (t_edge1 v H z (nth (S k) edges 0) - t_edge1 v H z (nth k edges 0)).

(** pipes.py 1169-1325, [coefficients_temperature], from given model variables
    and from the index [iin] of the inlet leg ([a_in[:, self._iInlet, 0] = ...]). *)
Definition temperature_at (v : uvars) (iin : nat) (H : R) (edges : list R) (z : R)
  : (nat -> R) * Mx :=
  (fun i => if Nat.eqb i iin then t_in0 v H z else t_in1 v H z,
   fun i k => if Nat.eqb i iin then t_b0 v H edges z k else t_b1 v H edges z k).

Definition temperature (u : utube) (m cp : R) (n : nat) (r : option (list R)) (z : R)
  : (nat -> R) * Mx :=
  temperature_at (model_vars u m cp) (i_inlet u m) (bH (u_b u)) (segment_edges (u_b u) n r) z.

(** ** Heat extraction rates *)

(** pipes.py 572-592, [coefficients_borehole_heat_extraction_rate] without the
    storage: [T] gives the coefficients of the temperatures at a depth. *)
Definition heat_from (T : R -> (nat -> R) * Mx) (edges : list R) (m cp : R)
  : (nat -> R) * Mx :=
  (fun k => sumn 2 (fun i => m_flow_pipe m i * cp
                             * (fst (T (nth (S k) edges 0)) i - fst (T (nth k edges 0)) i)),
   fun k l => sumn 2 (fun i => m_flow_pipe m i * cp
                             * (snd (T (nth (S k) edges 0)) i l - snd (T (nth k edges 0)) i l))).

Definition borehole_heat (u : utube) (m cp : R) (n : nat) (r : option (list R))
  : (nat -> R) * Mx :=
  heat_from (temperature u m cp n r) (segment_edges (u_b u) n r) m cp.

(** pipes.py 641-662, [coefficients_fluid_heat_extraction_rate] without the
    storage. *)
Definition fluid_from (ab : R * (nat -> R)) (m cp : R) : R * (nat -> R) :=
  let mcp := Rabs m * cp in
  (- mcp + mcp * fst ab, fun k => mcp * snd ab k).

Definition fluid_heat (u : utube) (m cp : R) (n : nat) (r : option (list R)) : R * (nat -> R) :=
  fluid_from (outlet u m cp n r) m cp.

(** ** Inlet temperature *)

(** pipes.py 327-338, [coefficients_inlet_temperature]; numpy.linalg.inv of a
    one by one matrix fails on zero. *)
Definition inlet_from (q : R * (nat -> R)) : option (R * (nat -> R)) :=
  if Reqb (fst q) 0 then None else Some (/ fst q, fun k => - / fst q * snd q k).

Definition inlet (u : utube) (m cp : R) (n : nat) (r : option (list R)) : option (R * (nat -> R)) :=
  inlet_from (fluid_heat u m cp n r).

(** ** The queries *)

(** pipes.py 83-94, [get_temperature] at one depth; pipe i *)
Definition get_temperature (u : utube) (Tin : R) (n : nat) (Tb : nat -> R) (m cp : R)
  (r : option (list R)) (z : R) (i : nat) : R :=
  let c := temperature u m cp n r z in fst c i * Tin + sumn n (fun k => snd c i k * Tb k).

(** pipes.py 126-137, [get_inlet_temperature] *)
Definition get_inlet_temperature (u : utube) (Q : R) (n : nat) (Tb : nat -> R) (m cp : R)
  (r : option (list R)) : option R :=
  option_map (fun c => fst c * Q + sumn n (fun k => snd c k * Tb k)) (inlet u m cp n r).

(** pipes.py 167-178, [get_outlet_temperature] *)
Definition get_outlet_temperature (u : utube) (Tin : R) (n : nat) (Tb : nat -> R) (m cp : R)
  (r : option (list R)) : R :=
  let c := outlet u m cp n r in fst c * Tin + sumn n (fun k => snd c k * Tb k).

(** pipes.py 206-215, [get_borehole_heat_extraction_rate], segment k *)
Definition get_borehole_heat (u : utube) (Tin : R) (n : nat) (Tb : nat -> R) (m cp : R)
  (r : option (list R)) (k : nat) : R :=
  let c := borehole_heat u m cp n r in fst c k * Tin + sumn n (fun l => snd c k l * Tb l).

(** pipes.py 244-253, [get_fluid_heat_extraction_rate]; one inlet, so it is
    also [get_total_heat_extraction_rate] (281-284). *)
Definition get_fluid_heat (u : utube) (Tin : R) (n : nat) (Tb : nat -> R) (m cp : R)
  (r : option (list R)) : R :=
  let c := fluid_heat u m cp n r in fst c * Tin + sumn n (fun k => snd c k * Tb k).

(** pipes.py 698-708, [effective_borehole_thermal_resistance] *)
Definition effective_R (u : utube) (m cp : R) : R :=
  - (1/2) * bH (u_b u) * (1 + fst (outlet u m cp 1 None)) / fst (borehole_heat u m cp 1 None) 0%nat.

(** pipes.py 731, [local_borehole_thermal_resistance], two pipes *)
Definition local_R (Rd : nat -> nat -> xres) : R := 1 / (over (Rd 0%nat 0%nat) 1 + over (Rd 1%nat 1%nat) 1).

(** pipes.py 2632-2637: the delta-circuit of a coaxial borehole; the pipes are
    numbered 0 and 1, [iInner] is one of them. *)
Definition coaxial_Rd (iInner : nat) (R_ff R_fg : R) (i j : nat) : xres :=
  if Nat.eqb i j then (if Nat.eqb i iInner then Infinite else Res R_fg) else Res R_ff.

(** The borehole as the networks see it (Net_Model.v, [pipe]). *)
Definition net_pipe (u : utube) : pipe :=
  mkpipe (outlet u) (borehole_heat u).
