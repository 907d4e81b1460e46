(** Specification of the g-function objects: C56, C84 and the following. *)
From Coq Require Import String.
From Verif Require Import Base LinAlg FLS_Model.
From Verif Require Import Bore_Model Net_Model Net_Spec Solve_Model Detailed_Model Detailed_Spec Sim_Model Sim_Spec Eq_Model Eq_Spec GFun_Model.

(** The same object for other times. *)
Definition with_time (c : call) (t : pyval) : call :=
  mkcall (c_source c) (c_alpha c) t (c_method c) (c_bc c) (c_mb c) (c_mn c) (c_cp c) (c_options c).

(** The same object with another method. *)
Definition with_method (c : call) (m : string) : call :=
  mkcall (c_source c) (c_alpha c) (c_time c) m (c_bc c) (c_mb c) (c_mn c) (c_cp c) (c_options c).

(** The same object with other flows and another heat capacity. *)
Definition with_flow (c : call) (mb mn cp : pyval) : call :=
  mkcall (c_source c) (c_alpha c) (c_time c) (c_method c) (c_bc c) mb mn cp (c_options c).

(** The same object with another boundary condition. *)
Definition with_bc (c : call) (bc : option string) : call :=
  mkcall (c_source c) (c_alpha c) (c_time c) (c_method c) bc (c_mb c) (c_mn c) (c_cp c) (c_options c).

(** The same object with another list of boreholes or network. *)
Definition with_source (c : call) (f : source) : call :=
  mkcall f (c_alpha c) (c_time c) (c_method c) (c_bc c) (c_mb c) (c_mn c) (c_cp c) (c_options c).

(** The same network with another stored flow and heat capacity. *)
Definition store (w : network) (m cp : pyval) : network := mknetwork (w_b w) (w_p w) (w_ks w) (w_Rd w) (w_c w) m cp.

(** The connections of a network that can be built, with one pipe for each borehole. *)
Definition connected (w : network) : Prop :=
  length (w_p w) = length (w_b w) /\ exists conn, build_net (length (w_b w)) conn = Some (w_c w).

Definition boreholes_of (c : call) : list bore := match c_source c with Field bs => bs | Piped w => w_b w end.

(** The threshold of the times of the linear start *)
Definition threshold_of (c : call) (thr : R) : Prop :=
  exists r, lmax (map br (boreholes_of c)) = Some r /\ thr = time_threshold r (c_alpha c) (o_thr (c_options c)).

(** Numbers of segments and ratios that the options stand for. *)
Definition segments_of (c : call) : list nat := format_segments (length (boreholes_of c)) (o_n (c_options c)).
Definition ratios_of (c : call) : list (list R) := format_ratios (length (boreholes_of c)) (segments_of c) (o_r (c_options c)).

(** Vertical boreholes of a field that the tolerances do not confuse (C51). *)
Definition sharp (c : call) (u M : R) : Prop :=
  let bs := boreholes_of c in let o := c_options c in
  segmented bs (segments_of c) (ratios_of c) /\ vertical_field bs /\ good_ratios (ratios_of c) /\
  Sim_Spec.on_grid (o_tol o) u M bs (segments_of c) (ratios_of c) /\ radii_apart (o_tol o) bs /\ ratios_apart (o_tol o) (ratios_of c) /\
  0 < o_disTol o /\ (0 < length bs)%nat /\ level bs /\ distances_apart (o_disTol o) bs.

(** The same number of segments and the same ratios for all boreholes, in a field that the
    equivalent boreholes represent exactly (C81). *)
Definition sharp_equivalent (c : call) (u M : R) (n : nat) (r : list R) : Prop :=
  let bs := boreholes_of c in let o := c_options c in
  segments_of c = repeat n (length bs) /\ ratios_of c = repeat r (length bs) /\
  regular_field (o_tol o) (o_disTol o) u M bs n r /\ distances_apart (o_disTol o) bs.

(** Mean response at time t, from zero to the threshold along a line. *)
Definition started (f : R -> R) (thr t : R) : R := if Rleb t thr then f thr * Rmax t 0 / thr else f t.

(** No time is repeated after the threshold. *)
Definition no_repeats (thr : R) (l : list R) : Prop :=
  forall k, (S k < length l)%nat -> thr < nth (S k) l 0 -> nth k l 0 < nth (S k) l 0.

(** Some clustering of the field gathers boreholes that see the others at the same
    distances (C83). *)
Definition equitable_field (link : list R -> tree) (c : call) : Prop :=
  exists ls E, equivalent_boreholes link (o_k (c_options c)) (o_tol (c_options c)) (boreholes_of c) = Some E /\
    gathers (boreholes_of c) ls E /\ equitable ls (boreholes_of c).

(** The heat that the fluid takes at the wall temperatures T with the inlet temperature t
    is on the whole taken where the wall is warmer than the inlet. *)
Definition passive (n : nat) (F : flow) : Prop :=
  forall t T, 0 <= sumn n (fun i => (T i - t) * (f_in F i * t + sumn n (fun j => f_b F i j * T j))).

(** Some heat is taken at the inlet temperature. *)
Definition circulates (n : nat) (F : flow) : Prop := exists i, (i < n)%nat /\ f_in F i <> 0.

(** The heat extraction rate of the network is the one of its segments, and depends on the
    inlet temperature. *)
Definition consistent_flow (n : nat) (F : flow) : Prop :=
  f_net_in F <> 0 /\ f_net_in F = sumn n (f_in F) /\ forall k, (k < n)%nat -> f_net_b F k = sumn n (fun i => f_b F i k).

(** The heat taken along the segments of all pipes, at the flows of the call, is the heat
    gained by the fluid (C28). *)
Definition balanced_pipes (w : network) (ns : list nat) (rs : list (list R)) (cp row : list R) : Prop :=
  every_pipe pipe_balanced (w_c w) (w_p w) (the_fmt (w_c w) (mkargs row cp (SegL ns) (Net_Model.RList rs))).
