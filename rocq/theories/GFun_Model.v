(** The g-function objects and the older functions: pygfunction/gfunction.py, with the
    constructor of the solvers of pygfunction/solvers/_base_solver.py.

    Exceptions are None.  The type of a Python value matters here: [pyval].  The options
    approximate_FLS, kind, dtype, disp and profiles have their default values.  Networks
    and pipes give the coefficients of an object without stored coefficients. *)
From Coq Require Import String Ascii.
From Verif Require Import Base LinAlg FLS_Model.
From Verif Require Import Bore_Model Net_Model Solve_Model Detailed_Model Sim_Model Eq_Model.
Local Open Scope string_scope.

(** None, a float, a numpy.float64, an int, a list of floats, arrays of one and two
    dimensions *)
Inductive pyval :=
| VNone | VFloat (x : R) | VNpFloat (x : R) | VInt (z : Z) | VList (l : list R)
| VArr (l : list R) | VArr2 (rows : list (list R)).

Definition is_none (v : pyval) : bool := match v with VNone => true | _ => false end.

(** A value in products of flows and heat capacities, as the list of its entries.  Lists
    and arrays of two dimensions are not values of these arguments. *)
Definition numbers (v : pyval) : option (list R) :=
  match v with
  | VFloat x | VNpFloat x => Some [x]
  | VInt z => Some [IZR z]
  | VArr l => Some l
  | _ => None
  end.

(** networks.py 85-93: boreholes, pipes, conductivity of the ground and resistances _Rd of
    the pipes (entries of the square matrix), connections, mass flow rate, heat capacity *)
Record network := mknetwork {
  w_b : list bore; w_p : list pipe; w_ks : list R; w_Rd : list (list R); w_c : net; w_m : pyval; w_cp : pyval }.

(** networks.py 84-104 and 1162-1180: the coefficients are evaluated if the flow, the
    heat capacity and the number of segments are given.  All calls have the same
    arguments, with the answers of an object without stored coefficients. *)
Definition all_methods : list method := [Inlet; Outlet; NetInlet; NetOutlet; BoreHeat; FluidHeat; NetHeat].
Definition answers (N : net) (ps : list pipe) (g : args) : bool :=
  forallb (fun k => match fresh N ps k g with Some _ => true | None => false end) all_methods.
Definition make_network (bs : list bore) (ps : list pipe) (ks : list R) (Rd : list (list R)) (conn : option (list Z))
  (m cp : pyval) (nSegments : option segs) : option network :=
  match build_net (List.length bs) conn with
  | None => None
  | Some N =>
      let w := mknetwork bs ps ks Rd N m cp in
      match nSegments with
      | None => Some w
      | Some s =>
          if is_none m || is_none cp then Some w
          else match numbers m, numbers cp with
               | Some lm, Some lc => if answers N ps (mkargs lm lc s Net_Model.RNone) then Some w else None
               | _, _ => None
               end
      end
  end.

(** ** gFunction: inputs *)

Inductive source := Field (bs : list bore) | Piped (w : network).

(** options: nSegments, segment_ratios, linear_threshold, tol, disTol, kClusters *)
Record options := mkoptions {
  o_n : segments_arg; o_r : ratios_arg; o_thr : option R; o_tol : R; o_disTol : R; o_k : nat }.

(** gfunction.py 246-258 *)
Record call := mkcall {
  c_source : source; c_alpha : R; c_time : pyval; c_method : string; c_bc : option string;
  c_mb : pyval; c_mn : pyval; c_cp : pyval; c_options : options }.

(** str.lower and str.upper of a letter *)
Definition lower_char (c : ascii) : ascii :=
  let n := nat_of_ascii c in if Nat.leb 65 n && Nat.leb n 90 then ascii_of_nat (n + 32) else c.
Definition upper_char (c : ascii) : ascii :=
  let n := nat_of_ascii c in if Nat.leb 97 n && Nat.leb n 122 then ascii_of_nat (n - 32) else c.
Fixpoint str_map (f : ascii -> ascii) (s : string) : string :=
  match s with EmptyString => EmptyString | String c r => String (f c) (str_map f r) end.
Definition lower : string -> string := str_map lower_char.
Definition upper : string -> string := str_map upper_char.

(** numpy.allclose of two numbers *)
Definition close (a b : R) : bool := Rleb (Rabs (a - b)) (1 / 10 ^ 8 + 1 / 10 ^ 5 * Rabs b).
Definition all_close (a b : list R) : bool := forallb (fun c => close (fst c) (snd c)) (combine a b).

(** 1444-1447: the first element of an array of two dimensions is its first row *)
Definition equal_flows (mb : pyval) : option bool :=
  match mb with
  | VNone => Some true
  | VList (x :: l) | VArr (x :: l) => Some (forallb (fun y => close y x) (x :: l))
  | VArr2 (r0 :: rows) => Some (forallb (fun r => all_close r r0) (r0 :: rows))
  | _ => None
  end.

(** 1453-1455: matrices of different sizes are not compared *)
Definition same_pipes (w : network) : option bool :=
  match w_Rd w with
  | [] => None
  | R0 :: _ =>
      if forallb (fun r => Nat.eqb (List.length r) (List.length R0)) (w_Rd w)
      then Some (forallb (fun r => all_close R0 r) (w_Rd w)) else None
  end.

Definition parallel (w : network) : bool := forallb (fun z => Z.eqb z (-1)) (n_c (w_c w)).

(** What is left in the object *)
Record request := mkrequest {
  q_bs : list bore; q_net : option network; q_method : string; q_bc : string; q_mb : pyval; q_mn : pyval; q_cp : pyval }.

(** 1402-1461: _format_inputs *)
Definition resolve (c : call) : option request :=
  let net := match c_source c with Field _ => None | Piped w => Some w end in
  let bs := match c_source c with Field bs => bs | Piped w => w_b w end in
  let bc := match c_bc c with
            | Some s => s
            | None => match net with Some _ => "MIFT" | None => "UBWT" end
            end in
  let from_net := is_none (c_mb c) && is_none (c_mn c) in
  let mn := match net with
            | Some w => if from_net then match w_m w with VFloat x => VFloat x | _ => VNone end else c_mn c
            | None => c_mn c
            end in
  let mb := match net with
            | Some w => if from_net then match w_m w with VArr l => VArr l | VArr2 l => VArr2 l | _ => VNone end else c_mb c
            | None => c_mb c
            end in
  let cp := match net with
            | Some w => if is_none (c_cp c) then match w_cp w with VFloat x => VFloat x | _ => VNone end else c_cp c
            | None => c_cp c
            end in
  let done method := Some (mkrequest bs net method bc mb mn cp) in
  if String.eqb bc "MIFT" && String.eqb (lower (c_method c)) "equivalent" then
    match net with
    | None => None
    | Some w =>
        if negb (parallel w) then done "similarities"
        else match equal_flows mb with
             | None => None
             | Some false => done "similarities"
             | Some true => match same_pipes w with
                            | None => None
                            | Some false => done "similarities"
                            | Some true => done (c_method c)
                            end
             end
    end
  else done (c_method c).

(** 1463-1505: _check_inputs; true if there is no exception *)
Definition check (c : call) (q : request) : bool :=
  negb (Nat.eqb (List.length (q_bs q)) 0)
  && match find_duplicates (q_bs q) with Some [] => true | _ => false end
  && match q_net q with None => negb (String.eqb (q_bc q) "MIFT") | Some _ => true end
  && (if String.eqb (q_bc q) "MIFT" then
        negb (is_none (q_mn q) && is_none (q_mb q)) && negb (negb (is_none (q_mn q)) && negb (is_none (q_mb q)))
        && negb (is_none (q_cp q))
        && match q_mb q, q_net q with
           | VArr2 rows, Some w => Nat.eqb (List.length (hd [] rows)) (nInlets (w_c w))
           | _, _ => true
           end
      else true)
  && match c_time c with VArr _ | VArr2 _ | VFloat _ | VNpFloat _ | VNone => true | _ => false end
  && existsb (String.eqb (q_bc q)) ["UHTR"; "UBWT"; "MIFT"]
  && existsb (String.eqb (q_method q)) ["detailed"; "similarities"; "equivalent"].

(** ** Solvers: constructor *)

(** _base_solver.py 155-170: number of mass flow rates (0 for a single g-function) and
    what is passed to the network for each of them *)
Definition solver_flows (mb mn : pyval) : option (nat * list (list R)) :=
  match match mb with
        | VNone => Some (O, [])
        | VArr l => Some (O, [l])
        | VArr2 rows => Some (List.length rows, rows)
        | _ => None
        end with
  | None => None
  | Some (k, rows) =>
      match mn with
      | VNone => Some (k, rows)
      | VFloat x | VNpFloat x => Some (k, [[x]])
      | VArr l | VList l => Some (List.length l, map (fun x => [x]) l)
      | VArr2 l => Some (List.length l, l)
      | VInt _ => None
      end
  end.

Record solver := mksolver { v_n : list nat; v_r : list (list R); v_k : nat; v_rows : list (list R); v_net : option network }.

(** 590-602: the flows of a mixed inlet temperature *)
Definition check_flows (q : request) (rows : list (list R)) : bool :=
  if String.eqb (q_bc q) "MIFT" then
    negb (is_none (q_mn q) && is_none (q_mb q)) && negb (negb (is_none (q_mn q)) && negb (is_none (q_mb q)))
    && negb (is_none (q_cp q))
    && match q_mb q, q_net q with
       | VNone, _ => true
       | _, Some w => Nat.eqb (List.length (hd [] rows)) (nInlets (w_c w))
       | _, None => false
       end
  else true.

(** equivalent.py 826-845: the checks of a mixed inlet temperature and the assignment to
    the mass flow rate of the network.  The array of flows has two dimensions and
    nBoreholes is not an attribute yet (832, 344): an exception if there are flows. *)
Definition equivalent_network (q : request) : option (option network) :=
  if String.eqb (q_bc q) "MIFT" then
    match q_net q with
    | None => None
    | Some w =>
        if parallel w && is_none (q_mb q) then
          match same_pipes w with
          | Some true =>
              let m := match w_m w with
                       | VArr (x :: l) => if Nat.eqb (List.length (x :: l)) (List.length (w_b w))
                                          then VNpFloat (x * INR (List.length (w_b w))) else w_m w
                       | m => m
                       end in
              Some (Some (mknetwork (w_b w) (w_p w) (w_ks w) (w_Rd w) (w_c w) m (w_cp w)))
          | _ => None
          end
        else None
    end
  else Some (q_net q).

(** equivalent.py 814-825 *)
Definition equivalent_checks (o : options) (bs : list bore) (ns : list nat) (rs : list (list R)) : bool :=
  Rltb 0 (o_disTol o) && Rltb 0 (o_tol o)
  && forallb (fun n => Nat.eqb n (hd O ns)) ns && forallb (fun r => all_close r (hd [] rs)) rs
  && forallb (fun b => negb (tilted (btilt b))) bs.

(** _base_solver.py 114-180 and the constructors of the solvers (similarities.py 156-177,
    1330-1333; equivalent.py 187-191) *)
Definition make_solver (o : options) (q : request) : option solver :=
  let ns := format_segments (List.length (q_bs q)) (o_n o) in
  let rs := format_ratios (List.length (q_bs q)) ns (o_r o) in
  match solver_flows (q_mb q) (q_mn q) with
  | None => None
  | Some (k, rows) =>
      if check_flows q rows && check_segments (q_bs q) ns rs then
        if String.eqb (lower (q_method q)) "detailed" then Some (mksolver ns rs k rows (q_net q))
        else if String.eqb (lower (q_method q)) "similarities" then
          if Rltb 0 (o_disTol o) && Rltb 0 (o_tol o) then Some (mksolver ns rs k rows (q_net q)) else None
        else if String.eqb (lower (q_method q)) "equivalent" then
          if equivalent_checks o (q_bs q) ns rs then
            match equivalent_network q with
            | Some w => Some (mksolver ns rs k rows w)
            | None => None
            end
          else None
        else None
      else None
  end.

(** gfunction.py 246-282: construction without a time *)
Definition construct (c : call) : option (request * solver) :=
  match resolve c with
  | None => None
  | Some q =>
      if check c q then
        match make_solver (c_options c) q with
        | Some s => Some (q, s)
        | None => None
        end
      else None
  end.

(** ** Evaluation *)

(** 469-471: negative times are set to zero, the order is checked.  An array of two
    dimensions is refused by numpy.searchsorted; an empty array is not modelled. *)
Fixpoint increasing (l : list R) : bool :=
  match l with x :: (y :: _) as r => Rleb x y && increasing r | _ => true end.
Definition times (v : pyval) : option (list R) :=
  match numbers v with
  | None | Some [] => None
  | Some l => let t := map (fun x => Rmax x 0) l in if increasing t then Some t else None
  end.

(** a g-function, or the g-functions of all the pairs of mass flow rates *)
Inductive gresult := G1 (g : list R) | G3 (k : nat) (g : nat -> nat -> nat -> R).

(** thermal_response_factors at the times of a grid, from those at one time *)
Definition at_times (h : R -> option Mx) : list R -> nat -> nat -> nat -> R :=
  fun tl i j k => match h (nth k tl 0) with Some M => M i j | None => 0 end.
Definition defined_at (h : R -> option Mx) (tl : list R) : bool :=
  forallb (fun t => match h t with Some _ => true | None => false end) tl.

(** The coefficients of the network for one of the mass flow rates (_base_solver.py
    350-354, 411-425, 428-435) *)
Definition total_capacity (row cp : list R) : option R := option_map Rsum (bcast (fun m c => Rabs m * c) row cp).
Definition network_flow (w : network) (ns : list nat) (rs : list (list R)) (cp row : list R) : option flow :=
  let g := mkargs row cp (SegL ns) (Net_Model.RList rs) in
  match fresh (w_c w) (w_p w) BoreHeat g, fresh (w_c w) (w_p w) NetHeat g,
        network_thermal_resistance (w_c w) (w_p w) (Rsum (map bH (w_b w))) row cp, total_capacity row cp with
  | Some a, Some q, Some r, Some c => Some (mkflow (fst a) (snd a) (fst q O) (snd q O) c r)
  | _, _, _, _ => None
  end.

(** The same for the network of equivalent boreholes (networks.py 1469-1490): [ps] are
    the pipes of the equivalent boreholes, [wt] the numbers of boreholes. *)
Definition equivalent_flow (N : net) (ps : list pipe) (wt : list R) (Htot : R) (ns : list nat) (rs : list (list R)) (cp row : list R)
  : option flow :=
  let g1 := mkargs row cp (SegN 1) Net_Model.RNone in
  match eq_format N wt (mkargs row cp (SegL ns) (Net_Model.RList rs)), eq_format N wt g1, total_capacity row cp with
  | Some F, Some F1, Some c =>
      match coef_inlet N ps F, eq_heat N wt ps F, eq_outlet N wt ps F1, eq_heat N wt ps F1 with
      | Some a, Some q, Some o1, Some q1 =>
          let b := coef_qb N ps F a in
          Some (mkflow (fst b) (snd b) (fst q O) (snd q O) c (- (1/2) * Htot * (1 + fst o1 O) / fst q1 O))
      | _, _, _, _ => None
      end
  | _, _, _ => None
  end.

(** equivalent.py 407: the pipes of the first borehole with each label *)
Definition first_pipes (ps : list pipe) (labels : list nat) (nE : nat) : option (list pipe) :=
  Net_Model.all_some (map (fun i => match index_of labels (Z.of_nat i) with Some k => nth_error ps k | None => None end) (seq 0 nE)).

Section Evaluate.
  (** clustering of scipy (Eq_Model.v) and quadrature of the inclined solution (mQuad) *)
  Variables (link : list R -> tree) (uw : list (R * R)).

  (** What the solver works with: number of sources, lengths of the energy balance,
      lengths of the segments, response factors, and the coefficients for a mass flow
      rate. *)
  Record system := mksystem { y_n : nat; y_H : vec; y_Hi : vec; y_h : R -> option Mx; y_flow : list R -> option flow }.

  Definition no_flow : list R -> option flow := fun _ => None.

  (** detailed.py 160-237 *)
  Definition detailed_system (c : call) (q : request) (s : solver) (cp : list R) : system :=
    let bs := q_bs q in
    mksystem (n_sources bs (v_n s) (v_r s)) (segment_length bs (v_n s) (v_r s)) (segment_length bs (v_n s) (v_r s))
      (fun t => Some (detailed_matrix (line_kernel (c_alpha c) t uw) bs (v_n s) (v_r s)))
      (match q_net q with Some w => network_flow w (v_n s) (v_r s) cp | None => no_flow end).

  (** similarities.py 179-290 *)
  Definition similarities_system (c : call) (q : request) (s : solver) (cp : list R) : system :=
    let bs := q_bs q in let o := c_options c in
    mksystem (n_sources bs (v_n s) (v_r s)) (segment_length bs (v_n s) (v_r s)) (segment_length bs (v_n s) (v_r s))
      (fun t => sim_matrix (o_tol o) (o_disTol o) bs (v_n s) (v_r s) (kernel_v (c_alpha c) t) (kernel_i (c_alpha c) t uw))
      (match q_net q with Some w => network_flow w (v_n s) (v_r s) cp | None => no_flow end).

  (** equivalent.py 192-201, 313-447 *)
  Definition equivalent_system (c : call) (q : request) (s : solver) (cp : list R) : option system :=
    let bs := q_bs q in let o := c_options c in
    let n := hd O (v_n s) in let r := hd [] (v_r s) in
    match equivalent link (o_k o) (o_tol o) (o_disTol o) (c_alpha c) bs n r with
    | None => None
    | Some (E, H, h) =>
        let nE := List.length E in
        let Hi k := nth k (flat_map (fun e => map eH (eb_segments e n (Some r))) E) 0 in
        if String.eqb (q_bc q) "MIFT" then
          match q_net q, build_net nE None with
          | Some w, Some N =>
              match first_pipes (w_p w) (fst (clusters link (o_k o) (o_tol o) bs)) nE with
              | Some ps =>
                  Some (mksystem (n * nE) H Hi h
                    (equivalent_flow N ps (map (fun e => INR (Eq_Model.count e)) E) (Rsum (map (fun e => eH e * INR (Eq_Model.count e)) E))
                       (repeat n nE) (repeat r nE) cp))
              | None => None
              end
          | _, _ => None
          end
        else Some (mksystem (n * nE) H Hi h no_flow)
    end.

  Definition make_system (c : call) (q : request) (s : solver) : option system :=
    let cp := match numbers (q_cp q) with Some l => l | None => [] end in
    if String.eqb (lower (q_method q)) "detailed" then Some (detailed_system c q s cp)
    else if String.eqb (lower (q_method q)) "similarities" then Some (similarities_system c q s cp)
    else equivalent_system c q s cp.

  (** _base_solver.py 207-460: solve *)
  Definition solve (bc : string) (k_s : R) (k : nat) (rows : list (list R)) (y : system) (time : list R) (thr : R) : option gresult :=
    if defined_at (y_h y) (time_long time thr) then
      let trf := at_times (y_h y) in
      if String.eqb bc "UHTR" then Some (G1 (fst (solve_uhtr (y_n y) (y_H y) trf time thr)))
      else if String.eqb bc "UBWT" then option_map (fun s => G1 (snd s)) (solve_ubwt (y_n y) (y_H y) trf time thr)
      else match rows, Net_Model.all_some (map (y_flow y) rows) with
           | _ :: _, Some Fs =>
               match solve_mift (y_n y) (y_H y) trf k_s (y_Hi y) Fs time thr with
               | Some (g, _, _) =>
                   Some (if Nat.eqb k 0 then G1 (map (g O O) (seq 0 (List.length time))) else G3 k g)
               | None => None
               end
           | _, _ => None
           end
    else None.

  (** gfunction.py 454-490: evaluate_g_function *)
  Definition evaluate (c : call) (qs : request * solver) (time : pyval) : option gresult :=
    let (q, s) := qs in
    match times time, lmax (map br (q_bs q)), make_system c q s with
    | Some t, Some r_b_max, Some y =>
        let k_s := match q_net q with Some w => nth 0 (w_ks w) 0 | None => 0 end in
        solve (q_bc q) k_s (v_k s) (v_rows s) y t (time_threshold r_b_max (c_alpha c) (o_thr (c_options c)))
    | _, _, _ => None
    end.

  (** gFunction(...).gFunc: without a time there is no attribute *)
  Definition gfunction (c : call) : option gresult :=
    match construct c, c_time c with
    | Some qs, VNone => None
    | Some qs, t => evaluate c qs t
    | None, _ => None
    end.

  (** ** The older functions *)

  Definition solver_name (use_similarities : bool) : string := if use_similarities then "similarities" else "detailed".
  (** default of segment_ratios: utilities.segment_ratios *)
  Variable default_ratios : nat -> list R.

  (** 1508-1593 *)
  Definition uniform_heat_extraction (bs : list bore) (time : pyval) (alpha : R) (use_sim : bool) (disTol tol : R) : option gresult :=
    gfunction (mkcall (Field bs) alpha time (solver_name use_sim) (Some "UHTR") VNone VNone VNone
                 (mkoptions (SInt 1) (RFun default_ratios) None tol disTol 1)).

  (** 1596-1702 *)
  Definition uniform_temperature (bs : list bore) (time : pyval) (alpha : R) (n : segments_arg) (r : ratios_arg) (use_sim : bool) (disTol tol : R)
    : option gresult :=
    gfunction (mkcall (Field bs) alpha time (solver_name use_sim) (Some "UBWT") VNone VNone VNone (mkoptions n r None tol disTol 1)).

  (** value * integer *)
  Definition times_nat (v : pyval) (k : nat) : option pyval :=
    match v with
    | VNone => None
    | VFloat x => Some (VFloat (x * INR k))
    | VNpFloat x => Some (VNpFloat (x * INR k))
    | VInt z => Some (VInt (z * Z.of_nat k))
    | VList l => Some (VList (List.concat (repeat l k)))
    | VArr l => Some (VArr (map (fun x => x * INR k) l))
    | VArr2 rows => Some (VArr2 (map (map (fun x => x * INR k)) rows))
    end.

  (** 1705-1811; [ks] and [Rd] belong to the pipes [ps]. *)
  Definition equal_inlet_temperature (bs : list bore) (ps : list pipe) (ks : list R) (Rd : list (list R)) (m cp : pyval)
    (time : pyval) (alpha : R) (n : segments_arg) (r : ratios_arg) (use_sim : bool) (disTol tol : R) : option gresult :=
    match times_nat m (List.length bs) with
    | None => None
    | Some mn =>
        match make_network bs ps ks Rd None mn cp (Some (match n with SInt n => SegN n | SList l => SegL l end)) with
        | None => None
        | Some w => gfunction (mkcall (Piped w) alpha time (solver_name use_sim) (Some "MIFT") VNone VNone VNone (mkoptions n r None tol disTol 1))
        end
    end.

  (** 1814-1937 *)
  Definition mixed_inlet_temperature (w : network) (m cp : pyval) (time : pyval) (alpha : R) (n : segments_arg) (r : ratios_arg)
    (use_sim : bool) (disTol tol : R) : option gresult :=
    gfunction (mkcall (Piped w) alpha time (solver_name use_sim) (Some "MIFT") VNone VNone VNone (mkoptions n r None tol disTol 1)).

  (** 288-452 and networks.py 106-248: gFunction.from_static_params, the boreholes being
      those of the field of the arguments.  [fluid_cp] is the heat capacity of a fluid
      of a name, concentration and temperature; [pipes] are the pipes of the boreholes
      for a flow per borehole, with their conductivities and resistances, None if they
      can not be built. *)
  Definition static_gfunction (fluid_cp : string -> R -> R -> option R) (pipes : R -> option (list pipe * list R * list (list R)))
    (bs : list bore) (alpha : R) (time : pyval) (method : string) (m : pyval) (o : options) (bc : string)
    (fluid : string) (percent temperature : R) (conn : option (list Z)) : option gresult :=
    if negb (existsb (String.eqb (upper bc)) ["UBWT"; "UHTR"; "MIFT"]) then None
    else if String.eqb (upper bc) "MIFT" then
      let circuits := match conn with None => List.length bs | Some c => Net_Model.count c (-1) end in
      match m, fluid_cp fluid percent 20, fluid_cp fluid percent temperature with
      | VFloat x, Some cp, Some cp_net =>
          match pipes (Rabs (x / INR circuits)) with
          | None => None
          | Some (ps, ks, Rd) =>
              match make_network bs ps ks Rd conn m (VFloat cp_net) None with
              | None => None
              | Some w => gfunction (mkcall (Piped w) alpha time method (Some bc) VNone m (VFloat cp) o)
              end
          end
      | _, _, _ => None
      end
    else gfunction (mkcall (Field bs) alpha time method (Some bc) VNone m VNone o).
End Evaluate.
