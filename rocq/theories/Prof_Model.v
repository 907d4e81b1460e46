(** Figures of heat extraction rates and of wall temperatures of a g-function object:
    pygfunction/gfunction.py 491-547 and 549-1400.

    A figure is the list of the curves of its right panel, in the order in which they are
    drawn, each with the index of its borehole; a curve is the list of its points.  None
    is an exception.  The plan view, colours and labels are not modelled.  Indices of
    boreholes are natural numbers.  An array over (flow, .) is a list of rows, with a
    single row when there is no axis of flows. *)
From Coq Require Import String.
From Verif Require Import Base LinAlg FLS_Model.
From Verif Require Import Bore_Model Net_Model Solve_Model Detailed_Model Sim_Model Eq_Model GFun_Model.

(** _base_solver.py 252-456: Q_b and T_b at the end of solve, for the three boundary
    conditions (the heat extraction rate of the first one is the number 1). *)
Inductive stored := Uniform (T : list vec) | Wall (Q : list vec) (T : list R) | Mixed (Q T : list (list vec)).

Definition curve := list (R * R).
Definition figure := list (nat * curve).

(** matplotlib: both coordinates have the same number of values *)
Definition plot (x y : list R) : option curve :=
  if Nat.eqb (List.length x) (List.length y) then Some (combine x y) else None.

(** list.index and range.index *)
Fixpoint position (l : list nat) (i : nat) : nat :=
  match l with [] => O | j :: r => if Nat.eqb j i then O else S (position r i) end.

(** 600-634, 748-789, 894-942, 1040-1083 and the loops for one of the flows: the curves of
    the requested boreholes, from the coordinates [data] of the boreholes of [iB].  The
    first element of the pair is drawn along x. *)
Definition draw (nB : nat) (iB : list nat) (data : list (list R * list (list R))) (swap : bool) (n : nat) : option figure :=
  Net_Model.all_some (map (fun i =>
    match nth_error data (position iB i) with
    | Some (x, rows) =>
        match nth_error rows n with
        | Some y => option_map (fun p => (i, p)) (if swap then plot y x else plot x y)
        | None => None
        end
    | None => None
    end) (filter (fun i => existsb (Nat.eqb i) iB) (seq 0 nB))).

Section Object.
  (** an object with the attributes that the figures use: lengths and depths of
      solver.boreholes, segments, ratios, nMassFlow, number of sources, times, Q_b and T_b,
      and the diffusivity *)
  Record object := mkobject {
    b_bores : list bore; b_n : list nat; b_r : list (list R); b_k : nat; b_sources : nat; b_time : list R; b_stored : stored; b_alpha : R }.
  Variable V : object.

  Local Notation nB := (List.length (b_bores V)).
  Definition i0 (i : nat) : nat := nth i (i0_segments nB (b_n V)) O.
  Definition i1 (i : nat) : nat := nth i (i1_segments nB (b_n V)) O.

  (** 1164-1173, 1175-1178: the mean over the segments of a borehole, at all times *)
  Definition average (i : nat) (rows : list vec) : list R :=
    map (fun q => Rsum (map (fun k => q k * nth (k - i0 i) (nth i (b_r V) []) 0) (seq (i0 i) (i1 i - i0 i)))) rows.

  (** a list index *)
  Definition there {A} (i : nat) (v : A) : option A := if Nat.ltb i nB then Some v else None.

  (** 1138-1179: _heat_extraction_rates, one borehole.  With several flows and another
      boundary condition than 'MIFT' the arrays have too few dimensions. *)
  Definition heat_rates (i : nat) : option (list (list R)) :=
    match b_stored V with
    | Uniform _ => if Nat.eqb (b_k V) 0 then Some [repeat 1 (List.length (b_time V))] else None
    | Wall Q _ => if Nat.eqb (b_k V) 0 then there i [average i Q] else None
    | Mixed Q _ => there i (map (average i) Q)
    end.

  (** 1262-1303: _temperatures, one borehole *)
  Definition temperatures (i : nat) : option (list (list R)) :=
    match b_stored V with
    | Uniform T => if Nat.eqb (b_k V) 0 then there i [average i T] else None
    | Wall _ T => if Nat.eqb (b_k V) 0 then Some [T] else None
    | Mixed _ T => there i (map (average i) T)
    end.

  Definition bore_at (i : nat) : bore := nth i (b_bores V) (Bore 0 0 0 0 0 0 0).
  (** D to D + H *)
  Definition ends (i : nat) : list R := [bD (bore_at i); bD (bore_at i) + bH (bore_at i)].
  Definition mid_depths (i : nat) : list R :=
    map (fun z => bD (bore_at i) + z) (segment_midpoints (bore_at i) (nth i (b_n V) O) (Some (nth i (b_r V) []))).

  (** the values of the sources [ks] at the last time, or interpolated at a time; numpy
      does not complain about a single time value when interpolating: it gives nan
      (not modelled) *)
  Definition last_values (ks : list nat) (rows : list vec) : list R := map (fun k => last rows zero_vec k) ks.
  Definition values_at (t : R) (ks : list nat) (rows : list vec) : option (list R) :=
    option_map (fun f => map (fun k => f (map (fun q => q k) rows)) ks) (interp1d (b_time V) t).

  (** the sources of a borehole, i0:i1 *)
  Definition own (i : nat) : list nat := seq (i0 i) (i1 i - i0 i).

  (** 1243-1259 and 1381-1399: with a single segment the value is repeated *)
  Definition profile (i : nat) (rows : list (list R)) : list R * list (list R) :=
    if Nat.ltb 1 (nth i (b_n V) O) then (mid_depths i, rows)
    else (ends i, map (flat_map (fun v => [v; v])) rows).

  (** 1219-1242 for several flows and a given time: Q_b[i0:i1,:] is taken along the axis
      of the flows, all sources are kept *)
  Definition flows_at (t : R) (i : nat) (Q : list (list vec)) : option (list (list R)) :=
    Net_Model.all_some (map (values_at t (seq 0 (b_sources V))) (slice (i0 i) (i1 i) Q)).

  (** 1181-1260: _heat_extraction_rate_profiles, one borehole *)
  Definition heat_profile (time : option R) (i : nat) : option (list R * list (list R)) :=
    match b_stored V with
    | Uniform _ => if Nat.eqb (b_k V) 0 then there i (ends i, [[1; 1]]) else None
    | Wall Q _ =>
        if Nat.eqb (b_k V) 0 && Nat.ltb i nB then
          match time with
          | None => Some (profile i [last_values (own i) Q])
          | Some t => option_map (fun v => profile i [v]) (values_at t (own i) Q)
          end
        else None
    | Mixed Q _ =>
        if Nat.ltb i nB then
          match time with
          | None => Some (profile i (map (last_values (own i)) Q))
          | Some t =>
              if Nat.eqb (b_k V) 0 then option_map (profile i) (Net_Model.all_some (map (values_at t (own i)) Q))
              else option_map (profile i) (flows_at t i Q)
          end
        else None
    end.

  (** 1305-1400: _temperature_profiles, one borehole.  numpy.asscalar (1340, 1343) is not an
      attribute of the versions of numpy that the package asks for (setup.cfg 27).  With a
      given time, 1361-1365 first interpolates along the second axis, which is the one of
      the sources when there are several flows. *)
  Definition temperature_profile (time : option R) (i : nat) : option (list R * list (list R)) :=
    match b_stored V with
    | Uniform T =>
        if Nat.eqb (b_k V) 0 && Nat.ltb i nB then
          match time with
          | None => Some (profile i [last_values (own i) T])
          | Some t => option_map (fun v => profile i [v]) (values_at t (own i) T)
          end
        else None
    | Wall _ _ => None
    | Mixed _ T =>
        if Nat.ltb i nB then
          match time with
          | None => Some (profile i (map (last_values (own i)) T))
          | Some t =>
              if Nat.eqb (b_k V) 0 then option_map (profile i) (Net_Model.all_some (map (values_at t (own i)) T))
              else if Nat.eqb (List.length (b_time V)) (b_sources V) then option_map (profile i) (flows_at t i T)
              else None
          end
        else None
    end.

  (** 582-584, 526-528: the logarithms of the times over the characteristic time of a
      list of boreholes *)
  Definition log_times (bs : list bore) : list R :=
    let ts := (Rsum (map bH bs) / INR (List.length bs)) ^ 2 / (9 * b_alpha V) in map (fun t => ln (t / ts)) (b_time V).

  Definition requested (iB : option (list nat)) : list nat := match iB with None => seq 0 nB | Some l => l end.

  (** 549-693 and 847-988: the figures over time *)
  Definition time_figure (data : nat -> option (list (list R))) (iB : option (list nat)) (n : nat) : option figure :=
    match Net_Model.all_some (map data (requested iB)) with
    | None => None
    | Some d => draw nB (requested iB) (map (fun rows => (log_times (b_bores V), rows)) d) false n
    end.

  (** 695-845 and 990-1136: the profiles, the depth along y *)
  Definition depth_figure (data : nat -> option (list R * list (list R))) (iB : option (list nat)) (n : nat) : option figure :=
    match Net_Model.all_some (map data (requested iB)) with
    | None => None
    | Some d => draw nB (requested iB) d true n
    end.
End Object.

Section Figures.
  Variables (link : list R -> tree) (uw : list (R * R)).

  (** _base_solver.py 207-460: what solve stores; the values of the g-function are
      those of GFun_Model.solve *)
  Definition solve_stored (bc : string) (k_s : R) (rows : list (list R)) (y : system) (time : list R) (thr : R) : option stored :=
    let trf := at_times (y_h y) in
    if String.eqb bc "UHTR" then Some (Uniform (snd (solve_uhtr (y_n y) (y_H y) trf time thr)))
    else if String.eqb bc "UBWT" then option_map (fun s => Wall (fst s) (snd s)) (solve_ubwt (y_n y) (y_H y) trf time thr)
    else match Net_Model.all_some (map (y_flow y) rows) with
         | Some Fs => option_map (fun r => Mixed (snd (fst r)) (snd r)) (solve_mift (y_n y) (y_H y) trf k_s (y_Hi y) Fs time thr)
         | None => None
         end.

  (** solver.boreholes, nBoreSegments and segment_ratios at the end of the construction of
      the solver (equivalent.py 193-201, 397-405: one borehole for each group) *)
  Definition solver_boreholes (c : call) (q : request) (s : solver) : option (list bore * list nat * list (list R)) :=
    if String.eqb (lower (q_method q)) "equivalent" then
      option_map (fun E => (map dims E, repeat (hd O (v_n s)) (List.length E), repeat (hd [] (v_r s)) (List.length E)))
        (equivalent_boreholes link (o_k (c_options c)) (o_tol (c_options c)) (q_bs q))
    else Some (q_bs q, v_n s, v_r s).

  (** An evaluated object, with the option profiles. *)
  Definition evaluated (c : call) : option object :=
    match gfunction link uw c, construct c with
    | Some _, Some (q, s) =>
        match times (c_time c), lmax (map br (q_bs q)), make_system link uw c q s, solver_boreholes c q s with
        | Some t, Some r_b_max, Some y, Some (bs, ns, rs) =>
            let k_s := match q_net q with Some w => nth 0 (w_ks w) 0 | None => 0 end in
            option_map (fun d => mkobject bs ns rs (v_k s) (y_n y) t d (c_alpha c))
              (solve_stored (q_bc q) k_s (v_rows s) y t (time_threshold r_b_max (c_alpha c) (o_thr (c_options c))))
        | _, _, _, _ => None
        end
    | _, _ => None
    end.

  (** The figures of an object: with profiles=False there are no attributes Q_b and T_b
      (_base_solver.py 455-457).  [n] is the index of a flow, 0 if there is only one. *)
  Definition on (profiles : bool) (c : call) (f : object -> option figure) : option figure :=
    if profiles then match evaluated c with Some V => f V | None => None end else None.
  Definition heat_figure (profiles : bool) (c : call) (iB : option (list nat)) (n : nat) : option figure :=
    on profiles c (fun V => time_figure V (heat_rates V) iB n).
  Definition temperature_figure (profiles : bool) (c : call) (iB : option (list nat)) (n : nat) : option figure :=
    on profiles c (fun V => time_figure V (temperatures V) iB n).
  Definition heat_profile_figure (profiles : bool) (c : call) (time : option R) (iB : option (list nat)) (n : nat) : option figure :=
    on profiles c (fun V => depth_figure V (heat_profile V time) iB n).
  Definition temperature_profile_figure (profiles : bool) (c : call) (time : option R) (iB : option (list nat)) (n : nat) : option figure :=
    on profiles c (fun V => depth_figure V (temperature_profile V time) iB n).

  (** 491-547: visualize_g_function, the curve of the flows i and j *)
  Definition g_figure (c : call) (i j : nat) : option curve :=
    match gfunction link uw c, construct c, times (c_time c) with
    | Some g, Some (q, s), Some t =>
        let V := mkobject (q_bs q) [] [] O O t (Uniform []) (c_alpha c) in
        match g with
        | G1 l => plot (log_times V (q_bs q)) l
        | G3 k v => if Nat.ltb i k && Nat.ltb j k then plot (log_times V (q_bs q)) (map (v i j) (seq 0 (List.length t))) else None
        end
    | _, _, _ => None
    end.
End Figures.
