(** Model of the array of flows that a network shares with its caller: the mixing weights
    are kept with a reference to the flows they were asked for (pygfunction/networks.py
    1109-1113, self._mixing_m_flow = m_flow_network), and the flows of the circuits that
    were formatted last are the array of the caller if it has one entry per circuit
    (1232-1238, np.atleast_1d makes no copy), while the keys of the stored coefficients,
    m_flow_network*cp_f, and the flows of the boreholes are new objects (1187-1193,
    1270-1274).  Net_Model.v keeps all of them by value.

    The arrays of flows of the caller have numbers as names; [heap] gives what they
    contain.  The lists of numbers of segments and of ratios, and the arrays of
    coefficients that are returned, are left out (see Alias_Model.v for those of a
    borehole). *)
From Coq Require Import Reals List Bool Arith.
From Verif Require Import Base LinAlg Net_Model.
Import ListNotations.
Local Open Scope R_scope.

Definition heap := nat -> list R.

(** m_flow_network is a number or an array *)
Inductive flow := Num (x : R) | Arr (a : nat).
Definition flow_at (h : heap) (f : flow) : val := match f with Num x => [x] | Arr a => h a end.

(** The arguments of a call *)
Record rargs := mkrargs { q_m : flow; q_cp : val; q_n : segs; q_r : ratios }.
Definition deref (h : heap) (g : rargs) : args := mkargs (flow_at h (q_m g)) (q_cp g) (q_n g) (q_r g).

(** The inputs formatted last; [z_from] is the array of the caller in which the flows of
    the circuits are read *)
Record rfmt := mkrfmt { z_fmt : fmt; z_from : option nat }.
Definition fmt_at (h : heap) (z : rfmt) : fmt :=
  let F := z_fmt z in
  mkfmt (match z_from z with Some a => h a | None => f_m F end) (f_rev F) (f_mb F) (f_cpb F) (f_seg F) (f_rat F).

(** The state of the network, with the references of _m_flow_in and _mixing_m_flow *)
Record rstate := mkrst {
  t_store : list (option entry);
  t_fmt : option rfmt;
  t_mix : option (flow * (nat -> R)) }.

(** What the network compares and returns, in a given heap *)
Definition view (h : heap) (t : rstate) : state :=
  mkst (t_store t) (option_map (fmt_at h) (t_fmt t)) (option_map (fun p => (flow_at h (fst p), snd p)) (t_mix t)).

(** 1146-1159 *)
Definition r_init : rstate := mkrst (repeat None 7) None None.

(** 1226-1295; an array with one entry is copied by np.tile (1234) *)
Definition source (h : heap) (f : flow) : option nat :=
  match f with
  | Num _ => None
  | Arr a => if Nat.eqb (length (h a)) 1 then None else Some a
  end.
Definition r_set_fmt (h : heap) (t : rstate) (g : rargs) (F : fmt) : rstate :=
  mkrst (t_store t) (Some (mkrfmt F (source h (q_m g)))) (t_mix t).

(** 1187-1193 *)
Definition r_set_entry (h : heap) (t : rstate) (id : nat) (g : rargs) (v : coefs) : rstate :=
  match bcast Rmult (flow_at h (q_m g)) (q_cp g) with
  | Some mcp => mkrst (upd (t_store t) id (Some (mkentry mcp (q_n g) (q_r g) v))) (t_fmt t) (t_mix t)
  | None => t
  end.

(** The common shape of the seven methods *)
Definition r_cached (h : heap) (id : nat) (g : rargs) (compute : rstate -> rstate * option coefs) (t : rstate) : rstate * option coefs :=
  match check_coefficients (deref h g) (nth id (t_store t) None) with
  | None => (t, None)
  | Some true => (t, match nth id (t_store t) None with Some e => Some (e_coef e) | None => None end)
  | Some false =>
      match compute t with
      | (t', Some v) => (r_set_entry h t' id g v, Some v)
      | (t', None) => (t', None)
      end
  end.

(** 571-649 *)
Definition r_inlet (h : heap) (N : net) (ps : list pipe) (g : rargs) : rstate -> rstate * option coefs :=
  r_cached h 0 g (fun t =>
    match format_inputs N (deref h g) with
    | None => (t, None)
    | Some F => (r_set_fmt h t g F, coef_inlet N ps F)
    end).

(** 651-729 *)
Definition r_outlet (h : heap) (N : net) (ps : list pipe) (g : rargs) : rstate -> rstate * option coefs :=
  r_cached h 1 g (fun t =>
    match format_inputs N (deref h g) with
    | None => (t, None)
    | Some F => (r_set_fmt h t g F, coef_outlet N ps F)
    end).

(** 862-939 *)
Definition r_qb (h : heap) (N : net) (ps : list pipe) (g : rargs) : rstate -> rstate * option coefs :=
  r_cached h 4 g (fun t =>
    match format_inputs N (deref h g) with
    | None => (t, None)
    | Some F =>
        match r_inlet h N ps g (r_set_fmt h t g F) with
        | (t', Some b) => (t', Some (coef_qb N ps F b))
        | (t', None) => (t', None)
        end
    end).

(** 941-1018 *)
Definition r_qf (h : heap) (N : net) (ps : list pipe) (g : rargs) : rstate -> rstate * option coefs :=
  r_cached h 5 g (fun t =>
    match format_inputs N (deref h g) with
    | None => (t, None)
    | Some F =>
        match r_inlet h N ps g (r_set_fmt h t g F) with
        | (t', Some b) => (t', Some (coef_qf N ps F b))
        | (t', None) => (t', None)
        end
    end).

(** 1020-1084 *)
Definition r_net_heat (h : heap) (N : net) (ps : list pipe) (g : rargs) : rstate -> rstate * option coefs :=
  r_cached h 6 g (fun t =>
    match r_qf h N ps g t with
    | (t', Some b) => (t', Some (coef_net_heat N b))
    | (t', None) => (t', None)
    end).

(** 731-795 *)
Definition r_net_inlet (h : heap) (N : net) (ps : list pipe) (g : rargs) : rstate -> rstate * option coefs :=
  r_cached h 2 g (fun t =>
    match r_net_heat h N ps g t with
    | (t', Some b) => (t', coef_net_inlet b)
    | (t', None) => (t', None)
    end).

(** 1086-1114 and 1196-1203 *)
Definition r_mixing (h : heap) (N : net) (m : flow) (t : rstate) : rstate * option (nat -> R) :=
  let hit := match t_mix t with
             | None => Some false
             | Some (m0, _) => near_val (flow_at h m) (flow_at h m0)
             end in
  match hit with
  | None => (t, None)
  | Some true => (t, match t_mix t with Some (_, w) => Some w | None => None end)
  | Some false =>
      match t_fmt t with
      | None => (t, None)
      | Some z =>
          let w := mixing (iOutlets N (f_rev (z_fmt z))) (match z_from z with Some a => h a | None => f_m (z_fmt z) end) in
          (mkrst (t_store t) (t_fmt t) (Some (m, w)), Some w)
      end
  end.

(** 797-860 *)
Definition r_net_outlet (h : heap) (N : net) (ps : list pipe) (g : rargs) : rstate -> rstate * option coefs :=
  r_cached h 3 g (fun t =>
    match r_outlet h N ps g t with
    | (t', Some b) =>
        match r_mixing h N (q_m g) t' with
        | (t'', Some w) => (t'', Some (coef_net_outlet N w b))
        | (t'', None) => (t'', None)
        end
    | (t', None) => (t', None)
    end).

Definition r_call (h : heap) (N : net) (ps : list pipe) (k : method) (g : rargs) : rstate -> rstate * option coefs :=
  match k with
  | Inlet => r_inlet h N ps g
  | Outlet => r_outlet h N ps g
  | NetInlet => r_net_inlet h N ps g
  | NetOutlet => r_net_outlet h N ps g
  | BoreHeat => r_qb h N ps g
  | FluidHeat => r_qf h N ps g
  | NetHeat => r_net_heat h N ps g
  end.

(** What happens: a request, or a statement of the caller that writes in an array of flows. *)
Inductive event := Ask (k : method) (g : rargs) | Write (a : nat) (l : list R).

Definition set_heap (h : heap) (a : nat) (l : list R) : heap := fun i => if Nat.eqb i a then l else h i.

Definition after_event (N : net) (ps : list pipe) (e : event) (s : heap * rstate) : heap * rstate :=
  match e with
  | Ask k g => (fst s, fst (r_call (fst s) N ps k g (snd s)))
  | Write a l => (set_heap (fst s) a l, snd s)
  end.

(** The state after a sequence of events, and the answer to a request in a state *)
Definition run (N : net) (ps : list pipe) (l : list event) (s : heap * rstate) : heap * rstate :=
  fold_left (fun s e => after_event N ps e s) l s.
Definition asked (N : net) (ps : list pipe) (k : method) (g : rargs) (s : heap * rstate) : option coefs :=
  snd (r_call (fst s) N ps k g (snd s)).
