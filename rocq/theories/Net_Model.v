(* Model of pygfunction/networks.py.

   Python integers of the connectivity list are Z, boreholes are nat indices,
   flows and temperatures are R.  An exception is None.  Pipes enter through the
   coefficients they return (class pipe below), as pure functions of their
   arguments: the caches inside the pipes are modelled in Pipe_Model.v. *)
From Coq Require Import Reals Lra Lia List ZArith Bool.
From Verif Require Import Base LinAlg.
Import ListNotations.
Local Open Scope R_scope.

(* ------------------------------------------------------------------ *)
(* Connectivity                                                        *)

(* Python list indexing, negative indices included: l[z]. *)
Definition py_index (n : nat) (z : Z) : option nat :=
  if (0 <=? z)%Z && (z <? Z.of_nat n)%Z then Some (Z.to_nat z)
  else if (- Z.of_nat n <=? z)%Z && (z <? 0)%Z then Some (Z.to_nat (Z.of_nat n + z))
  else None.

Definition py_get (c : list Z) (z : Z) : option Z :=
  match py_index (length c) z with
  | Some i => Some (nth i c 0%Z)
  | None => None
  end.

(* list.count *)
Definition count (c : list Z) (z : Z) : nat := length (filter (Z.eqb z) c).

(* networks.py 1396-1403, the while loop.  n is compared with nBoreholes after
   each step, so at most nBoreholes steps complete without raising: that is the
   fuel. *)
Fixpoint walk (fuel : nat) (c : list Z) (index_in : Z) : bool :=
  if Z.eqb index_in (-1) then true
  else match fuel with
       | O => false
       | S f => match py_get c index_in with
                | Some j => walk f c j
                | None => false
                end
       end.

Definition zmax (c : list Z) : option Z :=
  match c with
  | [] => None
  | z :: l => Some (fold_left Z.max l z)
  end.

(* networks.py 1371-1404, _verify_bore_connectivity: true when no exception is
   raised. *)
Definition verify_bore_connectivity (nB : nat) (c : list Z) : bool :=
  Nat.eqb (length c) nB
  && match zmax c with
     | None => false                         (* max() of an empty list *)
     | Some m => negb (Z.of_nat nB <=? m)%Z
     end
  && forallb (fun index_in =>
       negb (negb (Z.eqb index_in (-1)) && (1 <? count c index_in)%nat)
       && walk nB c index_in) c.

(* networks.py 1341-1368, _path_to_inlet.  The loop has no bound in the code;
   None is an IndexError or an endless loop. *)
Fixpoint path_from (fuel : nat) (c : list Z) (index_in : Z) : option (list Z) :=
  if Z.eqb index_in (-1) then Some []
  else match fuel with
       | O => None
       | S f => match py_get c index_in with
                | Some j => match path_from f c j with
                            | Some p => Some (index_in :: p)
                            | None => None
                            end
                | None => None
                end
       end.

Definition path_to_inlet (c : list Z) (i : nat) : option (list Z) :=
  match path_from (length c) c (nth i c 0%Z) with
  | Some p => Some (Z.of_nat i :: p)
  | None => None
  end.

(* list.index on a list of borehole indices *)
Fixpoint index_of (l : list nat) (z : Z) : option nat :=
  match l with
  | [] => None
  | i :: l' => if Z.eqb (Z.of_nat i) z then Some O
               else match index_of l' z with Some k => Some (S k) | None => None end
  end.

Fixpoint all_some {A} (l : list (option A)) : option (list A) :=
  match l with
  | [] => Some []
  | Some a :: l' => match all_some l' with Some r => Some (a :: r) | None => None end
  | None :: _ => None
  end.

(* networks.py 1318, 1320: boreholes fed by the field, boreholes feeding none *)
Definition inlets (c : list Z) : list nat :=
  filter (fun i => Z.eqb (nth i c 0%Z) (-1)) (seq 0 (length c)).
Definition outlets (c : list Z) : list nat :=
  filter (fun i => negb (existsb (Z.eqb (Z.of_nat i)) c)) (seq 0 (length c)).

(* networks.py 1322-1323: index of the circuit of every borehole *)
Definition circuits (c : list Z) : option (list nat) :=
  all_some (map (fun i =>
    match path_to_inlet c i with
    | Some p => index_of (inlets c) (last p 0%Z)
    | None => None
    end) (seq 0 (length c))).

(* What construction leaves in the object: networks.py 84-104, 1298-1338. *)
Record net := mknet {
  n_c : list Z;                (* self.c *)
  n_in : list nat;             (* _iInlets_pos = _iOutlets_neg *)
  n_out : list nat;            (* _iOutlets_pos = _iInlets_neg *)
  n_circ : list nat            (* iCircuit *)
}.

Definition build_net (nB : nat) (conn : option (list Z)) : option net :=
  let c := match conn with
           | None => repeat (-1)%Z nB                 (* 90-91 *)
           | Some c => c
           end in
  if verify_bore_connectivity nB c then
    match circuits c with
    | None => None
    | Some k =>
        if Nat.eqb (count c (-1)%Z) (length (outlets c))  (* 1324-1326 *)
        then Some (mknet c (inlets c) (outlets c) k)
        else None
    end
  else None.

Definition nB (N : net) : nat := length (n_c N).
Definition nInlets (N : net) : nat := length (n_in N).

(* networks.py 1116-1144, _initialize_coefficients_connectivity *)
Definition c_in_pos (N : net) : nat -> R :=
  fun i => if existsb (Nat.eqb i) (n_in N) then 1 else 0.
Definition c_out_pos (N : net) : Mx :=
  fun i j => let ci := nth i (n_c N) 0%Z in
             if negb (Z.eqb ci (-1)) && Z.eqb ci (Z.of_nat j) then 1 else 0.
Definition c_in_neg (N : net) : nat -> R :=
  fun i => if existsb (Nat.eqb i) (n_out N) then 1 else 0.
Definition c_out_neg (N : net) : Mx :=
  fun j i => let ci := nth i (n_c N) 0%Z in
             if negb (Z.eqb ci (-1)) && Z.eqb ci (Z.of_nat j) then 1 else 0.

(* ------------------------------------------------------------------ *)
(* Arguments of the methods                                            *)

(* A mass flow rate or heat capacity argument is a float or a numpy array; a
   float and an array of length one behave alike in this code, so both are the
   list of entries. *)
Definition val := list R.

(* numpy broadcasting of two one-dimensional values *)
Definition bcast (f : R -> R -> R) (x y : val) : option val :=
  if Nat.eqb (length x) (length y)
  then Some (map (fun p => f (fst p) (snd p)) (combine x y))
  else match x, y with
       | [a], _ => Some (map (f a) y)
       | _, [b] => Some (map (fun a => f a b) x)
       | _, _ => None
       end.

(* nSegments: an int or a list of ints *)
Inductive segs := SegN (n : nat) | SegL (l : list nat).
(* segment_ratios: None, a numpy array, or a list of numpy arrays *)
Inductive ratios := RNone | RArr (r : list R) | RList (l : list (list R)).

Record args := mkargs { g_m : val; g_cp : val; g_n : segs; g_r : ratios }.

(* Result of _format_inputs, networks.py 1226-1295 *)
Record fmt := mkfmt {
  f_m : list R;                   (* _m_flow_in, one entry per circuit *)
  f_rev : bool;                   (* _is_reversed *)
  f_mb : list R;                  (* _m_flow_borehole *)
  f_cpb : list R;                 (* _cp_borehole *)
  f_seg : list nat;               (* nSegments of each borehole *)
  f_rat : list (option (list R))  (* _segment_ratios of each borehole *)
}.

(* 1232-1237 *)
Definition format_flow (N : net) (m : val) : option (list R) :=
  match m with
  | [x] => Some (repeat (x / INR (nInlets N)) (nInlets N))
  | _ => if Nat.eqb (length m) (nInlets N) then Some m else None
  end.

(* 1240-1254 *)
Definition format_dir (m : val) : option bool :=
  if forallb (fun x => Rleb 0 x) m then Some false
  else if forallb (fun x => Rleb x 0) m then Some true
  else None.

(* 1258-1267 *)
Definition format_cp (N : net) (cp : val) : option (list R) :=
  match cp with
  | [x] => Some (repeat x (nInlets N))
  | _ => if negb (Nat.eqb (length cp) (nInlets N)) then None
         else if forallb (fun x => Reqb x (nth 0 cp 0)) cp then Some cp else None
  end.

(* 1277-1284 *)
Definition format_seg (N : net) (s : segs) : option (list nat) :=
  match s with
  | SegN n => Some (repeat n (nB N))
  | SegL [n] => Some (repeat n (nB N))
  | SegL l => if Nat.eqb (length l) (nB N) then Some l else None
  end.

(* 1287-1295 *)
Definition format_rat (N : net) (r : ratios) : list (option (list R)) :=
  match r with
  | RNone => repeat None (nB N)
  | RArr a => repeat (Some a) (nB N)
  | RList l => map Some l
  end.

Definition format_inputs (N : net) (g : args) : option fmt :=
  match format_flow N (g_m g), format_dir (g_m g), format_cp N (g_cp g), format_seg N (g_n g) with
  | Some m, Some rev, Some cp, Some s =>
      Some (mkfmt m rev
              (map (fun k => nth k m 0) (n_circ N))       (* 1271 *)
              (map (fun k => nth k cp 0) (n_circ N))      (* 1274 *)
              s (format_rat N (g_r g)))
  | _, _, _, _ => None
  end.

(* 1240-1251: matrices and indices of the current flow direction *)
Definition c_in (N : net) (rev : bool) : nat -> R := if rev then c_in_neg N else c_in_pos N.
Definition c_out (N : net) (rev : bool) : Mx := if rev then c_out_neg N else c_out_pos N.
Definition iOutlets (N : net) (rev : bool) : list nat := if rev then n_in N else n_out N.

(* ------------------------------------------------------------------ *)
(* Pipes                                                               *)

(* The coefficients a pipe object returns for one borehole, as functions of
   (m_flow_borehole, cp_f, nSegments, segment_ratios).  Pipes have one inlet
   and one outlet, so coefficients_outlet_temperature is a number and a row
   (pipes.py 347-436); coefficients_borehole_heat_extraction_rate is a column
   and a square block (pipes.py 531-598). *)
Record pipe := mkpipe {
  p_out : R -> R -> nat -> option (list R) -> R * (nat -> R);
  p_qb : R -> R -> nat -> option (list R) -> (nat -> R) * Mx
}.

(* pipes.py 600-667, coefficients_fluid_heat_extraction_rate for one inlet:
   [-MCP + MCP*b_in], [MCP*b_b] with MCP = |m_flow_in|*cp_in *)
Definition p_qf (p : pipe) (m cp : R) (n : nat) (r : option (list R)) : R * (nat -> R) :=
  let (b_in, b_b) := p_out p m cp n r in
  (- (Rabs m * cp) + Rabs m * cp * b_in, fun k => Rabs m * cp * b_b k).

(* The list comprehensions over zip(p, _m_flow_borehole, _cp_borehole,
   nSegments, _segment_ratios), 628-635 and alike; zip stops at the shortest. *)
Fixpoint zip_pipes {A} (f : pipe -> R -> R -> nat -> option (list R) -> A)
  (ps : list pipe) (ms cps : list R) (ns : list nat) (rs : list (option (list R))) : list A :=
  match ps, ms, cps, ns, rs with
  | p :: ps', m :: ms', cp :: cps', n :: ns', r :: rs' =>
      f p m cp n r :: zip_pipes f ps' ms' cps' ns' rs'
  | _, _, _, _, _ => []
  end.

Definition over_pipes {A} (f : pipe -> R -> R -> nat -> option (list R) -> A)
  (ps : list pipe) (F : fmt) : list A :=
  zip_pipes f ps (f_mb F) (f_cpb F) (f_seg F) (f_rat F).

(* First column of the segments of borehole i *)
Fixpoint seg_off (ns : list nat) (i : nat) : nat :=
  match i, ns with
  | S i', n :: ns' => (n + seg_off ns' i')%nat
  | _, _ => O
  end.
Definition seg_total (ns : list nat) : nat := seg_off ns (length ns).

(* scipy.linalg.block_diag of one-by-one blocks *)
Definition diag_mx (d : list R) : Mx := fun i j => if Nat.eqb i j then nth i d 0 else 0.

(* block_diag of one row per borehole *)
Definition block_rows (ns : list nat) (rows : list (nat -> R)) : Mx :=
  fun i k =>
    if (seg_off ns i <=? k)%nat && (k <? seg_off ns i + nth i ns O)%nat
    then nth i rows (fun _ => 0) (k - seg_off ns i)%nat else 0.

(* Borehole a row of a (nTotalSegments, ...) matrix belongs to *)
Fixpoint seg_owner (ns : list nat) (k : nat) : nat :=
  match ns with
  | [] => O
  | n :: ns' => if (k <? n)%nat then O else S (seg_owner ns' (k - n))
  end.

(* block_diag of one column per borehole *)
Definition block_cols (ns : list nat) (cols : list (nat -> R)) : Mx :=
  fun k j =>
    if Nat.eqb (seg_owner ns k) j
    then nth j cols (fun _ => 0) (k - seg_off ns j)%nat else 0.

(* block_diag of one square block per borehole *)
Definition block_squares (ns : list nat) (blocks : list Mx) : Mx :=
  fun k l =>
    let i := seg_owner ns k in
    if (seg_off ns i <=? l)%nat && (l <? seg_off ns i + nth i ns O)%nat
    then nth i blocks (fun _ _ => 0) (k - seg_off ns i)%nat (l - seg_off ns i)%nat else 0.

(* ------------------------------------------------------------------ *)
(* Coefficients, caches aside                                          *)

(* A pair (a_in, a_b): the coefficient of the fluid temperature (or heat rate)
   and the coefficients of the borehole wall temperatures. *)
Definition coefs := ((nat -> R) * Mx)%type.

Definition out_A (ps : list pipe) (F : fmt) : Mx :=
  diag_mx (map fst (over_pipes p_out ps F)).
Definition out_B (ps : list pipe) (F : fmt) : Mx :=
  block_rows (f_seg F) (map snd (over_pipes p_out ps F)).

Definition solve_coefs (n : nat) (M : Mx) (rin : nat -> R) (rb : Mx) : option coefs :=
  match lin_solve n M rin, lin_solve_mx n M rb with
  | Some a, Some b => Some (a, b)
  | _, _ => None
  end.

(* networks.py 622-642, coefficients_inlet_temperature *)
Definition coef_inlet (N : net) (ps : list pipe) (F : fmt) : option coefs :=
  let n := nB N in
  solve_coefs n (mx_sub id_mx (mx_mul n (c_out N (f_rev F)) (out_A ps F)))
    (c_in N (f_rev F)) (mx_mul n (c_out N (f_rev F)) (out_B ps F)).

(* networks.py 702-722, coefficients_outlet_temperature *)
Definition coef_outlet (N : net) (ps : list pipe) (F : fmt) : option coefs :=
  let n := nB N in
  solve_coefs n (mx_sub id_mx (mx_mul n (out_A ps F) (c_out N (f_rev F))))
    (mx_vec n (out_A ps F) (c_in N (f_rev F))) (out_B ps F).

(* 931-932, 1010-1011: a_in = A @ b_in, a_b = A @ b_b + B *)
Definition chain_coefs (n : nat) (A B : Mx) (b : coefs) : coefs :=
  (mx_vec n A (fst b), mx_add (mx_mul n A (snd b)) B).

(* networks.py 913-932, coefficients_borehole_heat_extraction_rate *)
Definition coef_qb (N : net) (ps : list pipe) (F : fmt) (inl : coefs) : coefs :=
  chain_coefs (nB N)
    (block_cols (f_seg F) (map fst (over_pipes p_qb ps F)))
    (block_squares (f_seg F) (map snd (over_pipes p_qb ps F))) inl.

(* networks.py 992-1011, coefficients_fluid_heat_extraction_rate *)
Definition coef_qf (N : net) (ps : list pipe) (F : fmt) (inl : coefs) : coefs :=
  chain_coefs (nB N)
    (diag_mx (map fst (over_pipes p_qf ps F)))
    (block_rows (f_seg F) (map snd (over_pipes p_qf ps F))) inl.

(* networks.py 1076-1077: column sums *)
Definition coef_net_heat (N : net) (qf : coefs) : coefs :=
  (fun _ => sumn (nB N) (fst qf), fun _ k => sumn (nB N) (fun i => snd qf i k)).

(* networks.py 786-788: the inverse of the one-by-one matrix b_in *)
Definition coef_net_inlet (h : coefs) : option coefs :=
  let b_in := fst h O in
  if Reqb b_in 0 then None
  else Some (fun _ => / b_in, fun _ k => - (/ b_in) * snd h O k).

(* networks.py 1109-1112: row mix_out from the circuit flows; assignment to
   mix_out[0, iOutlets] of one weight per circuit *)
Definition mixing (iOut : list nat) (m : list R) : nat -> R :=
  fun i => match index_of iOut (Z.of_nat i) with
           | Some k => Rabs (nth k m 0) / Rsum (map Rabs m)
           | None => 0
           end.

(* networks.py 851-853 *)
Definition coef_net_outlet (N : net) (mix : nat -> R) (o : coefs) : coefs :=
  (fun _ => sumn (nB N) (fun i => mix i * fst o i),
   fun _ k => sumn (nB N) (fun i => mix i * snd o i k)).

(* ------------------------------------------------------------------ *)
(* The object with its stored coefficients                             *)

(* networks.py 1146-1194, 1196-1224 *)
Record entry := mkentry { e_mcp : val; e_seg : segs; e_rat : ratios; e_coef : coefs }.

Record state := mkst {
  s_store : list (option entry);             (* one per method, None = NaN key *)
  s_fmt : option fmt;                        (* inputs formatted last *)
  s_mix : option (val * (nat -> R))          (* _mixing_m_flow, _mix_out *)
}.

Definition init_state : state := mkst (repeat None 7) None None.

Definition tol : R := 1 / 1000000.

(* np.all(np.abs(x - stored) < np.abs(stored)*tol) *)
Definition near_val (x stored : val) : option bool :=
  match bcast (fun a b => if Rltb (Rabs (a - b)) (Rabs b * tol) then 1 else 0) x stored with
  | None => None
  | Some l => Some (forallb (fun v => Reqb v 1) l)
  end.

Definition segs_eqb (a b : segs) : bool :=
  match a, b with
  | SegN x, SegN y => Nat.eqb x y
  | SegL x, SegL y => if list_eq_dec Nat.eq_dec x y then true else false
  | _, _ => false
  end.

(* 1211-1217 *)
Fixpoint near_lists (x stored : list (list R)) : option bool :=
  match x, stored with
  | [], _ => Some true
  | _ :: _, [] => None                               (* IndexError *)
  | a :: x', b :: s' =>
      match near_lists x' s' with
      | None => None
      | Some r =>
          Some (Nat.eqb (length a) (length b)
                && match near_val a b with Some t => t | None => false end && r)
      end
  end.

Definition near_ratios (x stored : ratios) : option bool :=
  match stored, x with
  | RNone, RNone => Some true
  | RList s, RList l => near_lists l s
  | _, _ => Some false
  end.

(* networks.py 1205-1224, _check_coefficients *)
Definition check_coefficients (g : args) (e : option entry) : option bool :=
  match bcast Rmult (g_m g) (g_cp g) with
  | None => None
  | Some mcp =>
      match e with
      | None => Some false
      | Some e =>
          match near_ratios (g_r g) (e_rat e), near_val mcp (e_mcp e) with
          | Some br, Some bm => Some (bm && segs_eqb (g_n g) (e_seg e) && br)
          | _, _ => None
          end
      end
  end.

(* Result of a method: the new state and the coefficients, or an exception.
   After an exception the caches written on the way are kept, so the state is
   returned as well. *)
Definition answer := (state * option coefs)%type.

Definition set_fmt (s : state) (F : fmt) : state := mkst (s_store s) (Some F) (s_mix s).
Definition set_entry (s : state) (id : nat) (g : args) (v : coefs) : state :=
  match bcast Rmult (g_m g) (g_cp g) with
  | Some mcp => mkst (upd (s_store s) id (Some (mkentry mcp (g_n g) (g_r g) v))) (s_fmt s) (s_mix s)
  | None => s
  end.

(* The common shape of the seven methods: return the stored pair if the key is
   near, otherwise compute, store and return. *)
Definition cached (id : nat) (g : args) (compute : state -> answer) (s : state) : answer :=
  match check_coefficients g (nth id (s_store s) None) with
  | None => (s, None)
  | Some true => (s, match nth id (s_store s) None with Some e => Some (e_coef e) | None => None end)
  | Some false =>
      match compute s with
      | (s', Some v) => (set_entry s' id g v, Some v)
      | (s', None) => (s', None)
      end
  end.

(* networks.py 571-649 *)
Definition m_inlet (N : net) (ps : list pipe) (g : args) : state -> answer :=
  cached 0 g (fun s =>
    match format_inputs N g with
    | None => (s, None)
    | Some F => (set_fmt s F, coef_inlet N ps F)
    end).

(* networks.py 651-729 *)
Definition m_outlet (N : net) (ps : list pipe) (g : args) : state -> answer :=
  cached 1 g (fun s =>
    match format_inputs N g with
    | None => (s, None)
    | Some F => (set_fmt s F, coef_outlet N ps F)
    end).

(* networks.py 862-939 *)
Definition m_qb (N : net) (ps : list pipe) (g : args) : state -> answer :=
  cached 4 g (fun s =>
    match format_inputs N g with
    | None => (s, None)
    | Some F =>
        match m_inlet N ps g (set_fmt s F) with
        | (s', Some b) => (s', Some (coef_qb N ps F b))
        | (s', None) => (s', None)
        end
    end).

(* networks.py 941-1018 *)
Definition m_qf (N : net) (ps : list pipe) (g : args) : state -> answer :=
  cached 5 g (fun s =>
    match format_inputs N g with
    | None => (s, None)
    | Some F =>
        match m_inlet N ps g (set_fmt s F) with
        | (s', Some b) => (s', Some (coef_qf N ps F b))
        | (s', None) => (s', None)
        end
    end).

(* networks.py 1020-1084 *)
Definition m_net_heat (N : net) (ps : list pipe) (g : args) : state -> answer :=
  cached 6 g (fun s =>
    match m_qf N ps g s with
    | (s', Some b) => (s', Some (coef_net_heat N b))
    | (s', None) => (s', None)
    end).

(* networks.py 731-795 *)
Definition m_net_inlet (N : net) (ps : list pipe) (g : args) : state -> answer :=
  cached 2 g (fun s =>
    match m_net_heat N ps g s with
    | (s', Some b) => (s', coef_net_inlet b)
    | (s', None) => (s', None)
    end).

(* networks.py 1086-1114, 1196-1203: _coefficients_mixing reads the inputs
   formatted last. *)
Definition m_mixing (N : net) (m : val) (s : state) : state * option (nat -> R) :=
  let hit := match s_mix s with
             | None => Some false
             | Some (m0, _) => near_val m m0
             end in
  match hit with
  | None => (s, None)
  | Some true => (s, match s_mix s with Some (_, w) => Some w | None => None end)
  | Some false =>
      match s_fmt s with
      | None => (s, None)
      | Some F =>
          let w := mixing (iOutlets N (f_rev F)) (f_m F) in
          (mkst (s_store s) (s_fmt s) (Some (m, w)), Some w)
      end
  end.

(* networks.py 797-860 *)
Definition m_net_outlet (N : net) (ps : list pipe) (g : args) : state -> answer :=
  cached 3 g (fun s =>
    match m_outlet N ps g s with
    | (s', Some b) =>
        match m_mixing N (g_m g) s' with
        | (s'', Some w) => (s'', Some (coef_net_outlet N w b))
        | (s'', None) => (s'', None)
        end
    | (s', None) => (s', None)
    end).

Inductive method := Inlet | Outlet | NetInlet | NetOutlet | BoreHeat | FluidHeat | NetHeat.

Definition call (N : net) (ps : list pipe) (k : method) (g : args) : state -> answer :=
  match k with
  | Inlet => m_inlet N ps g
  | Outlet => m_outlet N ps g
  | NetInlet => m_net_inlet N ps g
  | NetOutlet => m_net_outlet N ps g
  | BoreHeat => m_qb N ps g
  | FluidHeat => m_qf N ps g
  | NetHeat => m_net_heat N ps g
  end.

(* A sequence of calls *)
Fixpoint calls (N : net) (ps : list pipe) (l : list (method * args)) (s : state) : state :=
  match l with
  | [] => s
  | (k, g) :: l' => calls N ps l' (fst (call N ps k g s))
  end.

(* networks.py 1146-1184, _initialize_stored_coefficients, when flow, heat
   capacity and number of segments were given at construction *)
Definition warm_calls (g : args) : list (method * args) :=
  map (fun k => (k, g)) [Inlet; Outlet; NetInlet; NetOutlet; BoreHeat; FluidHeat; NetHeat].

(* The answer of a fresh object, without earlier calls *)
Definition fresh (N : net) (ps : list pipe) (k : method) (g : args) : option coefs :=
  snd (call N ps k g init_state).

(* networks.py 250-569, the get_* methods: a_in*T_f_in + a_b @ T_b with K wall
   temperatures *)
Definition apply_coefs (K : nat) (a : coefs) (t : R) (Tb : nat -> R) : nat -> R :=
  fun i => fst a i * t + sumn K (fun k => snd a i k * Tb k).

(* networks.py 1659-1702, network_thermal_resistance: both coefficients with
   one segment per borehole *)
Definition network_thermal_resistance (N : net) (ps : list pipe) (Htot : R) (m cp : val) : option R :=
  let g := mkargs m cp (SegN 1) RNone in
  let (s1, o) := m_net_outlet N ps g init_state in
  match o with
  | None => None
  | Some a =>
      match snd (m_net_heat N ps g s1) with
      | None => None
      | Some q => Some (- (1/2) * Htot * (1 + fst a O) / fst q O)
      end
  end.

(* ------------------------------------------------------------------ *)
(* Equivalent networks, networks.py 1407-1656                          *)

(* w is wBoreholes.  Each equivalent borehole is its own circuit: 1479-1484. *)
(* 1596-1603 *)
Definition eq_flow (n : nat) (w : list R) (m : val) : option (list R) :=
  match m with
  | [x] => Some (repeat (x / Rsum w) n)
  | _ => if Nat.eqb (length m) n then Some m else None
  end.

(* 1605-1615: `if m_flow_network < 0.` raises for an array of more than one
   flow *)
Definition eq_dir (m : val) : option bool :=
  match m with
  | [x] => Some (Rltb x 0)
  | _ => None
  end.

(* 1548-1549 *)
Definition eq_net_heat (n : nat) (w : list R) (qf : coefs) : coefs :=
  (fun _ => sumn n (fun i => nth i w 0 * fst qf i),
   fun _ k => sumn n (fun i => nth i w 0 * snd qf i k)).

(* 1582-1588 *)
Definition eq_mixing (iOut : list nat) (w m : list R) : nat -> R :=
  fun i => match index_of iOut (Z.of_nat i) with
           | Some k => Rabs (nth k m 0) * nth k w 0
                       / Rsum (map (fun p => Rabs (fst p) * snd p) (combine m w))
           | None => 0
           end.

(* 1590-1656: formatted inputs, with the circuits of a parallel network *)
Definition eq_format (N : net) (w : list R) (g : args) : option fmt :=
  match eq_flow (nB N) w (g_m g), eq_dir (g_m g), format_cp N (g_cp g), format_seg N (g_n g) with
  | Some m, Some rev, Some cp, Some s =>
      Some (mkfmt m rev (map (fun k => nth k m 0) (n_circ N)) (map (fun k => nth k cp 0) (n_circ N))
              s (format_rat N (g_r g)))
  | _, _, _, _ => None
  end.

(* 1407-1490, 1492-1556, 1558-1588: heat and outlet temperature of the
   equivalent network, caches aside *)
Definition eq_heat (N : net) (w : list R) (ps : list pipe) (F : fmt) : option coefs :=
  match coef_inlet N ps F with
  | Some a => Some (eq_net_heat (nB N) w (coef_qf N ps F a))
  | None => None
  end.
Definition eq_outlet (N : net) (w : list R) (ps : list pipe) (F : fmt) : option coefs :=
  match coef_outlet N ps F with
  | Some o => Some (coef_net_outlet N (eq_mixing (iOutlets N (f_rev F)) w (f_m F)) o)
  | None => None
  end.
