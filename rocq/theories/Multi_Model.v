(** Model of boreholes with several U-tubes: pygfunction/pipes.py, classes
    [MultipleUTube] and [IndependentMultipleUTube] with the methods of [_BasePipe]
    that they inherit.

    Without the storage of coefficients (PipeCache_Model.v).  Matrices are functions of
    two indices.  numpy.linalg.eig and the inverse of the matrix of the eigenvectors
    are a parameter [eig]: eigenvalues, eigenvectors in columns, inverse matrix, all of
    complex numbers; None is a LinAlgError. *)
From Verif Require Import Base LinAlg Bore_Model Net_Model Pipe_Model.
From Coquelicot Require Import Coquelicot.
Import ListNotations.
Local Open Scope R_scope.

(** ** Objects *)

Inductive kind := InParallel | InSeries | Separate.

(** pipes.py 1844-1886 and 2289-2330: [_Rd], the borehole, reversible_flow, nPipes, and
    config ([Separate] is the other class). *)
Record multi := mkmulti { x_Rd : Mx; x_b : bore; x_reversible : bool; x_n : nat; x_kind : kind }.

Definition n_inlets (u : multi) : nat := match x_kind u with Separate => x_n u | _ => 1%nat end.

(** What _format_inputs leaves: flows and heat capacities of the pipes, flows and heat
    capacities of the inlets, the directions *)
Record inputs := mkinputs { g_m : nat -> R; g_cp : nat -> R; g_min : nat -> R; g_cpin : nat -> R; g_rev : nat -> bool }.

(** numpy.sign *)
Definition sign (x : R) : R := if Rltb x 0 then -1 else if Rltb 0 x then 1 else 0.

(** pipes.py 2177-2220 and 2472-2501: m_flow_borehole and cp_f are arrays.  Arrays of
    other lengths than one are refused by the products of MultipleUTube. *)
Definition format (u : multi) (m cp : list R) : option inputs :=
  let n := x_n u in
  match x_kind u with
  | Separate =>
      if Nat.eqb (length m) n then
        match (if Nat.eqb (length cp) 1 then Some (repeat (nth 0 cp 0) n)
               else if Nat.eqb (length cp) n then Some cp else None) with
        | Some c => Some (mkinputs (fun i => if Nat.ltb i n then nth i m 0 else - nth (i - n) m 0)
                                   (fun i => if Nat.ltb i n then nth i c 0 else nth (i - n) c 0)
                                   (fun i => nth i m 0) (fun i => nth i c 0)
                                   (fun i => Rltb (nth i m 0) 0 && x_reversible u))
        | None => None
        end
      else None
  | k =>
      match m, cp with
      | x :: nil, c :: nil =>
          let y := match k with InSeries => Rabs x | _ => Rabs x / INR n end in
          Some (mkinputs (fun i => sign x * (if Nat.ltb i n then y else - y)) (fun _ => c) (fun _ => x) (fun _ => c)
                         (fun _ => Rltb x 0 && x_reversible u))
      | _, _ => None
      end
  end.

(** ** Differential equations *)

(** pipes.py 2165-2168 *)
Definition system_mx (u : multi) (g : inputs) : Mx :=
  fun i j =>
    let a i j := 1 / (x_Rd u i j * g_m g i * g_cp g i) in
    if Nat.eqb i j then - a i i - sumn (2 * x_n u) (fun l => if Nat.eqb l i then 0 else a i l) else a i j.

(** 2169 *)
Definition row_sums (N : nat) (A : Mx) : nat -> R := fun i => sumn N (A i).

Definition cexp (c : C) : C := (exp (Re c) * cos (Im c), exp (Re c) * sin (Im c)).
Definition csum (n : nat) (f : nat -> C) : C := (sumn n (fun i => Re (f i)), sumn n (fun i => Im (f i))).

(** eigenvalues, eigenvectors, inverse of the matrix of the eigenvectors (2170-2176) *)
Record spectrum := mkspectrum { s_L : nat -> C; s_V : nat -> nat -> C; s_W : nat -> nat -> C }.

(** pipes.py 2058-2059 *)
Definition a_f0 (N : nat) (s : spectrum) (z : R) : Mx :=
  fun i j => Re (csum N (fun k => Cmult (Cmult (s_V s i k) (cexp (Cmult (RtoC z) (s_L s k)))) (s_W s k j))).

(** 2063-2068 *)
Definition dz (z w : R) : R := Rmax (z - w) 0.
Definition a_b (N : nat) (s : spectrum) (sumA : nat -> R) (edges : list R) (z : R) : Mx :=
  fun i l => Re (csum N (fun k =>
    Cmult (Cmult (Cmult (s_V s i k) (Cinv (s_L s k))) (csum N (fun j => Cmult (s_W s k j) (RtoC (sumA j)))))
          (Cminus (cexp (Cmult (s_L s k) (RtoC (dz z (nth (S l) edges 0))))) (cexp (Cmult (s_L s k) (RtoC (dz z (nth l edges 0)))))))).

(** ** Connections *)

(** 1937-1950, 2465-2470: _continuity_condition_head *)
Definition c_in (u : multi) (g : inputs) : Mx :=
  match x_kind u with
  | InParallel => fun _ _ => 1
  | InSeries => if g_rev g 0%nat then fun i _ => if Nat.eqb i (x_n u - 1) then 1 else 0
              else fun i _ => if Nat.eqb i 0 then 1 else 0
  | Separate => id_mx
  end.
Definition c_fu (u : multi) (g : inputs) : Mx :=
  match x_kind u with
  | InSeries => if g_rev g 0%nat then fun i j => if Nat.eqb j (i + 1) then 1 else 0
              else fun i j => if Nat.eqb i (j + 1) then 1 else 0
  | _ => fun _ _ => 0
  end.

(** 1994-2011, 2371-2382: _flow_direction *)
Definition f_fd (u : multi) (g : inputs) : Mx :=
  fun p i => if Nat.eqb p (if g_rev g i then i + x_n u else i) then 1 else 0.
Definition f_fu (u : multi) (g : inputs) : Mx :=
  fun p i => if Nat.eqb p (if g_rev g i then i else i + x_n u) then 1 else 0.

(** 2113-2135, 2418-2423: _pipe_connectivity *)
Definition d_fu (u : multi) (g : inputs) : Mx :=
  match x_kind u with
  | InParallel => fun _ j => Rabs (g_m g j) * g_cp g j / sumn (x_n u) (fun l => Rabs (g_m g l) * g_cp g l)
  | InSeries => if g_rev g 0%nat then fun _ j => if Nat.eqb j 0 then 1 else 0
              else fun _ j => if Nat.eqb j (x_n u - 1) then 1 else 0
  | Separate => id_mx
  end.

(** numpy.hstack((eye, -eye)) *)
Definition im_i (n : nat) : Mx := fun i p => (if Nat.eqb p i then 1 else 0) - (if Nat.eqb p (i + n) then 1 else 0).

(** ** Coefficients *)

Section Eig.
  Variable eig : nat -> Mx -> option spectrum.

  (** What an evaluation of the coefficients starts with *)
  Definition prepare (u : multi) (m cp : list R) : option (inputs * spectrum) :=
    match format u m cp with
    | None => None
    | Some g => match eig (2 * x_n u) (system_mx u g) with Some s => Some (g, s) | None => None end
    end.

  Definition wall (u : multi) (g : inputs) (s : spectrum) (k : nat) (r : option (list R)) (z : R) : Mx :=
    a_b (2 * x_n u) s (row_sums (2 * x_n u) (system_mx u g)) (segment_edges (x_b u) k r) z.

  (** 423, 523: f_fu + f_fd @ c_fu *)
  Definition top (u : multi) (g : inputs) : Mx := mx_add (f_fu u g) (mx_mul (x_n u) (f_fd u g) (c_fu u g)).

  (** 423, 524: numpy.linalg.solve(ImI @ e_f0 @ B, -ImI) *)
  Definition returns (u : multi) (g : inputs) (s : spectrum) : option Mx :=
    lin_solve_mx (x_n u)
      (mx_mul (2 * x_n u) (mx_mul (2 * x_n u) (im_i (x_n u)) (a_f0 (2 * x_n u) s (bH (x_b u)))) (top u g))
      (fun i p => - im_i (x_n u) i p).

  (** 347-436: coefficients_outlet_temperature *)
  Definition m_outlet (u : multi) (m cp : list R) (k : nat) (r : option (list R)) : option (Mx * Mx) :=
    match prepare u m cp with
    | None => None
    | Some (g, s) =>
        match returns u g s with
        | None => None
        | Some Y =>
            let N := (2 * x_n u)%nat in
            let A := mx_mul (x_n u) (d_fu u g) Y in
            Some (mx_mul (x_n u) (mx_mul N (mx_mul N A (a_f0 N s (bH (x_b u)))) (f_fd u g)) (c_in u g),
                  mx_mul N A (wall u g s k r (bH (x_b u))))
        end
    end.

  (** 438-529: coefficients_temperature at one depth *)
  Definition m_temperature (u : multi) (m cp : list R) (k : nat) (r : option (list R)) (z : R) : option (Mx * Mx) :=
    match prepare u m cp with
    | None => None
    | Some (g, s) =>
        match returns u g s with
        | None => None
        | Some Y =>
            let N := (2 * x_n u)%nat in
            let A := mx_mul (x_n u) (top u g) Y in
            let e := a_f0 N s (bH (x_b u)) in
            let f := a_f0 N s z in
            Some (mx_mul (x_n u) (mx_mul N (mx_mul N f (mx_add id_mx (mx_mul N A e))) (f_fd u g)) (c_in u g),
                  mx_add (mx_mul N (mx_mul N f A) (wall u g s k r (bH (x_b u)))) (wall u g s k r z))
        end
    end.

  (** 571-592: coefficients_borehole_heat_extraction_rate *)
  Definition m_heat (u : multi) (m cp : list R) (k : nat) (r : option (list R)) : option (Mx * Mx) :=
    match format u m cp, m_temperature u m cp k r 0 with
    | Some g, Some _ =>
        let edges := segment_edges (x_b u) k r in
        let T z := match m_temperature u m cp k r z with Some c => c | None => (fun _ _ => 0, fun _ _ => 0) end in
        let d (sel : Mx * Mx -> Mx) l j :=
          sumn (2 * x_n u) (fun p => g_m g p * g_cp g p * (sel (T (nth (S l) edges 0)) p j - sel (T (nth l edges 0)) p j)) in
        Some (d fst, d snd)
    | _, _ => None
    end.

  (** 641-662: coefficients_fluid_heat_extraction_rate *)
  Definition m_fluid (u : multi) (m cp : list R) (k : nat) (r : option (list R)) : option (Mx * Mx) :=
    match format u m cp, m_outlet u m cp k r with
    | Some g, Some b =>
        let mcp i := Rabs (g_min g i) * g_cpin g i in
        Some (fun i j => (if Nat.eqb i j then - mcp i else 0) + mcp i * fst b i j, fun i l => mcp i * snd b i l)
    | _, _ => None
    end.

  (** 327-338: coefficients_inlet_temperature *)
  Definition m_inlet (u : multi) (m cp : list R) (k : nat) (r : option (list R)) : option (Mx * Mx) :=
    match m_fluid u m cp k r with
    | None => None
    | Some b => match inv_mx (n_inlets u) (fst b) with
                | Some i => Some (i, fun p l => - sumn (n_inlets u) (fun q => i p q * snd b q l))
                | None => None
                end
    end.

  (** a_in @ T_f_in + a_b @ T_b *)
  Definition apply2 (u : multi) (k : nat) (c : Mx * Mx) (Tin Tb : nat -> R) : nat -> R :=
    fun i => sumn (n_inlets u) (fun j => fst c i j * Tin j) + sumn k (fun l => snd c i l * Tb l).

  (** 83-94, 126-137, 167-178, 206-215, 244-253, 281-284: the queries *)
  Definition q_temperature (u : multi) (Tin : nat -> R) (k : nat) (Tb : nat -> R) (m cp : list R) (r : option (list R)) (z : R)
    : option (nat -> R) := option_map (fun c => apply2 u k c Tin Tb) (m_temperature u m cp k r z).
  Definition q_outlet (u : multi) (Tin : nat -> R) (k : nat) (Tb : nat -> R) (m cp : list R) (r : option (list R))
    : option (nat -> R) := option_map (fun c => apply2 u k c Tin Tb) (m_outlet u m cp k r).
  Definition q_heat (u : multi) (Tin : nat -> R) (k : nat) (Tb : nat -> R) (m cp : list R) (r : option (list R))
    : option (nat -> R) := option_map (fun c => apply2 u k c Tin Tb) (m_heat u m cp k r).
  Definition q_fluid (u : multi) (Tin : nat -> R) (k : nat) (Tb : nat -> R) (m cp : list R) (r : option (list R))
    : option (nat -> R) := option_map (fun c => apply2 u k c Tin Tb) (m_fluid u m cp k r).
  Definition q_total (u : multi) (Tin : nat -> R) (k : nat) (Tb : nat -> R) (m cp : list R) (r : option (list R))
    : option R := option_map (sumn (n_inlets u)) (q_fluid u Tin k Tb m cp r).
  Definition q_inlet (u : multi) (Q : nat -> R) (k : nat) (Tb : nat -> R) (m cp : list R) (r : option (list R))
    : option (nat -> R) := option_map (fun c => apply2 u k c Q Tb) (m_inlet u m cp k r).

  (** 698-708: effective_borehole_thermal_resistance; .item() needs one inlet *)
  Definition m_effective (u : multi) (m cp : list R) : option R :=
    if Nat.eqb (n_inlets u) 1 then
      match m_outlet u m cp 1 None, m_heat u m cp 1 None with
      | Some a, Some q => Some (- (1/2) * bH (x_b u) * (1 + fst a O O) / fst q O O)
      | _, _ => None
      end
    else None.

  (** The borehole as the networks see it (Net_Model.v, [pipe]); an exception does not
      occur for the boreholes of the theorems. *)
  Definition multi_pipe (u : multi) : pipe :=
    mkpipe (fun m cp k r => match m_outlet u (m :: nil) (cp :: nil) k r with Some c => (fst c O O, snd c O) | None => (0, fun _ => 0) end)
           (fun m cp k r => match m_heat u (m :: nil) (cp :: nil) k r with Some c => (fun l => fst c l O, snd c) | None => (fun _ => 0, fun _ _ => 0) end).
End Eig.
