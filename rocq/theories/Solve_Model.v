(** The system of equations of the g-function: pygfunction/solvers/_base_solver.py.

    Two-dimensional arrays over (source, time) are lists over the times of vectors
    over the sources; vectors and matrices are functions of indices.  numpy.linalg.solve
    is Gaussian elimination with partial pivoting (LinAlg.v), None when it fails.
    interp1d sorts its abscissae: the model assumes that they already are sorted. *)
From Verif Require Import Base LinAlg Bore_Model Net_Model.

Definition vec := nat -> R.
Definition zero_vec : vec := fun _ => 0.

(** numpy.searchsorted on a sorted array. *)
Fixpoint searchsorted_right (l : list R) (x : R) : nat :=
  match l with [] => O | a :: r => if Rleb a x then S (searchsorted_right r x) else O end.
Fixpoint searchsorted_left (l : list R) (x : R) : nat :=
  match l with [] => O | a :: r => if Rltb a x then S (searchsorted_left r x) else O end.

(** scipy.interpolate.interp1d(xs, y, kind='linear')(x): None outside of the bounds
    (bounds_error), otherwise a function of the ordinates [y]. *)
Definition interp1d (xs : list R) (x : R) : option (list R -> R) :=
  if Rltb x (hd 0 xs) || Rltb (last xs 0) x then None else
  let k := Nat.min (length xs - 1) (Nat.max 1 (searchsorted_left xs x)) in
  let lo := (k - 1)%nat in
  Some (fun ys =>
    (nth k ys 0 - nth lo ys 0) / (nth k xs 0 - nth lo xs 0) * (x - nth lo xs 0) + nth lo ys 0).

(** differences of successive elements: l[1:] - l[:-1], with the element before. *)
Fixpoint diffs (prev : R) (l : list R) : list R :=
  match l with [] => [] | x :: r => (x - prev) :: diffs x r end.

(** np.hstack((time[0], time[1:]-time[:-1])) *)
Definition steps (l : list R) : list R :=
  match l with [] => [] | x :: r => x :: diffs x r end.

Definition mul_lists (a b : list R) : list R := map (fun c => fst c * snd c) (combine a b).

(** _base_solver.py 532-573: load_history_reconstruction, one source. *)
Definition reconstruct (time Q : list R) : option (list R) :=
  let dt := steps time in
  let t := 0 :: time ++ [last time 0 + hd 0 time] in
  let dt_rec := rev dt in
  let t_rec := 0 :: cumsum dt_rec in
  let f := 0 :: cumsum (mul_lists Q dt) in
  let f := f ++ [last f 0] in
  let sf x := match interp1d t x with Some g => Some (g f) | None => None end in
  match all_some (map sf t_rec) with
  | None => None
  | Some v => Some (map (fun c => (snd (fst c) - fst (fst c)) / snd c) (combine (combine v (tl v)) dt_rec))
  end.

(** 500-530: temporal_superposition; [h i j k] is h_ij[i,j,k], [Q] lists the
    reconstructed loads of the [n] sources. *)
Definition temporal_superposition (n : nat) (h : nat -> nat -> nat -> R) (Q : list (list R)) : vec :=
  let nt := length (hd [] Q) in
  let dQ j := rev (steps (nth j Q [])) in
  fun i => sumn n (fun j => sumn nt (fun k => h i j k * nth k (dQ j) 0)).

(** 228-241: threshold of the linearisation, times kept. *)
Definition time_threshold (r_b_max alpha : R) (linear_threshold : option R) : R :=
  match linear_threshold with None => r_b_max ^ 2 / (25 * alpha) | Some t => t end.
Definition p_long (time : list R) (thr : R) : nat := searchsorted_right time thr.
Definition time_long (time : list R) (thr : R) : list R :=
  if Nat.ltb 0 (p_long time thr) then thr :: skipn (p_long time thr) time else time.
(** max(0, p_long - 1) *)
Definition p_zero (time : list R) (thr : R) : nat := (p_long time thr - 1)%nat.

(** x[:p_long] = x[p_long-1] * time[:p_long] / threshold (275, 330, 332, ...) *)
Definition linearise (time : list R) (thr : R) (g : list R) : list R :=
  if Nat.ltb 0 (p_long time thr) then
    map (fun k => if Nat.ltb k (p_long time thr) then nth (p_zero time thr) g 0 * nth k time 0 / thr else nth k g 0)
        (seq 0 (length g))
  else g.
Definition linearise_vec (time : list R) (thr : R) (T : list vec) : list vec :=
  if Nat.ltb 0 (p_long time thr) then
    map (fun k => if Nat.ltb k (p_long time thr) then fun i => nth (p_zero time thr) T zero_vec i * nth k time 0 / thr
                  else nth k T zero_vec)
        (seq 0 (length T))
  else T.
(** 331, 448: the heat extraction rates go to 1. *)
Definition linearise_loads (time : list R) (thr : R) (Q : list vec) : list vec :=
  if Nat.ltb 0 (p_long time thr) then
    map (fun k => if Nat.ltb k (p_long time thr)
                  then fun i => 1 + (nth (p_zero time thr) Q zero_vec i - 1) * nth k time 0 / thr
                  else nth k Q zero_vec)
        (seq 0 (length Q))
  else Q.

Section Solve.
  (** number of sources, segment lengths, and thermal_response_factors: the response
      of source i to source j at the k-th time of the grid *)
  Variables (n : nat) (H : vec) (trf : list R -> nat -> nat -> nat -> R).

  (** 250: H_tot *)
  Definition H_total : R := sumn n H.

  (** 257-277: uniform heat extraction rates.  Returns gFunc and T_b. *)
  Fixpoint uhtr_loop (h : nat -> nat -> nat -> R) (p0 : nat) (ps : list nat) (s : list R * list vec) : list R * list vec :=
    match ps with
    | [] => s
    | p :: r =>
        let T := upd (snd s) (p + p0) (fun i => sumn n (fun j => h i j p)) in
        let g := upd (fst s) (p + p0) (sumn n (fun i => nth (p + p0) T zero_vec i * H i) / H_total) in
        uhtr_loop h p0 r (g, T)
    end.

  Definition solve_uhtr (time : list R) (thr : R) : list R * list vec :=
    let tl := time_long time thr in
    let s := uhtr_loop (trf tl) (p_zero time thr) (seq 0 (length tl)) (repeat 0 (length time), repeat zero_vec (length time)) in
    (linearise time thr (fst s), linearise_vec time thr (snd s)).

  (** 290-306 and 357-372: what a time step [p] starts with: the response factors at
      the length of the step and the temperatures without load during the step. *)
  Definition step_data (tl : list R) (p0 p : nat) (Q : list vec) : option (Mx * vec) :=
    let h := trf tl in
    let dt := match p with O => nth 0 tl 0 | S q => nth p tl 0 - nth q tl 0 end in
    match interp1d (0 :: tl) dt,
          all_some (map (fun i => reconstruct (slice 0 (p + 1) tl) (map (fun v => v i) (slice p0 (p + p0 + 1) Q))) (seq 0 n)) with
    | Some at_dt, Some Qrec =>
        Some (fun i j => at_dt (0 :: map (h i j) (seq 0 (length tl))), temporal_superposition n h Qrec)
    | _, _ => None
    end.

  (** 319-322: the system of equations for uniform wall temperatures. *)
  Definition ubwt_A (h_dt : Mx) : Mx := fun i j =>
    if Nat.ltb i n then (if Nat.ltb j n then h_dt i j else -1)
    else (if Nat.ltb j n then H j else 0).
  Definition ubwt_B (T_b0 : vec) : vec := fun i => if Nat.ltb i n then - T_b0 i else H_total.

  (** 279-333: uniform wall temperature.  gFunc and T_b hold the same values. *)
  Fixpoint ubwt_loop (tl : list R) (p0 : nat) (ps : list nat) (s : list vec * list R) : option (list vec * list R) :=
    match ps with
    | [] => Some s
    | p :: r =>
        match step_data tl p0 p (fst s) with
        | None => None
        | Some (h_dt, T_b0) =>
            match lin_solve (n + 1) (ubwt_A h_dt) (ubwt_B T_b0) with
            | None => None
            | Some X =>
                ubwt_loop tl p0 r (upd (fst s) (p + p0) (fun i => if Nat.ltb i n then X i else 0), upd (snd s) (p + p0) (X n))
            end
        end
    end.

  Definition solve_ubwt (time : list R) (thr : R) : option (list vec * list R) :=
    let tl := time_long time thr in
    match ubwt_loop tl (p_zero time thr) (seq 0 (length tl)) (repeat zero_vec (length time), repeat 0 (length time)) with
    | None => None
    | Some s => Some (linearise_loads time thr (fst s), linearise time thr (snd s))
    end.

  (** What the network gives for one of the mass flow rates: the coefficients of the
      heat extraction rates of the segments (350-354) and of the network (431-435), the
      heat capacity rate np.sum(np.abs(m_flow) * cp_f), the field resistance (421-422). *)
  Record flow := mkflow { f_in : vec; f_b : Mx; f_net_in : R; f_net_b : vec; f_mcp : R; f_R : R }.

  (** soil conductivity *)
  Variable k_s : R.
  (** lengths of the individual segments, Hb_individual (248-249) *)
  Variable Hi : vec.

  (** 388-399: unknowns Q_b, T_b and the inlet temperature. *)
  Definition mift_A (F : flow) (h_dt : Mx) : Mx := fun i j =>
    if Nat.ltb i n then
      (if Nat.ltb j n then h_dt i j else if Nat.ltb j (2 * n) then - id_mx i (j - n)%nat else 0)
    else if Nat.ltb i (2 * n) then
      (if Nat.ltb j n then id_mx (i - n)%nat j
       else if Nat.ltb j (2 * n) then f_b F (i - n)%nat (j - n)%nat / (2 * PI * k_s * Hi (i - n)%nat)
       else f_in F (i - n)%nat / (2 * PI * k_s * Hi (i - n)%nat))
    else (if Nat.ltb j n then H j else 0).
  Definition mift_B (T_b0 : vec) : vec := fun i =>
    if Nat.ltb i n then - T_b0 i else if Nat.ltb i (2 * n) then 0 else H_total.

  (** 411-425: effective wall temperature of an inlet temperature. *)
  Definition effective (F : flow) (T_f_in : R) : R :=
    let T_f_out := T_f_in - 2 * PI * k_s * H_total / f_mcp F in
    (1/2) * (T_f_in + T_f_out) - 2 * PI * k_s * f_R F.

  (** 347-426, one mass flow rate: loads, wall temperatures and g-function. *)
  Fixpoint mift_loop (F : flow) (tl : list R) (p0 : nat) (ps : list nat) (s : list vec * list vec * list R) : option (list vec * list vec * list R) :=
    match ps with
    | [] => Some s
    | p :: r =>
        let '(Q, T, g) := s in
        match step_data tl p0 p Q with
        | None => None
        | Some (h_dt, T_b0) =>
            match lin_solve (2 * n + 1) (mift_A F h_dt) (mift_B T_b0) with
            | None => None
            | Some X =>
                mift_loop F tl p0 r
                  (upd Q (p + p0) (fun i => if Nat.ltb i n then X i else 0),
                   upd T (p + p0) (fun i => if Nat.ltb i n then X (n + i)%nat else 0),
                   upd g (p + p0) (effective F (X (2 * n)%nat)))
            end
        end
    end.

  (** 428-443: wall temperatures of flow j, fluid of flow i. *)
  Definition cross (Fi : flow) (T : vec) : R :=
    effective Fi ((- 2 * PI * k_s * H_total - sumn n (fun k => f_net_b Fi k * T k)) / f_net_in Fi).

  (** 446-450: gFunc[:,:,:p_long] = gFunc[:,:,p_long-1] * time[:p_long] / threshold, with
      numpy's broadcasting of the shapes (F, F) and (p_long,), then of the result to
      (F, F, p_long).  None is a ValueError. *)
  Definition linearise_all (time : list R) (thr : R) (F : nat) (g : nat -> nat -> nat -> R) : option (nat -> nat -> nat -> R) :=
    let pl := p_long time thr in
    if Nat.ltb 0 pl then
      if Nat.eqb F 1 then
        Some (fun i j k => if Nat.ltb k pl then g 0%nat 0%nat (pl - 1)%nat * nth k time 0 / thr else g i j k)
      else if Nat.eqb F pl then
        Some (fun i j k => if Nat.ltb k pl then g j k (pl - 1)%nat * nth k time 0 / thr else g i j k)
      else None
    else Some g.

  (** 335-453: mixed inlet fluid temperature, one or several mass flow rates.  The
      g-function is a function of the two flow indices and of the time index. *)
  Definition solve_mift (Fs : list flow) (time : list R) (thr : R) : option ((nat -> nat -> nat -> R) * list (list vec) * list (list vec)) :=
    let tl := time_long time thr in
    let p0 := p_zero time thr in
    let nt := length time in
    match all_some (map (fun F => mift_loop F tl p0 (seq 0 (length tl))
                                    (repeat zero_vec nt, repeat zero_vec nt, repeat 0 nt)) Fs) with
    | None => None
    | Some runs =>
        let d := ([], [], []) in
        let g i j k := if Nat.eqb i j then nth k (snd (nth j runs d)) 0
                       else if Nat.ltb k p0 then 0
                       else cross (nth i Fs (mkflow zero_vec (fun _ _ => 0) 0 zero_vec 0 0)) (nth k (snd (fst (nth j runs d))) zero_vec) in
        match linearise_all time thr (length Fs) g with
        | None => None
        | Some g' => Some (g', map (fun s => linearise_loads time thr (fst (fst s))) runs, map (fun s => linearise_vec time thr (snd (fst s))) runs)
        end
    end.
End Solve.
