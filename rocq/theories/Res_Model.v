(** Model of the thermal resistances inside a borehole: pygfunction/pipes.py,
    [thermal_resistances] (2779-2973), [multipole] (3338-3498), [_F_mk]
    (3501-3554) and the checks of the geometry (882-938, 2717-2776).

    Complex numbers are those of Coquelicot.  Arrays over the pipes are functions
    of the index of the pipe; array arguments are lists.  numpy.log is [ln], which
    is zero on arguments that are not positive (NaN or -inf in the code). *)
From Verif Require Import Base LinAlg Bore_Model Net_Model Pipe_Model.
From Coquelicot Require Import Coquelicot.

(** ** Complex arithmetic *)

Fixpoint cpow (z : C) (k : nat) : C := match k with O => RtoC 1 | S k => Cmult z (cpow z k) end.
Fixpoint csum (n : nat) (f : nat -> C) : C :=
  match n with O => RtoC 0 | S n => Cplus (csum n f) (f n) end.

(** scipy.special.binom with natural arguments *)
Fixpoint binomial (n k : nat) : nat :=
  match n, k with
  | _, O => 1
  | O, S _ => 0
  | S n', S k' => binomial n' k' + binomial n' k
  end.

(** ** The multipole method *)

(** The cross-section: positions and outer radii of the pipes, fluid to outer
    wall resistances, radius and conductivities. *)
Record section := mksection {
  s_n : nat; s_z : nat -> C; s_r : nat -> R; s_Rfp : nat -> R;
  s_rb : R; s_ks : R; s_kg : R }.

(** pipes.py 3412-3414 *)
Definition pikg (s : section) : R := 1 / (2 * PI * s_kg s).
Definition sig (s : section) : R := (s_kg s - s_ks s) / (s_kg s + s_ks s).
Definition beta (s : section) (m : nat) : R := 2 * PI * s_kg s * s_Rfp s m.

(** pipes.py 3415-3420, the matrix [R0] *)
Definition mpR0 (s : section) : Mx := fun i j =>
  if Nat.eqb i j then
    pikg s * (ln (s_rb s / s_r s i) + beta s i
              + sig s * ln (s_rb s ^ 2 / (s_rb s ^ 2 - Cmod (s_z s i) ^ 2)))
  else
    pikg s * (ln (s_rb s / Cmod (Cminus (s_z s i) (s_z s j)))
              + sig s * ln (s_rb s ^ 2 / Cmod (Cminus (RtoC (s_rb s ^ 2)) (Cmult (Cconj (s_z s i)) (s_z s j))))).

(** Multipoles: pipe, order (from zero) *)
Definition poles := nat -> nat -> C.

(** r_b**2 - z_m*conj(z_n): pipes.py 3537 *)
Definition zz (s : section) (m n : nat) : C :=
  Cminus (RtoC (s_rb s ^ 2)) (Cmult (s_z s m) (Cconj (s_z s n))).
Definition dz (s : section) (m n : nat) : C := Cminus (s_z s m) (s_z s n).

(** Sum over the other pipes: the factor [1 - np.eye(n_p)] *)
Definition csum_other (n m : nat) (f : nat -> C) : C :=
  csum n (fun i => if Nat.eqb i m then RtoC 0 else f i).

(** pipes.py 3535-3554, [_F_mk] *)
Definition F1 (s : section) (q : nat -> R) (m k : nat) : C :=
  Cmult (RtoC (s_r s m ^ S k * pikg s / INR (S k)))
    (csum_other (s_n s) m (fun n => Cdiv (RtoC (q n)) (cpow (Copp (dz s m n)) (S k)))).
Definition F2 (s : section) (q : nat -> R) (m k : nat) : C :=
  Cmult (RtoC (sig s * s_r s m ^ S k * pikg s / INR (S k)))
    (csum (s_n s) (fun n => Cdiv (Cmult (RtoC (q n)) (cpow (Cconj (s_z s n)) (S k))) (cpow (zz s m n) (S k)))).
Definition F3 (s : section) (P : poles) (m k j : nat) : C :=
  Cmult (RtoC (INR (binomial (j + k + 1) j) * (- s_r s m) ^ S k))
    (csum_other (s_n s) m (fun n => Cdiv (Cmult (P n j) (RtoC (s_r s n ^ S j))) (cpow (dz s m n) (j + k + 2)))).
Definition F4 (s : section) (P : poles) (m k j jp : nat) : C :=
  Cmult (Cmult (RtoC (sig s * INR (binomial (j + 1) jp) * INR (binomial (j + k - jp + 1) j) * s_r s m ^ S k))
               (cpow (s_z s m) (j + 1 - jp)))
    (csum (s_n s) (fun n => Cdiv (Cmult (Cmult (Cconj (P n j)) (RtoC (s_r s n ^ S j))) (cpow (Cconj (s_z s n)) (k + 1 - jp)))
                                 (cpow (zz s m n) (k + j + 2 - jp)))).
Definition F_mk (s : section) (q : nat -> R) (P : poles) (J m k : nat) : C :=
  Cplus (Cplus (F1 s q m k) (F2 s q m k))
    (csum J (fun j => Cplus (F3 s P m k j) (csum (min k j + 2) (fun jp => F4 s P m k j jp)))).

(** pipes.py 3431-3436 *)
Definition coeff (s : section) (m k : nat) : R :=
  - ((1 - INR (S k) * beta s m) / (1 + INR (S k) * beta s m)).
Definition new_poles (s : section) (q : nat -> R) (P : poles) (J : nat) : poles := fun m k =>
  Cmult (RtoC (coeff s m k)) (Cconj (F_mk s q P J m k)).

(** numpy.max and numpy.min over the array of modulus |P_new - P| *)
Definition changes (s : section) (P P' : poles) (J : nat) : list R :=
  flat_map (fun m => map (fun k => Cmod (Cminus (P' m k) (P m k))) (seq 0 J)) (seq 0 (s_n s)).
Definition lmax (l : list R) : R := match l with [] => 0 | x :: l => fold_left Rmax l x end.
Definition lmin (l : list R) : R := match l with [] => 0 | x :: l => fold_left Rmin l x end.
Definition spread (s : section) (P P' : poles) (J : nat) : R :=
  lmax (changes s P P' J) - lmin (changes s P P' J).

(** pipes.py 3432-3442, the loop; [fuel] is it_max - it, [d0] is diff0. *)
Fixpoint iterate (s : section) (q : nat -> R) (J : nat) (eps d0 : R) (fuel : nat) (P : poles) (it : nat) (eps_max : R)
  : poles * nat * R :=
  match fuel with
  | O => (P, it, eps_max)
  | S fuel =>
      if Rltb eps eps_max then
        let P' := new_poles s q P J in
        let e := spread s P P' J / (d0 + / 10 ^ 30) in
        iterate s q J eps d0 fuel P' (S it) e
      else (P, it, eps_max)
  end.
Definition no_poles : poles := fun _ _ => RtoC 0.
(** The first iteration sets diff0; eps < 1e99 is assumed (default 1e-5). *)
Definition solve_poles (s : section) (q : nat -> R) (J : nat) (eps : R) (it_max : nat) : poles * nat * R :=
  match it_max with
  | O => (no_poles, O, 10 ^ 99)
  | S fuel =>
      let P' := new_poles s q no_poles J in
      let d0 := spread s no_poles P' J in
      iterate s q J eps d0 fuel P' 1 (d0 / (d0 + / 10 ^ 30))
  end.

(** pipes.py 3449-3457, fluid temperatures *)
Definition T_order (s : section) (P : poles) (m j : nat) : R :=
  Re (csum_other (s_n s) m (fun n => Cdiv (Cmult (P n j) (RtoC (s_r s n ^ S j))) (cpow (dz s m n) (S j))))
  + sig s * Re (Cmult (cpow (Cconj (s_z s m)) (S j))
      (csum (s_n s) (fun n => Cdiv (Cmult (P n j) (RtoC (s_r s n ^ S j)))
         (cpow (Cminus (RtoC (s_rb s ^ 2)) (Cmult (Cconj (s_z s m)) (s_z s n))) (S j))))).
Definition fluid_T (s : section) (Tb : R) (q : nat -> R) (P : poles) (J m : nat) : R :=
  Tb + sumn (s_n s) (fun n => mpR0 s m n * q n) + sumn J (fun j => T_order s P m j).

(** pipes.py 3474-3494, temperature field; only the real part is kept, and the
    real part of a complex logarithm is the logarithm of the modulus. *)
Definition W0 (s : section) (z : C) (n : nat) : R :=
  if Rleb (Cmod z) (s_rb s) then
    ln (s_rb s / Cmod (Cminus z (s_z s n)))
    + sig s * ln (s_rb s ^ 2 / Cmod (Cminus (RtoC (s_rb s ^ 2)) (Cmult (s_z s n) (Cconj z))))
  else
    (1 + sig s) * ln (s_rb s / Cmod (Cminus z (s_z s n)))
    + sig s * (1 + sig s) / (1 - sig s) * ln (s_rb s / Cmod z).
Definition WJ (s : section) (z : C) (n j : nat) : C :=
  if Rleb (Cmod z) (s_rb s) then
    Cplus (cpow (Cdiv (RtoC (s_r s n)) (Cminus z (s_z s n))) (S j))
      (Cmult (RtoC (sig s)) (cpow (Cdiv (Cmult (RtoC (s_r s n)) (Cconj z))
                                          (Cminus (RtoC (s_rb s ^ 2)) (Cmult (s_z s n) (Cconj z)))) (S j)))
  else Cmult (RtoC (1 + sig s)) (cpow (Cdiv (RtoC (s_r s n)) (Cminus z (s_z s n))) (S j)).
Definition outside_T (s : section) (Tb : R) (q : nat -> R) (P : poles) (J : nat) (z : C) : R :=
  Tb + sumn (s_n s) (fun n => q n * pikg s * W0 s z n
                             + sumn J (fun j => Re (Cmult (P n j) (WJ s z n j)))).
(** The first pipe that contains the point gives its fluid temperature. *)
Definition field_T (s : section) (Tb : R) (q : nat -> R) (P : poles) (J : nat) (z : C) : R :=
  match find (fun n => Rltb (Cmod (Cminus z (s_z s n)) / s_r s n) 1) (seq 0 (s_n s)) with
  | Some n => fluid_T s Tb q P J n
  | None => outside_T s Tb q P J z
  end.

(** pipes.py 3338-3498, [multipole] with the default eps and it_max (and P = 0 if
    J = 0): fluid temperatures, temperature at points, number of iterations,
    error. *)
Definition mp_poles (s : section) (q : nat -> R) (J : nat) : poles * nat * R :=
  if Nat.eqb J 0 then (no_poles, O, 10 ^ 99) else solve_poles s q J (/ 10 ^ 5) 100.
Definition multipole (s : section) (Tb : R) (q : nat -> R) (J : nat) : (nat -> R) * (C -> R) * nat * R :=
  let '(P, it, e) := mp_poles s q J in
  (fluid_T s Tb q P J, field_T s Tb q P J, it, e).

(** ** Line source approximation *)

(** The arguments of [thermal_resistances] (after 2914-2917). *)
Record rargs := mkrargs {
  a_pos : list (R * R); a_rout : list R; a_rb : R; a_ks : R; a_kg : R; a_Rfp : list R; a_J : nat }.
Definition p_x (a : rargs) (i : nat) : R := fst (nth i (a_pos a) (0, 0)).
Definition p_y (a : rargs) (i : nat) : R := snd (nth i (a_pos a) (0, 0)).

(** pipes.py 2922-2945 *)
Definition ls_sigma (a : rargs) : R := (a_kg a - a_ks a) / (a_kg a + a_ks a).
Definition line_source (a : rargs) : Mx := fun i j =>
  if Nat.eqb i j then
    let r := sqrt (p_x a i ^ 2 + p_y a i ^ 2) in
    nth i (a_Rfp a) 0 + 1 / (2 * PI * a_kg a)
      * (ln (a_rb a / nth i (a_rout a) 0) - ls_sigma a * ln (1 - r ^ 2 / a_rb a ^ 2))
  else
    let r := sqrt ((p_x a i - p_x a j) ^ 2 + (p_y a i - p_y a j) ^ 2) in
    let ri := sqrt (p_x a i ^ 2 + p_y a i ^ 2) in
    let rj := sqrt (p_x a j ^ 2 + p_y a j ^ 2) in
    let dij := sqrt ((1 - ri ^ 2 / a_rb a ^ 2) * (1 - rj ^ 2 / a_rb a ^ 2) + r ^ 2 / a_rb a ^ 2) in
    - 1 / (2 * PI * a_kg a) * (ln (r / a_rb a) + ls_sigma a * ln dij).

(** pipes.py 3403-3409, the cross-section of the arguments *)
Definition section_of (a : rargs) : section :=
  mksection (length (a_pos a)) (fun i => nth i (a_pos a) (0, 0)) (fun i => nth i (a_rout a) 0)
            (fun i => nth i (a_Rfp a) 0) (a_rb a) (a_ks a) (a_kg a).

(** pipes.py 2919-2954, the matrix [R] *)
Definition unit_flow (m : nat) (n : nat) : R := if Nat.eqb n m then 1 else 0.
Definition resistance_matrix (a : rargs) : Mx :=
  if Nat.eqb (a_J a) 0 then line_source a
  else fun i m => fst (fst (fst (multipole (section_of a) 0 (unit_flow m) (a_J a)))) i.

(** pipes.py 2956-2961, delta-circuit; 1.0/0. is numpy.inf.  [None] is the
    exception of numpy.linalg.inv. *)
Definition delta_K (n : nat) (Ri : Mx) : Mx := fun i j =>
  if Nat.eqb i j then
    - (- Ri i i + Rsum (map (fun j => - Ri i j) (filter (fun j => negb (Nat.eqb i j)) (seq 0 n))))
  else - Ri i j.
Definition inverse_of (x : R) : xres := if Reqb x 0 then Infinite else Res (1 / x).
Definition delta_circuit (n : nat) (Rm : Mx) : option (nat -> nat -> xres) :=
  match inv_mx n Rm with
  | Some Ri => Some (fun i j => inverse_of (delta_K n Ri i j))
  | None => None
  end.

(** pipes.py 2845-2973 without the storage *)
Definition thermal_resistances (a : rargs) : option (Mx * (nat -> nat -> xres)) :=
  match delta_circuit (length (a_pos a)) (resistance_matrix a) with
  | Some Rd => Some (resistance_matrix a, Rd)
  | None => None
  end.

(** pipes.py 731: 1 / numpy.trace(1 / self._Rd) *)
Definition local_resistance (n : nat) (Rd : nat -> nat -> xres) : R :=
  1 / sumn n (fun i => over (Rd i i) 1).

(** ** The stored call *)

(** numpy.allclose of two arrays of the same length *)
Definition all_close (rtol : R) (l s : list R) : bool :=
  forallb (fun p => Rleb (Rabs (fst p - snd p)) (/ 10 ^ 8 + rtol * Rabs (snd p))) (combine l s).

(** pipes.py 2819-2842 *)
Definition same_inputs (a s : rargs) : bool :=
  Nat.eqb (length (a_pos a)) (length (a_pos s))
  && Nat.eqb (length (a_rout a)) (length (a_rout s))
  && Nat.eqb (length (a_Rfp a)) (length (a_Rfp s))
  && all_close (/ 10 ^ 6) (a_rout a) (a_rout s)
  && Rltb (Rabs (a_rb a - a_rb s) / a_rb a) (/ 10 ^ 6)
  && Rltb (Rabs (a_ks a - a_ks s) / a_ks a) (/ 10 ^ 6)
  && Rltb (Rabs (a_kg a - a_kg s) / a_kg a) (/ 10 ^ 6)
  && all_close (/ 10 ^ 5) (a_Rfp a) (a_Rfp s)
  && Nat.eqb (a_J a) (a_J s)
  && forallb (fun p => negb (Rltb (Rabs (fst (fst p) * / 10 ^ 6)) (Rabs (fst (fst p) - fst (snd p)))
                             || Rltb (Rabs (snd (fst p) * / 10 ^ 6)) (Rabs (snd (fst p) - snd (snd p)))))
             (combine (a_pos a) (a_pos s)).

(** The module state is the last call that was computed; pipes.py 2918-2920 and
    2963-2972.  Arrays are stored by value, the code stores references. *)
Definition rstate := option (rargs * (Mx * (nat -> nat -> xres))).
Definition call_resistances (st : rstate) (a : rargs) : rstate * option (Mx * (nat -> nat -> xres)) :=
  let compute := match thermal_resistances a with
                 | Some v => (Some (a, v), Some v)
                 | None => (st, None)
                 end in
  match st with
  | Some (s, v) => if same_inputs a s then (st, Some v) else compute
  | None => compute
  end.
Definition after_calls (l : list rargs) : rstate := fold_left (fun st a => fst (call_resistances st a)) l None.

(** ** Geometry checks *)

(** pipes.py 882-938; J is an integer. *)
Definition check_utube (pos : list (R * R)) (r_in r_out r_b k_s k_g R_fp : R) (nPipes : nat) (J : Z) : bool :=
  Rltb 0 k_s && Rltb 0 k_g && Rltb 0 R_fp && Rltb 0 r_in && Rltb r_in r_out && Z.leb 0 J
  && forallb (fun i => let p := nth i pos (0, 0) in
                Rleb (sqrt (fst p ^ 2 + snd p ^ 2) + r_out) r_b) (seq 0 (2 * nPipes))
  && forallb (fun i => forallb (fun j => let p := nth i pos (0, 0) in let q := nth j pos (0, 0) in
                Rleb (2 * r_out) (sqrt ((fst p - fst q) ^ 2 + (snd p - snd q) ^ 2)))
              (seq (S i) (2 * nPipes - S i))) (seq 0 (2 * nPipes)).

(** pipes.py 1073-1092 and 1327-1348, construction of a [SingleUTube] (J = 0 or
    more) on a fresh module state; the position list has two entries. *)
Definition single_utube (pos : list (R * R)) (r_in r_out : R) (b : bore) (k_s k_g R_fp : R) (J : nat) (rev : bool)
  : option utube :=
  if check_utube pos r_in r_out (br b) k_s k_g R_fp 1 (Z.of_nat J) then
    match thermal_resistances (mkrargs pos (repeat r_out (length pos)) (br b) k_s k_g (repeat R_fp (length pos)) J) with
    | Some (_, Rd) => Some (mkutube Rd b rev)
    | None => None
    end
  else None.

(** bool(x) as a number, and numpy.all of a list: pipes.py 2730, 2735, 2741 *)
Definition truth (x : R) : bool := negb (Reqb x 0).
Definition b2r (b : bool) : R := if b then 1 else 0.

(** r_out.argmin() and r_out.argmax() of an array of two radii: pipes.py 2598-2599 *)
Definition i_inner (r_out : R * R) : nat := if Rltb (snd r_out) (fst r_out) then 1%nat else 0%nat.
Definition i_outer (r_out : R * R) : nat := if Rltb (fst r_out) (snd r_out) then 1%nat else 0%nat.
Definition pick (p : R * R) (i : nat) : R := if Nat.eqb i 0 then fst p else snd p.

(** pipes.py 2717-2776, one position; [R_ff] and [R_fp] are numbers. *)
Definition check_coaxial (pos : R * R) (r_in r_out : R * R) (r_b k_s k_g R_ff R_fp : R) (J : Z) : bool :=
  Rltb 0 k_s && Rltb 0 k_g
  && Rleb 0 (b2r (truth R_ff)) && Rltb 0 (b2r (truth R_fp))
  && Rltb 0 (b2r (truth (fst r_in) && truth (snd r_in)))
  && (Rltb (fst r_in) (fst r_out) && Rltb (snd r_in) (snd r_out))
  && Rltb (pick r_out (i_inner r_out)) (pick r_in (i_outer r_out))
  && Z.leb 0 J
  && (let r := sqrt (fst pos ^ 2 + snd pos ^ 2) in
      Rleb (r + fst r_out) r_b || Rleb (r + snd r_out) r_b).
