(** Model of the general procedure of pygfunction/pipes.py for single U-tubes: the methods
    coefficients_outlet_temperature and coefficients_temperature of _BasePipe (347-436,
    438-529) with the general solution, the conditions at the head and the directions of
    SingleUTube (1350-1764).  SingleUTube itself replaces both methods by formulas
    (Pipe_Model.v); the procedure remains for classes derived from it.

    One pipe (nPipes = 1), a flow that is a number, one depth at a time; the stored
    coefficients are left out.  numpy.linalg.solve is the elimination of LinAlg.v. *)
From Coq Require Import Reals List.
From Verif Require Import Base LinAlg Bore_Model Net_Model Pipe_Model.
Import ListNotations.
Local Open Scope R_scope.

(** 1658-1698: _f1, _f2, _f3 *)
Definition f1 (v : uvars) (z : R) : R := exp (vb v * z) * (cosh (vg v * z) - vd v * sinh (vg v * z)).
Definition f2 (v : uvars) (z : R) : R := exp (vb v * z) * v12 v / vg v * sinh (vg v * z).
Definition f3 (v : uvars) (z : R) : R := exp (vb v * z) * (cosh (vg v * z) + vd v * sinh (vg v * z)).

(** 1700-1728: _f4, _f5 *)
Definition f4 (v : uvars) (z : R) : R :=
  let A := vd v * v1 v + v2 v * v12 v / vg v in
  exp (vb v * z) * (v1 v * cosh (vg v * z) - A * sinh (vg v * z)).
Definition f5 (v : uvars) (z : R) : R :=
  let B := vd v * v2 v + v1 v * v12 v / vg v in
  exp (vb v * z) * (v2 v * cosh (vg v * z) + B * sinh (vg v * z)).

(** 1730-1764: _F4, _F5 *)
Definition F4 (v : uvars) (z : R) : R :=
  let A := vd v * v1 v + v2 v * v12 v / vg v in
  let C := v1 v * vb v + A * vg v in
  let S := - (v1 v * vg v + vb v * A) in
  let denom := vb v ^ 2 - vg v ^ 2 in
  exp (vb v * z) / denom * (C * cosh (vg v * z) + S * sinh (vg v * z)).
Definition F5 (v : uvars) (z : R) : R :=
  let B := vd v * v2 v + v1 v * v12 v / vg v in
  let C := v2 v * vb v - B * vg v in
  let S := - (v2 v * vg v - vb v * B) in
  let denom := vb v ^ 2 - vg v ^ 2 in
  exp (vb v * z) / denom * (C * cosh (vg v * z) + S * sinh (vg v * z)).

(** A matrix of two rows and two columns *)
Definition block2 (a b c d : R) : Mx := fun i j =>
  match i, j with O, O => a | O, _ => b | _, O => c | _, _ => d end.
(** A column *)
Definition column2 (a b : R) : Mx := fun i _ => match i with O => a | _ => b end.

(** 1458-1525: _general_solution at one depth; rows are the legs 0 and 1 *)
Definition solution_f0 (u : utube) (m cp z : R) : Mx :=
  let v := model_vars u m cp in
  if is_reversed u m then block2 (f3 v z) (- f2 v z) (f2 v z) (f1 v z)
  else block2 (f1 v z) (f2 v z) (- f2 v z) (f3 v z).
Definition solution_b (u : utube) (m cp : R) (n : nat) (r : option (list R)) (z : R) : Mx := fun i k =>
  let v := model_vars u m cp in
  let dz j := Rmax (z - nth j (segment_edges (u_b u) n r) 0) 0 in
  if Nat.eqb i (i_inlet u m) then F4 v (dz k) - F4 v (dz (S k))
  else - (F5 v (dz k) - F5 v (dz (S k))).

(** 1350-1395: _continuity_condition_head *)
Definition head_in : Mx := fun _ _ => 1.
Definition head_fu : Mx := fun _ _ => 0.

(** 1397-1456: _flow_direction *)
Definition dir_fd (u : utube) (m : R) : Mx := if is_reversed u m then column2 0 1 else column2 1 0.
Definition dir_fu (u : utube) (m : R) : Mx := if is_reversed u m then column2 1 0 else column2 0 1.

(** 1527-1566: _pipe_connectivity *)
Definition connect_fu : Mx := fun _ _ => 1.

(** 425-427 and 521-523: ImI of one pipe *)
Definition im_i1 : Mx := fun _ p => match p with O => 1 | _ => -1 end.

(** 428, 524: f_fu + f_fd @ c_fu *)
Definition head_top (u : utube) (m : R) : Mx := mx_add (dir_fu u m) (mx_mul 1 (dir_fd u m) head_fu).

(** 428, 525: numpy.linalg.solve(ImI @ e_f0 @ B, -ImI) *)
Definition head_solve (u : utube) (m cp : R) : option Mx :=
  lin_solve_mx 1 (mx_mul 2 (mx_mul 2 im_i1 (solution_f0 u m cp (bH (u_b u)))) (head_top u m)) (fun i p => - im_i1 i p).

(** 347-436: _BasePipe.coefficients_outlet_temperature *)
Definition general_outlet (u : utube) (m cp : R) (n : nat) (r : option (list R)) : option (Mx * Mx) :=
  match head_solve u m cp with
  | None => None
  | Some Y =>
      let e_f0 := solution_f0 u m cp (bH (u_b u)) in
      let e_b := solution_b u m cp n r (bH (u_b u)) in
      let A := mx_mul 1 connect_fu Y in
      Some (mx_mul 1 (mx_mul 2 (mx_mul 2 A e_f0) (dir_fd u m)) head_in, mx_mul 2 A e_b)
  end.

(** 438-529: _BasePipe.coefficients_temperature at one depth *)
Definition general_temperature (u : utube) (m cp : R) (n : nat) (r : option (list R)) (z : R) : option (Mx * Mx) :=
  match head_solve u m cp with
  | None => None
  | Some Y =>
      let e_f0 := solution_f0 u m cp (bH (u_b u)) in
      let e_b := solution_b u m cp n r (bH (u_b u)) in
      let f_f0 := solution_f0 u m cp z in
      let f_b := solution_b u m cp n r z in
      let A := mx_mul 1 (head_top u m) Y in
      Some (mx_mul 1 (mx_mul 2 (mx_mul 2 f_f0 (mx_add id_mx (mx_mul 2 A e_f0))) (dir_fd u m)) head_in,
            mx_add (mx_mul 2 (mx_mul 2 f_f0 A) e_b) f_b)
  end.
