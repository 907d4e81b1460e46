(** Friction factors, convection coefficients and the thermal resistances made of
    them.  Models pygfunction/pipes.py 3039-3335, 3557-3618 and 3621-3839.
    Floats are reals.  numpy.log10(x) is ln x / ln 10, x**y of floats is [Rpower],
    the warnings of _Nusselt_number_turbulent_flow are dropped.  The while loop of
    the Colebrook-White equation takes fuel and returns [None] when it runs out.
    numpy's 64.0 / 0.0 = inf (no flow) is 0 here: the value is not used, the flow
    being laminar. *)
From Verif Require Import Base.

Definition log10 (x : R) : R := ln x / ln 10.

(** pipes.py 3069-3078 and 3149-3155: Reynolds number of a circular pipe. *)
Definition reynolds (m_flow r_in mu rho : R) : R :=
  let D := 2 * r_in in
  let V_flow := Rabs m_flow / rho in
  let A_cs := PI * r_in ^ 2 in
  let V := V_flow / A_cs in
  rho * V * D / mu.

(** pipes.py 3088-3090: one pass of the loop on fDarcy. *)
Definition colebrook_pass (Re E f : R) : R :=
  let one_over_sqrt_f := - 2 * log10 (E / (37 / 10) + (251 / 100) / (Re * sqrt f)) in
  1 / one_over_sqrt_f ^ 2.

(** pipes.py 3087-3092: while abs(df/fDarcy) > tol. *)
Fixpoint colebrook_loop (fuel : nat) (Re E tol f df : R) : option R :=
  if Rltb tol (Rabs (df / f)) then
    match fuel with
    | O => None
    | S n => let f' := colebrook_pass Re E f in colebrook_loop n Re E tol f' (f' - f)
    end
  else Some f.

(** pipes.py 3039-3094: fluid_friction_factor_circular_pipe. *)
Definition friction_factor (fuel : nat) (m_flow r_in mu rho epsilon tol : R) : option R :=
  let D := 2 * r_in in
  let E := epsilon / D in
  let Re := reynolds m_flow r_in mu rho in
  if Rltb Re 2300 then Some (64 / Re)
  else colebrook_loop fuel Re E tol (2 / 100) (10 ^ 99).

(** The default of the argument tol (pipes.py 3040). *)
Definition default_tol : R := / 10 ^ 6.

(** pipes.py 3616-3617: _Nusselt_number_turbulent_flow. *)
Definition nusselt_turbulent (Re Pr f : R) : R :=
  125 / 1000 * f * (Re - 1000) * Pr
  / (1 + 127 / 10 * sqrt (125 / 1000 * f) * (Rpower Pr (2 / 3) - 1)).

(** pipes.py 3167-3183: the Nusselt number of a circular pipe; the same three
    cases with other laminar values make those of the annulus (3279-3303). *)
Definition nusselt (lam Re Pr f : R) : R :=
  if Rleb 4000 Re then nusselt_turbulent Re Pr f
  else if Rltb 2300 Re then
    let turb := nusselt_turbulent 4000 Pr f in
    let gamma := (Re - 2300) / (4000 - 2300) in
    (1 - gamma) * lam + gamma * turb
  else lam.

(** pipes.py 3097-3187: convective_heat_transfer_coefficient_circular_pipe. *)
Definition conv_circular (fuel : nat) (m_flow r_in mu rho k cp epsilon : R) : option R :=
  let D := 2 * r_in in
  let Re := reynolds m_flow r_in mu rho in
  let Pr := cp * mu / k in
  match friction_factor fuel m_flow r_in mu rho epsilon default_tol with
  | Some f => Some (k * nusselt (366 / 100) Re Pr f / D)
  | None => None
  end.

(** pipes.py 3257-3267: Reynolds number of the annulus. *)
Definition reynolds_annulus (m_flow r_a_in r_a_out mu rho : R) : R :=
  let D_h := 2 * (r_a_out - r_a_in) in
  let A_c := PI * (r_a_out ^ 2 - r_a_in ^ 2) in
  let V_dot := Rabs m_flow / rho in
  let V := V_dot / A_c in
  rho * V * D_h / mu.

(** pipes.py 3190-3308: convective_heat_transfer_coefficient_concentric_annulus,
    the coefficients of the inner and of the outer surface. *)
Definition conv_annulus (fuel : nat) (m_flow r_a_in r_a_out mu rho k cp epsilon : R) : option (R * R) :=
  let D_h := 2 * (r_a_out - r_a_in) in
  let r_h := D_h / 2 in
  let Re := reynolds_annulus m_flow r_a_in r_a_out mu rho in
  let Pr := cp * mu / k in
  let r_star := r_a_in / r_a_out in
  match friction_factor fuel m_flow r_h mu rho epsilon default_tol with
  | Some f =>
      Some (k * nusselt (366 / 100 + 12 / 10 * Rpower r_star (- (8 / 10))) Re Pr f / D_h,
            k * nusselt (366 / 100 + 12 / 10 * Rpower r_star (5 / 10)) Re Pr f / D_h)
  | None => None
  end.

(** pipes.py 3311-3335: conduction_thermal_resistance_circular_pipe. *)
Definition conduction (r_in r_out k_p : R) : R := ln (r_out / r_in) / (2 * PI * k_p).

(** enums.py: PipeType. *)
Inductive pipe_type := COAXIAL_ANNULAR_IN | COAXIAL_ANNULAR_OUT
  | DOUBLE_UTUBE_PARALLEL | DOUBLE_UTUBE_SERIES | SINGLE_UTUBE.

(** The properties of a Fluid (media.py) the resistances use. *)
Record fluid := mkfluid { fl_mu : R; fl_rho : R; fl_k : R; fl_cp : R }.

(** pipes.py 3621-3741: fluid_to_pipe_thermal_resistance.  Radii and conductivities
    are one number for U-tubes, a pair for coaxial pipes: here a function of the
    index, U-tubes using index 0. *)
Definition fluid_to_pipe (fuel : nat) (ty : pipe_type) (m : R) (r_in r_out k_p : nat -> R)
  (epsilon : R) (fl : fluid) : option R :=
  let circular m_flow_pipe :=
    let R_p := conduction (r_in 0%nat) (r_out 0%nat) (k_p 0%nat) in
    match conv_circular fuel m_flow_pipe (r_in 0%nat) (fl_mu fl) (fl_rho fl) (fl_k fl) (fl_cp fl) epsilon with
    | Some h_f => Some (R_p + 1 / (h_f * 2 * PI * r_in 0%nat))
    | None => None
    end in
  let annular (inner outer : nat) :=
    let r_in_out := r_out inner in
    let r_out_in := r_in outer in
    let r_out_out := r_out outer in
    let R_p_out := conduction r_out_in r_out_out (k_p outer) in
    match conv_annulus fuel m r_in_out r_out_in (fl_mu fl) (fl_rho fl) (fl_k fl) (fl_cp fl) epsilon with
    | Some (_, h_f_a_out) => Some (R_p_out + 1 / (h_f_a_out * 2 * PI * r_out_in))
    | None => None
    end in
  match ty with
  | SINGLE_UTUBE | DOUBLE_UTUBE_SERIES => circular m
  | DOUBLE_UTUBE_PARALLEL => circular (m / 2)
  | COAXIAL_ANNULAR_IN => annular 1%nat 0%nat
  | COAXIAL_ANNULAR_OUT => annular 0%nat 1%nat
  end.

(** pipes.py 3744-3839: fluid_to_fluid_thermal_resistance ([None] also stands for
    the ValueError of line 3839). *)
Definition fluid_to_fluid (fuel : nat) (ty : pipe_type) (m : R) (r_in r_out k_p : nat -> R)
  (epsilon : R) (fl : fluid) : option R :=
  let coaxial (inner outer : nat) :=
    let r_in_in := r_in inner in
    let r_in_out := r_out inner in
    let r_out_in := r_in outer in
    let R_p_in := conduction r_in_in r_in_out (k_p inner) in
    match conv_circular fuel m r_in_in (fl_mu fl) (fl_rho fl) (fl_k fl) (fl_cp fl) epsilon,
          conv_annulus fuel m r_in_out r_out_in (fl_mu fl) (fl_rho fl) (fl_k fl) (fl_cp fl) epsilon with
    | Some h_f_in, Some (h_f_a_in, _) =>
        Some (1 / (h_f_in * 2 * PI * r_in_in) + R_p_in + 1 / (h_f_a_in * 2 * PI * r_in_out))
    | _, _ => None
    end in
  match ty with
  | COAXIAL_ANNULAR_IN => coaxial 1%nat 0%nat
  | COAXIAL_ANNULAR_OUT => coaxial 0%nat 1%nat
  | _ => None
  end.
