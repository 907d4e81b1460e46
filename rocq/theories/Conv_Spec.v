(** Specification of friction factors and convection: C36, C72, C73. *)
From Verif Require Import Base Conv_Model.

(** The Colebrook-White equation for the Darcy friction factor f of a pipe of
    relative roughness E at the Reynolds number Re. *)
Definition colebrook (Re E f : R) : Prop :=
  0 < f /\ 1 / sqrt f = - 2 * (ln (E / (37 / 10) + (251 / 100) / (Re * sqrt f)) / ln 10).

(** What f misses of the Colebrook-White equation. *)
Definition colebrook_miss (Re E f : R) : R :=
  Rabs (1 / sqrt f + 2 * (ln (E / (37 / 10) + (251 / 100) / (Re * sqrt f)) / ln 10)).

(** Reynolds number of a duct from its mass flow rate, wetted perimeter and
    dynamic viscosity: 4 m / (P mu). *)
Definition reynolds_of (m perimeter mu : R) : R := 4 * Rabs m / (perimeter * mu).

(** A fluid with positive properties whose Prandtl number is at least 1. *)
Definition good_fluid (fl : fluid) : Prop :=
  0 < fl_mu fl /\ 0 < fl_rho fl /\ 0 < fl_k fl /\ 0 < fl_cp fl /\ fl_k fl <= fl_cp fl * fl_mu fl.

(** Tubes of positive radii inside one another: pipe [i] inside pipe [o]. *)
Definition in_annulus (i o : nat) (r_in r_out k_p : nat -> R) : Prop :=
  0 < r_in i /\ r_in i < r_out i /\ r_out i < r_in o /\ r_in o < r_out o /\ 0 < k_p i /\ 0 < k_p o.

(** The two entries of a pair exchanged. *)
Definition swapped (f : nat -> R) (i : nat) : R := match i with O => f 1%nat | _ => f 0%nat end.
