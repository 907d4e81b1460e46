(** Specification of the approximation of the finite line source solution: C109 - C112. *)
From Coq Require Import Reals List.
From Verif Require Import Base FLS_Model FLS_Spec Approx_Model.
From Coquelicot Require Import Coquelicot.
Local Open Scope R_scope.

(** The exponential integral. *)
Definition E1 (x : R) : R := quad_inf (fun u => exp (- u) / u) x.

(** A sum of exponentials with the coefficients [ab]. *)
Definition exp_sum (ab : list (R * R)) (x : R) : R := Rsum (map (fun c => fst c * exp (- snd c * x ^ 2)) ab).

(** The sum of exponentials is the error function to within [eps]. *)
Definition erf_within (ab : list (R * R)) (eps : R) : Prop := forall x, 0 <= x -> Rabs (exp_sum ab x - erf x) <= eps.

(** The relative error of a formula of the exponential integral from [m] on. *)
Definition E1_within (exp1 : R -> R) (m delta : R) : Prop := forall x, m <= x -> Rabs (exp1 x - E1 x) <= delta * E1 x.

(** The sum of the absolute coefficients. *)
Definition weight (ab : list (R * R)) : R := Rsum (map (fun c => Rabs (fst c)) ab).

(** The sum of the distances between the ends of the boreholes, and between the ends
    of one and the images of the ends of the other. *)
Definition ends (rea img : bool) (H1 D1 H2 D2 : R) : R :=
  (if rea then Rabs (D2 + H2 - D1) + Rabs (D2 - D1) + Rabs (D2 - (D1 + H1)) + Rabs (D2 + H2 - (D1 + H1)) else 0)
  + (if img then Rabs (D2 + H2 + D1) + Rabs (D2 + D1) + Rabs (D2 + D1 + H1) + Rabs (D2 + H2 + D1 + H1) else 0).

(** A node of the emitting borehole (or of its image). *)
Definition node_point (b : bh) (image : bool) (u : R) : R * R * R :=
  if image then mirror (point b (u * b_H b)) else point b (u * b_H b).

(** Either the node is at least the radius of the emitting borehole away from the axis
    of the receiving one and the solution adds nothing to the distance, or the node is on
    this axis and the solution adds the radius. *)
Definition off_wall (b1 b2 : bh) (ex : R) (image : bool) (u : R) : Prop :=
  (ex = 0 /\ forall v, b_r b1 ^ 2 <= dist2 (node_point b1 image u) (point b2 v))
  \/ (ex = b_r b1 ^ 2 /\ exists v, dist2 (node_point b1 image u) (point b2 v) = 0).

(** The same for the nodes of a rule and the parts of the solution that are asked for. *)
Definition off_walls (uw : list (R * R)) (b1 b2 : bh) (rea img : bool) : Prop :=
  forall c, In c uw -> (rea = true -> off_wall b1 b2 (wall_excess b1 b2) false (fst c)) /\
    (img = true -> off_wall b1 b2 (if rea then wall_excess b1 b2 else 0) true (fst c)).

(** How many parts are asked for. *)
Definition parts (rea img : bool) : R := (if rea then 1 else 0) + (if img then 1 else 0).

(** All lengths of a borehole multiplied by [l]. *)
Definition scaled (l : R) (b : bh) : bh :=
  mkbh (l * b_H b) (l * b_D b) (l * b_r b) (l * b_x b) (l * b_y b) (b_tilt b) (b_ori b).

(** The table of the values of the pairs, one row for each receiving borehole. *)
Definition pairwise {T} (value : bh -> bh -> T) (l1 l2 : list bh) : list (list T) :=
  map (fun b2 => map (fun b1 => value b1 b2) l1) l2.

(** All times are positive. *)
Definition positive_times (w : when) : Prop :=
  match w with Forever => True | At t => 0 < t | Times ts => forall t, In t ts -> 0 < t end.
