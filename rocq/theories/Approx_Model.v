(** The approximation of the finite line source solution by sums of exponential
    integrals (heat_transfer.py 349-650) and the calls of finite_line_source for lists
    of boreholes (heat_transfer.py 9-346).  The approximation between vertical boreholes
    is [fls_approx] in FLS_Model.v.  numpy arrays over pairs of boreholes and over times
    are handled entry by entry; the algebraic formula exp1 of utilities.py 43-73 is an
    argument. *)
From Coq Require Import Reals List Bool.
From Verif Require Import Base FLS_Model.
From Coquelicot Require Import Coquelicot.
Local Open Scope R_scope.

(** numpy.sign *)
Definition sign (x : R) : R := if Rlt_dec 0 x then 1 else if Rlt_dec x 0 then -1 else 0.

Section InclinedApprox.
  Variables (exp1 : R -> R) (ab : list (R * R)) (b1 b2 : bh).

  (** heat_transfer.py 578-587: the axial distance [d1] and the square of the distance to
      the axis of the receiving borehole of a node [u] of the emitting one, at least the
      square of the radius of the emitting borehole. *)
  Definition ap_foot (k0 k2 u : R) : R := u * b_H b1 * k0 + k2.
  Definition ap_gap (dz k0 k1 k2 u : R) : R :=
    Rmax (dx b1 b2 ^ 2 + dy b1 b2 ^ 2 + dz ^ 2 - ap_foot k0 k2 u ^ 2 + (k1 + u * b_H b1) ^ 2 - k1 ^ 2) (b_r b1 ^ 2).

  (** One pair of terms of lines 599-602 summed over the coefficients (the index j of
      numpy.einsum). *)
  Definition ap_term (dz k0 k1 k2 ss u : R) : R :=
    let d1 := ap_foot k0 k2 u in
    let d2 := ap_foot k0 k2 u - b_H b2 in
    let c := ap_gap dz k0 k1 k2 u in
    Rsum (map (fun t => fst t * (sign d1 * exp1 ((c + snd t * d1 ^ 2) * ss)
                                 - sign d2 * exp1 ((c + snd t * d2 ^ 2) * ss))) ab).

  (** heat_transfer.py 529-650: finite_line_source_inclined_approximation, for one time;
      [uw] are the nodes and weights of the rule along the emitting borehole (the index i
      of numpy.einsum). *)
  Definition fls_inclined_approx (uw : list (R * R)) (time alpha : R) (rea img : bool) : R :=
    let ss := 1 / (4 * alpha * time) in
    let Rea := ap_term (dzRea b1 b2) (kRea_0 b1 b2) (kRea_1 b1 b2) (kRea_2 b1 b2) ss in
    let Img := ap_term (dzImg b1 b2) (kImg_0 b1 b2) (kImg_1 b1 b2) (kImg_2 b1 b2) ss in
    match rea, img with
    | true, true => (1/4) * (b_H b1 / b_H b2) * rule uw (fun u => Rea u - Img u)
    | true, false => (1/4) * (b_H b1 / b_H b2) * rule uw Rea
    | false, true => (1/4) * (b_H b1 / b_H b2) * rule uw (fun u => - Img u)
    | false, false => 0
    end.
End InclinedApprox.

(** * finite_line_source for boreholes and lists of boreholes *)

(** boreholes.py 46, 153-163 *)
Definition is_vertical (b : bh) : bool := if Rlt_dec (/ 1000000) (Rabs (b_tilt b)) then false else true.

(** boreholes.py 109-139: Borehole.distance *)
Definition distance (b1 b2 : bh) : R :=
  Rmax (b_r b1) (sqrt ((b_x b1 - b_x b2) ^ 2 + (b_y b1 - b_y b2) ^ 2)).

(** heat_transfer.py 286-292: one entry of the array dis; r_b is an array along the
    columns, that is over the emitting boreholes. *)
Definition list_distance (b1 b2 : bh) : R :=
  Rmax (sqrt ((b_x b2 + - b_x b1) ^ 2 + (b_y b2 + - b_y b1) ^ 2)) (b_r b1).

(** The argument time: numpy.inf, a number or an array. *)
Inductive when := Forever | At (t : R) | Times (ts : list R).
(** The arguments borehole1 and borehole2: a borehole or a list. *)
Inductive bhs := One (b : bh) | Many (bs : list bh).

Section Call.
  (** [al] is the rule along the emitting borehole of the integrals, [uw] its nodes and
      weights for the approximation; [ab] are the coefficients of the approximation when it
      is asked for. *)
  Variables (exp1 erfc : R -> R) (al : along) (uw : list (R * R)) (ab : option (list (R * R))).
  Variables (time : when) (alpha : R) (rea img : bool).

  (** heat_transfer.py 210-237 (one pair) and 297-315 (one entry of the arrays, with
      755-778): the values of two vertical boreholes along the axis of time. *)
  Definition both_vertical (dis : R) (b1 b2 : bh) : list R :=
    let H1 := b_H b1 in let D1 := b_D b1 in let H2 := b_H b2 in let D2 := b_D b2 in
    match time, ab with
    | Forever, _ => fls_steady dis H1 D1 H2 D2 rea img :: nil
    | At t, Some ab => fls_approx exp1 erfc ab t alpha dis H1 D1 H2 D2 rea img :: nil
    | Times ts, Some ab => map (fun t => fls_approx exp1 erfc ab t alpha dis H1 D1 H2 D2 rea img) ts
    | At t, None => fls t alpha dis H1 D1 H2 D2 rea img :: nil
    | Times ts, None => fls_array ts alpha dis H1 D1 H2 D2 rea img
    end.

  (** heat_transfer.py 238-280 (one pair) and 316-345 (one entry of the arrays, with
      1045-1075): the values when a borehole is inclined. *)
  Definition with_inclined (b1 b2 : bh) : list R :=
    match time, ab with
    | Forever, _ => inclined_steady b1 b2 al rea img :: nil
    | At t, Some ab => fls_inclined_approx exp1 ab b1 b2 uw t alpha rea img :: nil
    | Times ts, Some ab => map (fun t => fls_inclined_approx exp1 ab b1 b2 uw t alpha rea img) ts
    | At t, None => fls_inclined b1 b2 al t alpha rea img :: nil
    | Times ts, None => fls_inclined_array b1 b2 al ts alpha rea img
    end.

  (** heat_transfer.py 210-280: both arguments are boreholes. *)
  Definition fls_pair (b1 b2 : bh) : list R :=
    if is_vertical b1 && is_vertical b2 then both_vertical (distance b1 b2) b1 b2 else with_inclined b1 b2.

  (** heat_transfer.py 282-345: lists of emitting and receiving boreholes; the rows are
      the receiving boreholes. *)
  Definition fls_lists (l1 l2 : list bh) : list (list (list R)) :=
    if forallb is_vertical l1 && forallb is_vertical l2
    then map (fun b2 => map (fun b1 => both_vertical (list_distance b1 b2) b1 b2) l1) l2
    else map (fun b2 => map (fun b1 => with_inclined b1 b2) l1) l2.

  Definition as_list (a : bhs) : list bh := match a with One b => b :: nil | Many bs => bs end.

  (** heat_transfer.py 9-346: finite_line_source. *)
  Definition finite_line_source (a1 a2 : bhs) : list (list (list R)) :=
    match a1, a2 with
    | One b1, One b2 => (fls_pair b1 b2 :: nil) :: nil
    | _, _ => fls_lists (as_list a1) (as_list a2)
    end.
End Call.
