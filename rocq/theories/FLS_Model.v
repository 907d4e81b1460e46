(** The finite line source solution.  Models pygfunction/heat_transfer.py and the
    function erfint of pygfunction/utilities.py.  Floats are reals; scipy's erf is
    its definition as an integral, quad and quad_vec are exact integrals, a quadrature
    to infinity is the limit of integrals, Gauss-Legendre rules along the emitting
    borehole are a list of (node, weight) pairs or, for comparison, the exact integral.
    numpy arrays over pairs of boreholes are handled entry by entry. *)
From Coq Require Import Reals List.
From Verif Require Import Base.
From Coquelicot Require Import Coquelicot.
Local Open Scope R_scope.

(** scipy.special.erf *)
Definition erf (x : R) : R := 2 / sqrt PI * RInt (fun t => exp (- t ^ 2)) 0 x.

(** utilities.py 25-40 *)
Definition erfint (x : R) : R := x * erf x - 1 / sqrt PI * (1 - exp (- x ^ 2)).

(** numpy.inner(p, y) *)
Definition inner (p y : list R) : R := Rsum (map (fun c => fst c * snd c) (combine p y)).

(** heat_transfer.py 1110-1145, and the same arrays in 402-440, 1294-1331 and
    1365-1405: the signs p and the axial distances q. *)
Definition fls_p (rea img : bool) : list R :=
  match rea, img with
  | true, true => 1 :: -1 :: 1 :: -1 :: 1 :: -1 :: 1 :: -1 :: nil
  | true, false => 1 :: -1 :: 1 :: -1 :: nil
  | false, true => 1 :: -1 :: 1 :: -1 :: nil
  | false, false => nil
  end.

Definition fls_q (rea img : bool) (H1 D1 H2 D2 : R) : list R :=
  match rea, img with
  | true, true =>
      (D2 - D1 + H2) :: (D2 - D1) :: (D2 - D1 - H1) :: (D2 - D1 + H2 - H1)
      :: (D2 + D1 + H2) :: (D2 + D1) :: (D2 + D1 + H1) :: (D2 + D1 + H2 + H1) :: nil
  | true, false => (D2 - D1 + H2) :: (D2 - D1) :: (D2 - D1 - H1) :: (D2 - D1 + H2 - H1) :: nil
  | false, true => (D2 + D1 + H2) :: (D2 + D1) :: (D2 + D1 + H1) :: (D2 + D1 + H2 + H1) :: nil
  | false, false => nil
  end.

(** heat_transfer.py 1078-1145: _finite_line_source_integrand. *)
Definition fls_integrand (dis H1 D1 H2 D2 : R) (rea img : bool) (s : R) : R :=
  / s ^ 2 * exp (- dis ^ 2 * s ^ 2)
  * inner (fls_p rea img) (map (fun q => erfint (q * s)) (fls_q rea img H1 D1 H2 D2)).

(** quad(f, a, np.inf)[0] *)
Definition quad_inf (f : R -> R) (a : R) : R := real (Lim (fun b => RInt f a b) p_infty).

(** 1.0 / np.sqrt(4.0*alpha*time) *)
Definition lower (alpha time : R) : R := 1 / sqrt (4 * alpha * time).

(** heat_transfer.py 220-227 (scalar time), also 755-764: transient solution between
    vertical boreholes at distance dis. *)
Definition fls (time alpha dis H1 D1 H2 D2 : R) (rea img : bool) : R :=
  (1/2) / H2 * quad_inf (fls_integrand dis H1 D1 H2 D2 rea img) (lower alpha time).

(** numpy.cumsum *)
Fixpoint cumsum_from (acc : R) (l : list R) : list R :=
  match l with
  | nil => nil
  | x :: r => (acc + x) :: cumsum_from (acc + x) r
  end.

(** heat_transfer.py 228-236, 765-774: array of times.  [c] is 0.5 / H2; the first
    upper bound is infinity, the others are the preceding lower bounds. *)
Fixpoint quad_pieces (f : R -> R) (upper : option R) (a : list R) : list R :=
  match a with
  | nil => nil
  | ai :: r =>
      match upper with
      | None => quad_inf f ai
      | Some b => RInt f ai b
      end :: quad_pieces f (Some ai) r
  end.

Definition fls_array (times : list R) (alpha dis H1 D1 H2 D2 : R) (rea img : bool) : list R :=
  let f := fls_integrand dis H1 D1 H2 D2 rea img in
  cumsum_from 0 (map (fun v => (1/2) / H2 * v) (quad_pieces f None (map (lower alpha) times))).

(** heat_transfer.py 1364-1406: _finite_line_source_steady_state. *)
Definition steady_term (dis q : R) : R :=
  let qpd := sqrt (q ^ 2 + dis ^ 2) in q * ln (q + qpd) - qpd.

Definition fls_steady (dis H1 D1 H2 D2 : R) (rea img : bool) : R :=
  (1/2) / H2 * inner (fls_p rea img) (map (steady_term dis) (fls_q rea img H1 D1 H2 D2)).

(** heat_transfer.py 399-455: finite_line_source_approximation, for one time.  exp1
    and erfc are arguments, (a, b) the coefficients of _erf_coeffs(N). *)
Definition fls_approx (exp1 erfc : R -> R) (ab : list (R * R)) (time alpha dis H1 D1 H2 D2 : R) (rea img : bool) : R :=
  let L := sqrt (4 * alpha * time) in
  let dis := dis / L in
  let H1 := H1 / L in let D1 := D1 / L in let H2 := H2 / L in let D2 := D2 / L in
  let p := fls_p rea img in
  let q := map Rabs (fls_q rea img H1 D1 H2 D2) in
  let dd := dis ^ 2 in
  let G1 := inner p (map (fun q => q * Rsum (map (fun c => fst c * ((1/2) * exp1 (dd + q ^ 2 * snd c))) ab)) q) in
  let G3 := inner p (map (fun q => let x3 := sqrt (dd + q ^ 2) in
                                   exp (- x3 ^ 2) / sqrt PI - x3 * erfc x3) q) in
  (1/2) / H2 * (G1 + G3).

(** heat_transfer.py 1293-1331 and 869-888: equivalent boreholes.  [dw] lists the
    distances and their numbers of pairs, N2 is the number of receiving boreholes. *)
Definition equivalent_integrand (dw : list (R * R)) (H1 D1 H2 D2 : R) (rea img : bool) (s : R) : R :=
  / s ^ 2 * Rsum (map (fun c => exp (- fst c ^ 2 * s ^ 2) * snd c) dw)
  * inner (fls_p rea img) (map (fun q => erfint (q * s)) (fls_q rea img H1 D1 H2 D2)).

Definition fls_equivalent (time alpha : R) (dw : list (R * R)) (H1 D1 H2 D2 N2 : R) (rea img : bool) : R :=
  (1/2) / (N2 * H2) * quad_inf (equivalent_integrand dw H1 D1 H2 D2 rea img) (lower alpha time).

Definition fls_equivalent_array (times : list R) (alpha : R) (dw : list (R * R)) (H1 D1 H2 D2 N2 : R) (rea img : bool) : list R :=
  let f := equivalent_integrand dw H1 D1 H2 D2 rea img in
  cumsum_from 0 (map (fun v => (1/2) / (N2 * H2) * v) (quad_pieces f None (map (lower alpha) times))).

(** A borehole: length, buried depth, radius, position, tilt and orientation. *)
Record bh := mkbh { b_H : R; b_D : R; b_r : R; b_x : R; b_y : R; b_tilt : R; b_ori : R }.

(** A sum along the emitting borehole: u in [0, 1] are the nodes of the rule. *)
Definition along := (R -> R) -> R.
(** roots_legendre(M) mapped to [0, 1] (heat_transfer.py 1207-1209). *)
Definition rule (uw : list (R * R)) : along := fun g => Rsum (map (fun c => g (fst c) * snd c) uw).
(** the exact integral the rule approximates *)
Definition exact : along := fun g => RInt g 0 1.

Section Inclined.
  Variables (b1 b2 : bh).

  (** heat_transfer.py 1210-1227 *)
  Definition dx : R := b_x b1 - b_x b2.
  Definition dy : R := b_y b1 - b_y b2.
  Definition dzRea : R := b_D b1 - b_D b2.
  Definition dzImg : R := b_D b1 + b_D b2.
  Definition rr : R := Rmax (dx ^ 2 + dy ^ 2) (b_r b1 ^ 2).
  Definition kRea_0 : R := sin (b_tilt b1) * sin (b_tilt b2) * cos (b_ori b1 - b_ori b2) + cos (b_tilt b1) * cos (b_tilt b2).
  Definition kImg_0 : R := sin (b_tilt b1) * sin (b_tilt b2) * cos (b_ori b1 - b_ori b2) - cos (b_tilt b1) * cos (b_tilt b2).
  Definition kRea_1 : R := sin (b_tilt b1) * (cos (b_ori b1) * dx + sin (b_ori b1) * dy) + cos (b_tilt b1) * dzRea.
  Definition kImg_1 : R := sin (b_tilt b1) * (cos (b_ori b1) * dx + sin (b_ori b1) * dy) + cos (b_tilt b1) * dzImg.
  Definition kRea_2 : R := sin (b_tilt b2) * (cos (b_ori b2) * dx + sin (b_ori b2) * dy) + cos (b_tilt b2) * dzRea.
  Definition kImg_2 : R := sin (b_tilt b2) * (cos (b_ori b2) * dx + sin (b_ori b2) * dy) - cos (b_tilt b2) * dzImg.

  (** one term of lines 1230-1233: radial distance [r2] squared, axial distance [dz],
      coefficients [k0], [k1], [k2] *)
  Definition inclined_term (r2 dz k0 k1 k2 s u : R) : R :=
    let H1 := b_H b1 in let H2 := b_H b2 in
    exp (- (r2 + dz ^ 2) * s ^ 2 + s ^ 2 * (u ^ 2 * H1 ^ 2 * (k0 ^ 2 - 1) + 2 * u * H1 * (k0 * k2 - k1) + k2 ^ 2))
    * (erf ((u * H1 * k0 + k2) * s) - erf ((u * H1 * k0 + k2 - H2) * s)).

  (** heat_transfer.py 1148-1256: _finite_line_source_inclined_integrand.  The image
      alone is computed with dx^2 + dy^2 (line 1251), the full solution with rr. *)
  Definition inclined_integrand (al : along) (rea img : bool) (s : R) : R :=
    match rea, img with
    | true, true => al (fun u => b_H b1 / s * (inclined_term rr dzRea kRea_0 kRea_1 kRea_2 s u
                                              - inclined_term rr dzImg kImg_0 kImg_1 kImg_2 s u))
    | true, false => al (fun u => b_H b1 / s * inclined_term rr dzRea kRea_0 kRea_1 kRea_2 s u)
    | false, true => - al (fun u => b_H b1 / s * inclined_term (dx ^ 2 + dy ^ 2) dzImg kImg_0 kImg_1 kImg_2 s u)
    | false, false => 0
    end.

  (** heat_transfer.py 267-270: transient solution, at least one borehole inclined *)
  Definition fls_inclined (al : along) (time alpha : R) (rea img : bool) : R :=
    (1/2) / b_H b2 * quad_inf (inclined_integrand al rea img) (lower alpha time).

  (** heat_transfer.py 271-280: the same for an array of times *)
  Definition fls_inclined_array (al : along) (times : list R) (alpha : R) (rea img : bool) : list R :=
    cumsum_from 0 (map (fun v => (1/2) / b_H b2 * v) (quad_pieces (inclined_integrand al rea img) None (map (lower alpha) times))).

  (** one logarithm of lines 1491-1492 *)
  Definition inclined_log (r2 dz k0 k1 k2 u : R) : R :=
    let H1 := b_H b1 in let H2 := b_H b2 in
    ln ((2 * H2 * sqrt (r2 + dz ^ 2 + u ^ 2 * H1 ^ 2 + H2 ^ 2 + 2 * u * H1 * k1 - 2 * H2 * k2 - 2 * u * H1 * H2 * k0)
           + 2 * H2 ^ 2 - 2 * H2 * k2 - 2 * u * H1 * H2 * k0)
        / (2 * H2 * sqrt (r2 + dz ^ 2 + u ^ 2 * H1 ^ 2 + 2 * u * H1 * k1) - 2 * H2 * k2 - 2 * u * H1 * H2 * k0)).

  (** heat_transfer.py 1409-1516: _finite_line_source_inclined_steady_state. *)
  Definition inclined_steady (al : along) (rea img : bool) : R :=
    match rea, img with
    | true, true => (1/2) * b_H b1 / b_H b2 * al (fun u =>
        inclined_log rr dzRea kRea_0 kRea_1 kRea_2 u - inclined_log (dx ^ 2 + dy ^ 2) dzImg kImg_0 kImg_1 kImg_2 u)
    | true, false => (1/2) * b_H b1 / b_H b2 * al (fun u => inclined_log rr dzRea kRea_0 kRea_1 kRea_2 u)
    | false, true => (1/2) * b_H b1 / b_H b2 * al (fun u => - inclined_log (dx ^ 2 + dy ^ 2) dzImg kImg_0 kImg_1 kImg_2 u)
    | false, false => 0
    end.
End Inclined.
