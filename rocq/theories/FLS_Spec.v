(** Specification of the finite line source solution: C38 - C43, C74 - C77. *)
From Coq Require Import Reals List.
From Verif Require Import Base FLS_Model.
From Coquelicot Require Import Coquelicot.
Local Open Scope R_scope.

(** Consecutive segments of the lengths [hs] from the depth [D] on: (depth, length). *)
Fixpoint split_at (D : R) (hs : list R) : list (R * R) :=
  match hs with
  | nil => nil
  | h :: r => (D, h) :: split_at (D + h) r
  end.

(** The integral of a function to infinity exists. *)
Definition converges (f : R -> R) (a : R) : Prop :=
  (forall b, a <= b -> ex_RInt f a b) /\ ex_finite_lim (fun b => RInt f a b) p_infty.

(** The kernel of a point source: [rho2] is the square of the distance. *)
Definition point_source (s rho2 : R) : R := exp (- s ^ 2 * rho2).

(** The source at depth z' and minus its image at depth - z', seen from depth z. *)
Definition source (rea img : bool) (s dis z z' : R) : R :=
  (if rea then point_source s (dis ^ 2 + (z - z') ^ 2) else 0)
  - (if img then point_source s (dis ^ 2 + (z + z') ^ 2) else 0).

(** Sources spread over the emitting borehole, summed over the receiving one. *)
Definition line_source (rea img : bool) (s dis H1 D1 H2 D2 : R) : R :=
  2 / sqrt PI * RInt (fun z => RInt (fun z' => source rea img s dis z z') D1 (D1 + H1)) D2 (D2 + H2).

(** The point of a borehole at the distance xi of its head, the z axis pointing down. *)
Definition point (b : bh) (xi : R) : R * R * R :=
  (b_x b + xi * sin (b_tilt b) * cos (b_ori b),
   b_y b + xi * sin (b_tilt b) * sin (b_ori b),
   b_D b + xi * cos (b_tilt b)).

Definition mirror (p : R * R * R) : R * R * R := (fst (fst p), snd (fst p), - snd p).

Definition dist2 (p q : R * R * R) : R :=
  (fst (fst p) - fst (fst q)) ^ 2 + (snd (fst p) - snd (fst q)) ^ 2 + (snd p - snd q) ^ 2.

(** What the radius of the emitting borehole adds to the square of the horizontal
    distance when the heads of the boreholes are closer than that. *)
Definition wall_excess (b1 b2 : bh) : R :=
  Rmax 0 (b_r b1 ^ 2 - ((b_x b1 - b_x b2) ^ 2 + (b_y b1 - b_y b2) ^ 2)).

(** A node of the emitting borehole seen from the length of the receiving one. *)
Definition seen (b1 b2 : bh) (ex : R) (image : bool) (s u : R) : R :=
  RInt (fun v => point_source s (ex + dist2 (if image then mirror (point b1 (u * b_H b1)) else point b1 (u * b_H b1)) (point b2 v)))
    0 (b_H b2).

(** The same for a borehole of any inclination, along the lengths of both. *)
Definition inclined_source (b1 b2 : bh) (ex : R) (image : bool) (s : R) : R :=
  2 / sqrt PI * RInt (fun u => b_H b1 * seen b1 b2 ex image s u) 0 1.

(** The same when the emitting borehole is a list of weighted nodes. *)
Definition nodes_source (uw : list (R * R)) (b1 b2 : bh) (ex : R) (image : bool) (s : R) : R :=
  2 / sqrt PI * Rsum (map (fun c => snd c * (b_H b1 * seen b1 b2 ex image s (fst c))) uw).

(** No node of the emitting borehole (or of its image) lies on the receiving borehole
    or its extension. *)
Definition clear (b1 b2 : bh) (ex : R) (image : bool) (u : R) : Prop :=
  forall v, 0 < ex + dist2 (if image then mirror (point b1 (u * b_H b1)) else point b1 (u * b_H b1)) (point b2 v).

(** The same for all the nodes, for the parts of the solution that are asked for. *)
Definition clear_nodes (uw : list (R * R)) (b1 b2 : bh) (rea img : bool) : Prop :=
  forall c, In c uw -> (rea = true -> clear b1 b2 (wall_excess b1 b2) false (fst c)) /\
    (img = true -> clear b1 b2 (if rea then wall_excess b1 b2 else 0) true (fst c)).

(** The heads of the boreholes are at least the radius of the emitting one apart. *)
Definition apart (b1 b2 : bh) : Prop := b_r b1 ^ 2 <= (b_x b1 - b_x b2) ^ 2 + (b_y b1 - b_y b2) ^ 2.

(** The mean of 1 / distance over a receiving borehole, seen from a node. *)
Definition steady_source (b1 b2 : bh) (ex : R) (image : bool) (u : R) : R :=
  RInt (fun v => / sqrt (ex + dist2 (if image then mirror (point b1 (u * b_H b1)) else point b1 (u * b_H b1)) (point b2 v)))
    0 (b_H b2).

(** Boreholes further apart than the radius of both, or of the same radius. *)
Definition same_excess (b1 b2 : bh) : Prop := wall_excess b1 b2 = wall_excess b2 b1.

(** A vertical borehole. *)
Definition upright (b : bh) : Prop := b_tilt b = 0.

(** The horizontal distance, at least the radius of the emitting borehole. *)
Definition bh_distance (b1 b2 : bh) : R :=
  Rmax (b_r b1) (sqrt ((b_x b1 - b_x b2) ^ 2 + (b_y b1 - b_y b2) ^ 2)).

(** The part of a borehole that starts at the distance [fst c] of its head and has the
    length [snd c]. *)
Definition part (b : bh) (c : R * R) : bh :=
  mkbh (snd c) (b_D b + fst c * cos (b_tilt b)) (b_r b)
    (b_x b + fst c * sin (b_tilt b) * cos (b_ori b)) (b_y b + fst c * sin (b_tilt b) * sin (b_ori b))
    (b_tilt b) (b_ori b).

(** The temperature rise at the square of the distance [rho2] and the time [t] after a
    unit of heat is released at a point, times the heat capacity of the ground. *)
Definition heat_kernel (alpha t rho2 : R) : R := exp (- rho2 / (4 * alpha * t)) / sqrt (4 * PI * alpha * t) ^ 3.

(** The same released along a vertical borehole (minus its image), over another one. *)
Definition heat_line (rea img : bool) (alpha t dis H1 D1 H2 D2 : R) : R :=
  RInt (fun z => RInt (fun z' =>
    (if rea then heat_kernel alpha t (dis ^ 2 + (z - z') ^ 2) else 0)
    - (if img then heat_kernel alpha t (dis ^ 2 + (z + z') ^ 2) else 0)) D1 (D1 + H1)) D2 (D2 + H2).

(** The same released at a node of a borehole of any inclination. *)
Definition heat_seen (b1 b2 : bh) (ex : R) (image : bool) (alpha t u : R) : R :=
  RInt (fun v => heat_kernel alpha t (ex + dist2 (if image then mirror (point b1 (u * b_H b1)) else point b1 (u * b_H b1)) (point b2 v)))
    0 (b_H b2).
