(* Specification of thermal circuits and cross-sections. *)
From Coq Require Import Reals List Bool ZArith.
From Verif Require Import Base LinAlg Bore_Model Net_Model Pipe_Model Res_Model.
From Coquelicot Require Import Coquelicot.
Import ListNotations.
Local Open Scope R_scope.

Definition conductance (r : xres) : R := match r with Res r => 1 / r | Infinite => 0 end.

(* The heat flows q (W/m) of the pipes give their temperatures T above the wall
   temperature Tb through the resistances Rm. *)
Definition flows_of (n : nat) (Rm : Mx) (T : nat -> R) (Tb : R) (q : nat -> R) : Prop :=
  forall i, (i < n)%nat -> sumn n (fun j => Rm i j * q j) = T i - Tb.

(* Heat flow of pipe i in a circuit of resistances between the pipes and the
   wall and between the pipes *)
Definition circuit_flow (n : nat) (Rd : nat -> nat -> xres) (T : nat -> R) (Tb : R) (i : nat) : R :=
  conductance (Rd i i) * (T i - Tb)
  + sumn n (fun j => if Nat.eqb i j then 0 else conductance (Rd i j) * (T i - T j)).

(* The pipes are at different places inside a circle of radius r_b. *)
Definition inside (a : rargs) : Prop :=
  0 < a_rb a /\ 0 < a_kg a
  /\ (forall i, (i < length (a_pos a))%nat -> p_x a i ^ 2 + p_y a i ^ 2 < a_rb a ^ 2)
  /\ (forall i j, (i < length (a_pos a))%nat -> (j < length (a_pos a))%nat -> i <> j ->
        (p_x a i, p_y a i) <> (p_x a j, p_y a j)).

(* All pipes turned by an angle about the axis, or all lengths scaled. *)
Definition turn (t : R) (p : R * R) : R * R := (cos t * fst p - sin t * snd p, sin t * fst p + cos t * snd p).
Definition turned (t : R) (a : rargs) : rargs :=
  mkrargs (map (turn t) (a_pos a)) (a_rout a) (a_rb a) (a_ks a) (a_kg a) (a_Rfp a) (a_J a).
Definition mirrored (a : rargs) : rargs :=
  mkrargs (map (fun p => (fst p, - snd p)) (a_pos a)) (a_rout a) (a_rb a) (a_ks a) (a_kg a) (a_Rfp a) (a_J a).
Definition scaled (c : R) (a : rargs) : rargs :=
  mkrargs (map (fun p => (c * fst p, c * snd p)) (a_pos a)) (map (Rmult c) (a_rout a)) (c * a_rb a)
          (a_ks a) (a_kg a) (a_Rfp a) (a_J a).

(* A U-tube borehole that can be built: disks of radius r_out at positions pos
   inside the disk of radius r_b, without overlap. *)
Definition disks_fit (pos : list (R * R)) (n : nat) (r_out r_b : R) : Prop :=
  (forall i, (i < n)%nat -> forall x y,
     (x - fst (nth i pos (0, 0))) ^ 2 + (y - snd (nth i pos (0, 0))) ^ 2 <= r_out ^ 2 -> x ^ 2 + y ^ 2 <= r_b ^ 2)
  /\ (forall i j, (i < n)%nat -> (j < n)%nat -> i <> j -> forall x y,
     ~ ((x - fst (nth i pos (0, 0))) ^ 2 + (y - snd (nth i pos (0, 0))) ^ 2 < r_out ^ 2
        /\ (x - fst (nth j pos (0, 0))) ^ 2 + (y - snd (nth j pos (0, 0))) ^ 2 < r_out ^ 2)).

(* Two sets of arguments of thermal_resistances are the same or are told apart by
   the comparison of the code: some number differs by more than 1e-5 of its value
   and by more than 1e-8. *)
Definition far (x y : R) : Prop := / 10 ^ 8 + / 10 ^ 5 * Rabs y < Rabs (x - y) /\ Rabs x * / 10 ^ 6 < Rabs (x - y).
Definition told_apart (a s : rargs) : Prop :=
  a = s
  \/ length (a_pos a) <> length (a_pos s) \/ length (a_rout a) <> length (a_rout s)
  \/ length (a_Rfp a) <> length (a_Rfp s) \/ a_J a <> a_J s
  \/ far (a_rb a) (a_rb s) \/ far (a_ks a) (a_ks s) \/ far (a_kg a) (a_kg s)
  \/ (exists i, (i < length (a_rout a))%nat /\ far (nth i (a_rout a) 0) (nth i (a_rout s) 0))
  \/ (exists i, (i < length (a_Rfp a))%nat /\ far (nth i (a_Rfp a) 0) (nth i (a_Rfp s) 0))
  \/ (exists i, (i < length (a_pos a))%nat /\ (far (p_x a i) (p_x s i) \/ far (p_y a i) (p_y s i))).

(* Pipes of a coaxial borehole: pipe i inside pipe o inside the borehole *)
Definition nested (pos : R * R) (r_in r_out : R * R) (r_b : R) (i o : nat) : Prop :=
  0 < pick r_in i < pick r_out i /\ pick r_out i < pick r_in o /\ pick r_in o < pick r_out o
  /\ sqrt (fst pos ^ 2 + snd pos ^ 2) + pick r_out o <= r_b.

(* A point outside all pipes *)
Definition outside_pipes (s : section) (z : C) : Prop :=
  forall n, (n < s_n s)%nat -> s_r s n < Cmod (Cminus z (s_z s n)).

(* Slopes to the left and to the right of a point *)
Definition left_slope (f : R -> R) (x l : R) : Prop :=
  forall eps, 0 < eps -> exists delta, 0 < delta /\
    forall h, - delta < h < 0 -> Rabs ((f (x + h) - f x) / h - l) < eps.
Definition right_slope (f : R -> R) (x l : R) : Prop :=
  forall eps, 0 < eps -> exists delta, 0 < delta /\
    forall h, 0 < h < delta -> Rabs ((f (x + h) - f x) / h - l) < eps.

(* All pipes are strictly inside the borehole. *)
Definition pipes_inside (s : section) : Prop :=
  0 < s_rb s /\ 0 < s_ks s /\ 0 < s_kg s
  /\ forall n, (n < s_n s)%nat -> 0 < s_r s n /\ Cmod (s_z s n) + s_r s n < s_rb s.
