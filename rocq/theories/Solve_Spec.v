(** Specification of the solution of the g-function equations: C44 - C47, C78 - C80. *)
From Verif Require Import Base LinAlg Solve_Model.

(** The times of a grid, from time zero on. *)
Definition at_time (time : list R) (k : nat) : R := nth k (0 :: time) 0.

(** A non-empty strictly increasing grid of positive times. *)
Definition grid (time : list R) : Prop :=
  time <> [] /\ forall k, (k < length time)%nat -> at_time time k < at_time time (S k).

Definition end_time (time : list R) : R := at_time time (length time).

(** Length of the intersection of [a, b] and [c, d]. *)
Definition overlap (a b c d : R) : R := Rmax 0 (Rmin b d - Rmax a c).

(** Heat extracted between the times a and b by a load that is constant over each step. *)
Definition heat_between (time Q : list R) (a b : R) : R :=
  sumn (length time) (fun k => nth k Q 0 * overlap (at_time time k) (at_time time (S k)) a b).

(** The grid with its steps in reverse order: the k-th time. *)
Definition reversed_time (time : list R) (k : nat) : R := end_time time - at_time time (length time - k).

(** All the steps have the length d. *)
Definition equal_steps (time : list R) (d : R) : Prop := forall k, (k < length time)%nat -> at_time time (S k) - at_time time k = d.

(** The times that are solved for: the threshold instead of all the times that are not
    above it. *)
Definition kept (time : list R) (thr : R) : list R :=
  if existsb (fun t => Rleb t thr) time then thr :: filter (fun t => Rltb thr t) time else time.

Definition sorted (time : list R) : Prop := forall i j, (i <= j)%nat -> (j < length time)%nat -> nth i time 0 <= nth j time 0.

(** Values [g] at the times [time] that grow linearly up to the threshold and are the
    values [g'] at the times [kept] above. *)
Definition linear_then (time : list R) (thr : R) (g g' : nat -> R) : Prop :=
  forall k, (k < length time)%nat ->
    (nth k time 0 <= thr -> g k = nth k time 0 / thr * g' O) /\
    (thr < nth k time 0 -> exists j, (j < length (kept time thr))%nat /\ nth j (kept time thr) 0 = nth k time 0 /\ g k = g' j).

(** Mean of a load over the k-th step of the reversed grid. *)
Definition mean_load (time Q : list R) (k : nat) : R :=
  heat_between time Q (reversed_time time k) (reversed_time time (S k)) / (reversed_time time (S k) - reversed_time time k).

(** A value at time t of the piecewise linear function through the values of f at the
    times of the grid, and 0 at time zero. *)
Definition interpolated (tl : list R) (f : R -> R) (t v : R) : Prop :=
  exists k, (k < length tl)%nat /\ at_time tl k <= t <= at_time tl (S k) /\
    let f0 := match k with O => 0 | S _ => f (at_time tl k) end in
    v = f0 + (f (at_time tl (S k)) - f0) * ((t - at_time tl k) / (at_time tl (S k) - at_time tl k)).

(** T is the temperature of source i at the p-th time of the grid [tl] for the loads [Q]
    of the [n] sources, with the responses [resp i j t] of source i to source j: effect
    of the loads of this step plus that of the mean loads of the preceding steps. *)
Definition superposed (n : nat) (resp : nat -> nat -> R -> R) (tl : list R) (Q : list (nat -> R)) (p i : nat) (T : R) : Prop :=
  let tp := firstn (S p) tl in
  let past j := map (fun v => v j) (firstn p Q) ++ [0] in
  exists now : nat -> R,
    (forall j, (j < n)%nat -> interpolated tl (resp i j) (at_time tl (S p) - at_time tl p) (now j)) /\
    T = sumn n (fun j => now j * nth p Q (fun _ => 0) j)
        + sumn n (fun j => sumn (S p) (fun k =>
            (mean_load tp (past j) k - match k with O => 0 | S l => mean_load tp (past j) l end)
            * resp i j (at_time tl (S p) - reversed_time tp k))).

(** Superposition in time of the responses to the load increments (Duhamel). *)
Definition duhamel (n : nat) (resp : nat -> nat -> R -> R) (tl : list R) (Q : list (nat -> R)) (p i : nat) : R :=
  sumn n (fun j => sumn (S p) (fun k =>
    (nth k Q (fun _ => 0) j - match k with O => 0 | S l => nth l Q (fun _ => 0) j end)
    * resp i j (at_time tl (S p) - at_time tl k))).

(** The responses of the Detailed solver: a function of time evaluated on the grid. *)
Definition on_grid (resp : nat -> nat -> R -> R) : list R -> nat -> nat -> nat -> R := fun tl i j k => resp i j (nth k tl 0).

Definition positive (time : list R) : Prop := forall t, In t time -> 0 < t.

Definition flow0 : flow := mkflow (fun _ => 0) (fun _ _ => 0) 0 (fun _ => 0) 0 0.

(** The heat extracted by any loads x that are not all zero comes with a temperature drop:
    the quadratic form of the length weighted matrix is positive. *)
Definition definite (n : nat) (H : nat -> R) (M : nat -> nat -> R) : Prop :=
  forall x, (exists i, (i < n)%nat /\ x i <> 0) -> 0 < sumn n (fun i => H i * x i * sumn n (fun j => M i j * x j)).

(** The value of a mass flow rate: the heat of the field takes the fluid from the inlet
    to the outlet temperature, and the effective wall temperature is the mean of the two
    less the drop over the effective resistance of the field. *)
Definition effective_temperature (n : nat) (H : vec) (k_s : R) (F : flow) (T_in g : R) : Prop :=
  exists T_out, f_mcp F * (T_in - T_out) = 2 * PI * k_s * sumn n H /\ g = (T_in + T_out) / 2 - 2 * PI * k_s * f_R F.
