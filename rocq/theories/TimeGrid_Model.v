(** Model of the time grids and segment ratios of pygfunction/utilities.py.
    Floats are reals; integer divisions of counters are exact. *)
From Verif Require Import Base.

(** ceil(i / n) for counters, n >= 1. *)
Definition nceil (i n : nat) : nat := ((i + n - 1) / n)%nat.

(** utilities.py 251-265, [time_ClaessonJaved]: the while loop from time [t] and
    cell count [i]; [None] when the fuel does not suffice. *)
Fixpoint cjt_loop (fuel : nat) (dt tmax : R) (cpl : nat) (t : R) (i : nat) : option (list R) :=
  if Rltb t tmax then
    match fuel with
    | O => None
    | S f =>
        let i' := S i in
        let width := 2 ^ (nceil i' cpl - 1) in
        let t' := t + width * dt in
        match cjt_loop f dt tmax cpl t' i' with
        | Some r => Some (t' :: r)
        | None => None
        end
    end
  else Some [].
Definition time_ClaessonJaved (fuel : nat) (dt tmax : R) (cpl : nat) : option (list R) :=
  cjt_loop fuel dt tmax cpl 0 0.

(** utilities.py 303-317, [time_MarcottePasquier]. *)
Fixpoint mpt_loop (fuel : nat) (dt tmax : R) (nec : nat) (t : R) (i : nat) (width : R) : option (list R) :=
  if Rltb t tmax then
    match fuel with
    | O => None
    | S f =>
        let i' := S i in
        let width' := if (nec <? i')%nat then 2 * width else width in
        let t' := t + width' * dt in
        match mpt_loop f dt tmax nec t' i' width' with
        | Some r => Some (t' :: r)
        | None => None
        end
    end
  else Some [].
Definition time_MarcottePasquier (fuel : nat) (dt tmax : R) (nec : nat) : option (list R) :=
  mpt_loop fuel dt tmax nec 0 0 1.

(** utilities.py 348-352: the loop for the expansion rate. The first test
    compares the initial 1.0e99. The power of base [x] and exponent [1/Nt] is
    [Rpower]. *)
Definition geo_next (T : R) (Nt : nat) (r : R) : R := Rpower (1 + T * (r - 1)) (1 / INR Nt).
Fixpoint geo_loop (fuel : nat) (T : R) (Nt : nat) (dr r : R) : option R :=
  if Rltb (/ 10 ^ 10) (Rabs dr) then
    match fuel with
    | O => None
    | S f => let dr' := geo_next T Nt r - r in geo_loop f T Nt dr' (r + dr')
    end
  else Some r.

(** utilities.py 345-358, [time_geometric]. [time[-1] = tmax] fails on an empty
    array, but then [tmax > Nt*dt] with [Nt = 0] divides by zero first. *)
Definition time_geometric (fuel : nat) (dt tmax : R) (Nt : nat) : option (list R) :=
  if Rltb (INR Nt * dt) tmax then
    if (Nt =? 0)%nat then None else
    match geo_loop fuel (tmax / dt) Nt (10 ^ 99) 2 with
    | None => None
    | Some r => Some (upd (map (fun j => dt * (1 - r ^ (j + 1)) / (1 - r)) (seq 0 Nt)) (Nt - 1) tmax)
    end
  else Some (map (fun j => dt * INR (j + 1)) (seq 0 Nt)).

(** utilities.py 158-176 and 186-206: one candidate root [x]. *)
Definition sr_even (nz : nat) (e x : R) : list R :=
  let dz := map (fun i => x ^ i * e) (seq 0 nz) in dz ++ rev dz.
Definition sr_odd (nz : nat) (e x : R) : list R :=
  let dz := map (fun i => x ^ i * e) (seq 0 nz) in dz ++ [x ^ nz * e] ++ rev dz.
Definition sr_accept (l : list R) : bool :=
  Rltb (Rabs (1 - Rsum l)) (/ 10 ^ 6) && forallb (fun x => Rltb 0 x) l.
Fixpoint sr_first (mk : R -> list R) (roots : list R) : option (list R) :=
  match roots with
  | [] => None
  | x :: r => if sr_accept (mk x) then Some (mk x) else sr_first mk r
  end.

(** utilities.py 153-157 and 182-186: the polynomial whose roots are tried. *)
Definition sr_poly_even (nz : nat) (e x : R) : R := (1 - 2 * e) - x + 2 * e * x ^ nz.
Definition sr_poly_odd (nz : nat) (e x : R) : R := (1 - 2 * e) - x + e * x ^ nz + e * x ^ (nz + 1).

(** What an exact root finder reports: the real roots, in any order. *)
Definition sr_exact_roots (n : nat) (e : R) (l : list R) : Prop :=
  forall x, In x l <->
    (if Nat.even n then sr_poly_even (n / 2) e x else sr_poly_odd ((n - 1) / 2) e x) = 0.

(** utilities.py 76-215, [segment_ratios]. [roots n e] is the list of real roots
    reported by numpy for the polynomial, in numpy's order.  [None] is an
    AssertionError or RuntimeError; warnings are not modelled. *)
Definition segment_ratios (roots : nat -> R -> list R) (n : nat) (e : R) : option (list R) :=
  if (n =? 0)%nat then None else
  if negb ((n <=? 2)%nat || (Rltb 0 e && Rltb e (1/2))) then None else
  if (n =? 1)%nat then Some [1] else
  if (n =? 2)%nat then Some [1/2; 1/2] else
  if (n =? 3)%nat then Some [e; 1 - 2 * e; e] else
  if Rltb (Rabs (1 - INR n * e)) (/ 10 ^ 6) then Some (repeat (1 / INR n) n) else
  if Nat.even n then sr_first (sr_even (n / 2) e) (roots n e)
  else sr_first (sr_odd ((n - 1) / 2) e) (roots n e).
