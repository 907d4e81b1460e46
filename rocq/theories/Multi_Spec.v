(** Specification of boreholes with several U-tubes. *)
From Verif Require Import Base LinAlg Bore_Model Net_Model Multi_Model.
From Coquelicot Require Import Coquelicot.
Local Open Scope R_scope.

(** ** The circuit of resistances *)

Definition conductance (u : multi) (p q : nat) : R := 1 / x_Rd u p q.

(** Heat received by pipe p, per unit length, from the wall and from the other pipes *)
Definition gain (u : multi) (tb : R) (T : nat -> R) (p : nat) : R :=
  conductance u p p * (tb - T p) + sumn (2 * x_n u) (fun q => if Nat.eqb q p then 0 else conductance u p q * (T q - T p)).

(** Heat flows times temperature differences, for temperatures above the wall *)
Definition dissipation (u : multi) (x : nat -> R) : R :=
  sumn (2 * x_n u) (fun p => conductance u p p * x p ^ 2)
  + 1/2 * sumn (2 * x_n u) (fun p => sumn (2 * x_n u) (fun q => if Nat.eqb q p then 0 else conductance u p q * (x q - x p) ^ 2)).

(** A symmetric circuit without sources of energy *)
Definition passive_circuit (u : multi) : Prop :=
  (forall p q, (p < 2 * x_n u)%nat -> (q < 2 * x_n u)%nat -> x_Rd u p q <> 0 /\ x_Rd u p q = x_Rd u q p)
  /\ forall x, (exists p, (p < 2 * x_n u)%nat /\ x p <> 0) -> 0 < dissipation u x.

(** All resistances positive *)
Definition positive_circuit (u : multi) : Prop :=
  forall p q, (p < 2 * x_n u)%nat -> (q < 2 * x_n u)%nat -> 0 < x_Rd u p q /\ x_Rd u p q = x_Rd u q p.

(** ** Flows *)

Definition flow_at (u : multi) (m : list R) (i : nat) : R := match x_kind u with Separate => nth i m 0 | _ => nth 0 m 0 end.
Definition capacity_at (cp : list R) (i : nat) : R := match cp with c :: nil => c | _ => nth i cp 0 end.

(** Heat capacity rate in U-tube i *)
Definition tube_rate (u : multi) (m cp : list R) (i : nat) : R :=
  match x_kind u with
  | InParallel => Rabs (nth 0 m 0) / INR (x_n u) * nth 0 cp 0
  | InSeries => Rabs (nth 0 m 0) * nth 0 cp 0
  | Separate => Rabs (nth i m 0) * capacity_at cp i
  end.

(** A call with flows that do not vanish *)
Definition usable (u : multi) (m cp : list R) : Prop :=
  (0 < x_n u)%nat /\ length m = n_inlets u /\ (length cp = 1%nat \/ length cp = n_inlets u)
  /\ (forall i, (i < n_inlets u)%nat -> nth i m 0 <> 0 /\ 0 < capacity_at cp i).

(** Negative flows are those of a reversible borehole. *)
Definition reversals_meant (u : multi) (m : list R) : Prop :=
  x_reversible u = true \/ forall i, (i < n_inlets u)%nat -> 0 < nth i m 0.

(** The pipes of U-tube i where the fluid goes down and up *)
Definition down (u : multi) (m : list R) (i : nat) : nat := if Rltb (flow_at u m i) 0 then (i + x_n u)%nat else i.
Definition up (u : multi) (m : list R) (i : nat) : nat := if Rltb (flow_at u m i) 0 then i else (i + x_n u)%nat.

(** ** Temperature profiles *)

Definition depth_of (b : bore) (n : nat) (r : option (list R)) (k : nat) : R :=
  bH b * Rsum (firstn k (match r with Some l => l | None => repeat (1 / INR n) n end)).

(** Energy balances of the fluid in the legs of the U-tubes, at a wall temperature tb *)
Definition balance (u : multi) (m cp : list R) (tb : R) (T : nat -> R -> R) (z : R) : Prop :=
  forall i, (i < x_n u)%nat -> exists d e,
    is_derive (T (down u m i)) z d /\ is_derive (T (up u m i)) z e
    /\ tube_rate u m cp i * d = gain u tb (fun p => T p z) (down u m i)
    /\ - tube_rate u m cp i * e = gain u tb (fun p => T p z) (up u m i).

(** Temperature of the fluid that enters U-tube i, given the temperatures [x] of the
    fluid that leaves the U-tubes.  In series, a reversed flow goes from the last U-tube
    to the first one. *)
Definition entering (u : multi) (m : list R) (Tin x : nat -> R) (i : nat) : R :=
  match x_kind u with
  | InParallel => Tin 0%nat
  | InSeries => if Rltb (nth 0 m 0) 0 then (if Nat.eqb i (x_n u - 1) then Tin 0%nat else x (i + 1)%nat)
              else (match i with O => Tin 0%nat | S j => x j end)
  | Separate => Tin i
  end.

(** Temperatures at the outlets *)
Definition leaving (u : multi) (m : list R) (x : nat -> R) (o : nat) : R :=
  match x_kind u with
  | InParallel => sumn (x_n u) x / INR (x_n u)
  | InSeries => if Rltb (nth 0 m 0) 0 then x 0%nat else x (x_n u - 1)%nat
  | Separate => x o
  end.

(** [T] are the fluid temperatures in the pipes for the inlet temperatures Tin and the
    temperatures Tb of the k segments of the wall. *)
Definition fluid_profile (u : multi) (m cp : list R) (k : nat) (r : option (list R)) (Tin Tb : nat -> R) (T : nat -> R -> R) : Prop :=
  (forall l z, (l < k)%nat -> depth_of (x_b u) k r l < z < depth_of (x_b u) k r (S l) -> balance u m cp (Tb l) T z)
  /\ (forall p z, (p < 2 * x_n u)%nat -> 0 <= z <= bH (x_b u) -> continuous (T p) z)
  /\ (forall i, (i < x_n u)%nat -> T (down u m i) 0 = entering u m Tin (fun j => T (up u m j) 0) i)
  /\ (forall i, (i < x_n u)%nat -> T (down u m i) (bH (x_b u)) = T (up u m i) (bH (x_b u))).

Definition segment_shares (k : nat) (r : option (list R)) : Prop :=
  match r with
  | None => (0 < k)%nat
  | Some l => length l = k /\ (forall x, In x l -> 0 <= x) /\ Rsum l = 1
  end.

(** ** Eigenvalues and eigenvectors *)

(** A V = V L and V W = W V = 1 *)
Definition decomposes (N : nat) (A : Mx) (s : spectrum) : Prop :=
  (forall i k, (i < N)%nat -> (k < N)%nat -> csum N (fun j => Cmult (RtoC (A i j)) (s_V s j k)) = Cmult (s_V s i k) (s_L s k))
  /\ (forall i j, (i < N)%nat -> (j < N)%nat -> csum N (fun k => Cmult (s_V s i k) (s_W s k j)) = RtoC (id_mx i j))
  /\ (forall i j, (i < N)%nat -> (j < N)%nat -> csum N (fun k => Cmult (s_W s i k) (s_V s k j)) = RtoC (id_mx i j)).

(** What is required of numpy.linalg.eig for a call *)
Definition eig_ok (eig : nat -> Mx -> option spectrum) (u : multi) (m cp : list R) : Prop :=
  forall g, format u m cp = Some g -> exists s, eig (2 * x_n u)%nat (system_mx u g) = Some s /\ decomposes (2 * x_n u) (system_mx u g) s.

(** Total heat capacity rate times temperature rise *)
Definition carried (u : multi) (m cp : list R) (Tin out : nat -> R) : R :=
  sumn (n_inlets u) (fun i => Rabs (nth i m 0) * capacity_at cp i * (out i - Tin i)).

(** ** Other boreholes *)

(** The same borehole with every U-tube on its own circuit *)
Definition separated (u : multi) : multi := mkmulti (x_Rd u) (x_b u) (x_reversible u) (x_n u) Separate.

(** The same borehole with the pipes numbered from the other end: inlet legs become
    outlet legs, the last U-tube becomes the first. *)
Definition opposite (n p : nat) : nat := (2 * n - 1 - p)%nat.
Definition turned (u : multi) : multi :=
  mkmulti (fun p q => x_Rd u (opposite (x_n u) p) (opposite (x_n u) q)) (x_b u) (x_reversible u) (x_n u) (x_kind u).

(** The same borehole with another value of reversible_flow *)
Definition flagged (b : bool) (u : multi) : multi := mkmulti (x_Rd u) (x_b u) b (x_n u) (x_kind u).

(** ** Networks *)

(** The heat that a borehole takes from its wall is paid for: weighted with the
    temperatures above t, it is at least the energy that the fluid gains. *)
Definition pipe_passive (p : pipe) (m cp : R) (k : nat) (r : option (list R)) : Prop :=
  forall t tin Tb,
    let out := fst (p_out p m cp k r) * tin + sumn k (fun l => snd (p_out p m cp k r) l * Tb l) in
    1/2 * (Rabs m * cp) * ((out - t) ^ 2 - (tin - t) ^ 2)
    <= sumn k (fun l => (Tb l - t) * (fst (p_qb p m cp k r) l * tin + sumn k (fun j => snd (p_qb p m cp k r) l j * Tb j))).
