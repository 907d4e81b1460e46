(** Specification of bore fields: containers and layouts. *)
From Verif Require Import Base Bore_Model Bore_Spec Field_Model.

(** A well-formed field: attributes of one length, vertical boreholes have
    orientation zero. *)
Definition field_ok (f : field) : Prop :=
  let n := length (fx f) in
  length (fH f) = n /\ length (fD f) = n /\ length (fr f) = n /\ length (fy f) = n
  /\ length (ft f) = n /\ length (fo f) = n
  /\ forall k, (k < n)%nat -> tilted (nth k (ft f) 0) = false -> nth k (fo f) 0 = 0.

Definition operand_ok (o : operand) : Prop :=
  match o with
  | OBore b => bore_ok b
  | OList l => forall b, In b l -> bore_ok b
  | OField f => field_ok f
  end.

(** Python indexing of a list, with negative indices. *)
Definition py_index {A} (l : list A) (i : Z) : option A :=
  if (i <? 0)%Z then (if (0 <=? i + Z.of_nat (length l))%Z then nth_error l (Z.to_nat (i + Z.of_nat (length l))) else None)
  else nth_error l (Z.to_nat i).

(** What every builder promises about one borehole, apart from its position:
    the dimensions, and a lean away from the origin unless it stands there. *)
Definition as_specified (H D r tilt : R) (o : R * R) (b : bore) : Prop :=
  bH b = H /\ bD b = D /\ br b = r /\
  let u := bx b - fst o in let v := by_ b - snd o in
  let d := sqrt (u ^ 2 + v ^ 2) in
  (d < r -> btilt b = 0 /\ bori b = 0)
  /\ (r <= d -> btilt b = tilt
        /\ (tilted tilt = false -> bori b = 0)
        /\ (tilted tilt = true -> d * cos (bori b) = u /\ d * sin (bori b) = v /\ - PI < bori b <= PI)).

Definition position (b : bore) : R * R := (bx b, by_ b).

(** The boreholes stand at the points [embed i j], one for each (i, j) of P. *)
Definition layout (embed : nat -> nat -> R * R) (P : nat -> nat -> Prop) (l : list bore) : Prop :=
  exists pts, map position l = map (fun p => embed (fst p) (snd p)) pts /\ NoDup pts
    /\ forall i j, In (i, j) pts <-> P i j.

Definition lattice (B1 B2 : R) (i j : nat) : R * R := (INR i * B1, INR j * B2).
Definition half_shifted (B1 B2 : R) (i j : nat) : R * R :=
  (INR i * B1 + (if Nat.odd j then B1 / 2 else 0), INR j * B2).

(** Distinct boreholes are at least d apart. *)
Definition spaced (d : R) (l : list bore) : Prop :=
  forall a b, (a < length l)%nat -> (b < length l)%nat -> a <> b -> d <= plane_dist (nth a l b0) (nth b l b0).

(** Every borehole has a neighbour at distance d. *)
Definition neighbour_at (d : R) (l : list bore) : Prop :=
  forall a, (a < length l)%nat -> exists b, (b < length l)%nat /\ b <> a /\ plane_dist (nth a l b0) (nth b l b0) = d.

(** The point (x0, y0) is the centre of the rectangle around the boreholes. *)
Definition centred (o : R * R) (l : list bore) : Prop :=
  exists x1 x2 y1 y2, fst o = (x1 + x2) / 2 /\ snd o = (y1 + y2) / 2
    /\ (forall b, In b l -> x1 <= bx b <= x2 /\ y1 <= by_ b <= y2)
    /\ (exists b, In b l /\ bx b = x1) /\ (exists b, In b l /\ bx b = x2)
    /\ (exists b, In b l /\ by_ b = y1) /\ (exists b, In b l /\ by_ b = y2).

(** Number of boreholes of a staggered field of more than one row and column. *)
Definition staggered_count (N1 N2 : nat) (last : bool) : nat := if last then N1 * N2 else N1 * N2 - N2 / 2.

(** The promises of a builder. *)
Definition built (emb : nat -> nat -> R * R) (P : nat -> nat -> Prop) (n : nat) (H D r tilt : R) (o : R * R) (res : option field) : Prop :=
  exists f, res = Some f /\ field_ok f /\ length (to_boreholes f) = n
    /\ layout emb P (to_boreholes f) /\ forall b, In b (to_boreholes f) -> as_specified H D r tilt o b.

(** Lattice points of a staggered field: shifted rows may lack the last one. *)
Definition stag_in (N1 N2 : nat) (last : bool) (i j : nat) : Prop :=
  (i < N1 /\ j < N2)%nat /\ (last = true \/ Nat.odd j = false \/ (S i < N1)%nat).

(** The point q is not exactly at distance r of the origin. *)
Definition off_circle (r : R) (o : R * R) (q : R * R) : Prop := sqrt ((fst q - fst o) ^ 2 + (snd q - snd o) ^ 2) <> r.

(** Closeness of numpy.allclose, relative to the second argument. *)
Definition within (a b : R) : Prop := Rabs (a - b) <= / 10 ^ 8 + / 10 ^ 5 * Rabs b.
Definition close_bores (a b : bore) : Prop :=
  within (bH a) (bH b) /\ within (bD a) (bD b) /\ within (br a) (br b) /\ within (bx a) (bx b) /\ within (by_ a) (by_ b)
  /\ within (btilt a) (btilt b) /\ within (bori a) (bori b).

(** Common dimensions. *)
Definition dims (H D r : R) (l : list bore) : Prop := forall b, In b l -> bH b = H /\ bD b = D /\ br b = r.

Definition is_list (o : operand) : bool := match o with OList _ => true | _ => false end.

(** Broadcasting: a scalar or a one-element array stands for every borehole. *)
Definition size (a : arr) : nat := match a with Sc _ => 1 | Ar l => length l end.
Definition fits (n : nat) (a : arr) : Prop := match a with Sc _ => True | Ar l => length l = n \/ length l = 1%nat end.
Definition value (a : arr) (k : nat) : R :=
  match a with Sc r => r | Ar l => if (length l =? 1)%nat then nth 0 l 0 else nth k l 0 end.
