(** Specification of the segments and of the response matrix: C48, C49, C80. *)
From Verif Require Import Base FLS_Model.
From Verif Require Import Bore_Model Solve_Model Detailed_Model.

(** The first segment of borehole b. *)
Definition first (ns : list nat) (b : nat) : nat := list_sum (firstn b ns).

(** Segment k belongs to borehole b. *)
Definition owns (ns : list nat) (b k : nat) : Prop := (first ns b <= k < first ns b + nth b ns O)%nat.

(** One number of segments and one list of ratios per borehole. *)
Definition segmented (bs : list bore) (ns : list nat) (rs : list (list R)) : Prop :=
  length ns = length bs /\ length rs = length bs /\
  forall b, (b < length bs)%nat -> length (nth b rs []) = nth b ns O.

Definition no_bore : bore := Bore 0 0 0 0 0 0 0.

(** Vertical boreholes of positive length, depth and radius, at least the radius of
    each of them apart. *)
Definition vertical_field (bs : list bore) : Prop :=
  (forall b, In b bs -> btilt b = 0 /\ 0 < bH b /\ 0 <= bD b /\ 0 < br b) /\
  (forall a b, (a < length bs)%nat -> (b < length bs)%nat -> a <> b ->
     br (nth a bs no_bore) <= planar (nth a bs no_bore) (nth b bs no_bore)).

(** Ratios that are positive and add up to one. *)
Definition good_ratios (rs : list (list R)) : Prop := forall r, In r rs -> Rsum r = 1 /\ forall x, In x r -> 0 < x.

(** The response of a borehole to another one, or to itself at its wall. *)
Definition response (alpha t : R) (e r : bore) : R :=
  fls t alpha (Rmax (planar e r) (br e)) (bH e) (bD e) (bH r) (bD r) true true.

(** The mean over the field of the sum of the responses. *)
Definition field_mean (alpha t : R) (bs : list bore) : R :=
  Rsum (map (fun r => bH r * Rsum (map (fun e => response alpha t e r) bs)) bs) / Rsum (map bH bs).
