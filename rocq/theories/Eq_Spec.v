(** Specification of the solver of equivalent boreholes: C54, C55, C81, C82. *)
From Coq Require Import Permutation.
From Verif Require Import Base LinAlg FLS_Model.
From Verif Require Import Bore_Model Solve_Model Detailed_Model Detailed_Spec Sim_Model Sim_Spec Eq_Model.

(** Labels 0 .. k-1 of [size] elements, all of them used. *)
Definition labelled (k size : nat) (l : list nat) : Prop :=
  length l = size /\ (forall x, In x l -> (x < k)%nat) /\ (forall j, (j < k)%nat -> In j l).

(** What is expected of the hierarchical clustering of scipy: one link less than
    elements, at heights that are differences of the data; a number of clusters or a
    height gives labels. *)
Definition agglomerative (link : list R -> tree) : Prop := forall data, (1 < length data)%nat ->
  length (t_dcoord (link data)) = (length data - 1)%nat /\
  (forall d, In d (t_dcoord (link data)) -> exists x y, In x data /\ In y data /\ y1 d = Rabs (x - y)) /\
  (forall h, exists k, (0 < k)%nat /\ labelled k (length data) (t_height (link data) h)) /\
  (forall k, (0 < k <= length data)%nat -> labelled k (length data) (t_number (link data) k)).

Definition same_dims (a b : bore) : Prop := bH a = bH b /\ bD a = bD b /\ br a = br b.
Local Notation no_eb := (EBore 0 0 0 [] [] 0 []).

(** The equivalent boreholes [E] gather the boreholes with the labels [labels]. *)
Definition gathers (bs : list bore) (labels : list nat) (E : list ebore) : Prop :=
  length labels = length bs /\ (forall k, (k < length bs)%nat -> (nth k labels O < length E)%nat) /\
  forall i, (i < length E)%nat ->
    let ks := filter (fun k => Nat.eqb (nth k labels O) i) (seq 0 (length bs)) in
    ks <> [] /\ ex (nth i E no_eb) = map (fun k => bx (nth k bs no_bore)) ks /\ ey (nth i E no_eb) = map (fun k => by_ (nth k bs no_bore)) ks /\
    eori (nth i E no_eb) = map (fun k => bori (nth k bs no_bore)) ks /\
    let b := nth (hd O ks) bs no_bore in
    eH (nth i E no_eb) = bH b /\ eD (nth i E no_eb) = bD b /\ er (nth i E no_eb) = br b /\ etilt (nth i E no_eb) = btilt b.

(** Dimensions that are close are equal, and the boreholes of the same dimensions follow
    each other. *)
Definition dims_apart (tol : R) (bs : list bore) : Prop := forall a b, In a bs -> In b bs ->
  Rabs (bH a - bH b) < tol * bH a -> Rabs (br a - br b) < tol * br a -> Rabs (bD a - bD b) < tol * (bD a + / 10 ^ 30) -> same_dims a b.
Definition in_blocks (bs : list bore) : Prop := forall a b c, (a < b)%nat -> (b < c)%nat -> (c < length bs)%nat ->
  same_dims (nth a bs no_bore) (nth c bs no_bore) -> same_dims (nth a bs no_bore) (nth b bs no_bore).

(** Total length of the field. *)
Definition total_length (bs : list bore) : R := Rsum (map bH bs).
Definition equivalent_length (E : list ebore) : R := Rsum (map (fun e => eH e * INR (length (ex e))) E).

(** [w] counts the distances of [l] by the closest of [dis]. *)
Definition counts (dis l : list R) (w : list nat) : Prop := exists a : list nat,
  length a = length l /\
  (forall q, (q < length l)%nat -> (nth q a O < length dis)%nat /\
     forall k, (k < length dis)%nat -> Rabs (nth q l 0 - nth (nth q a O) dis 0) <= Rabs (nth q l 0 - nth k dis 0)) /\
  length w = length dis /\ forall k, (k < length dis)%nat -> nth k w O = count_occ Nat.eq_dec a k.

(** Distances between the boreholes of two equivalent boreholes, each pair of different
    boreholes once. *)
Definition distances_between (E : list ebore) (i j : nat) : list R :=
  let e := nth i E no_eb in let t := nth j E no_eb in
  concat (map (fun b => map (fun a => Rmax (sqrt ((nth b (ex t) 0 - nth a (ex e) 0) ^ 2 + (nth b (ey t) 0 - nth a (ey e) 0) ^ 2)) (er e))
    (filter (fun a => negb (Nat.eqb i j && Nat.eqb a b)) (seq 0 (length (ex e))))) (seq 0 (length (ex t)))).

(** The boreholes with label [i]. *)
Definition owners (labels : list nat) (nB i : nat) : list nat := filter (fun k => Nat.eqb (nth k labels O) i) (seq 0 nB).

(** Mean over the boreholes labelled [j] of the sum over the boreholes labelled [i]. *)
Definition block_mean (labels : list nat) (nB i j : nat) (f : nat -> nat -> R) : R :=
  Rsum (map (fun y => Rsum (map (fun x => f x y) (owners labels nB i))) (owners labels nB j)) / INR (length (owners labels nB j)).

(** Boreholes of the field are further apart than the radius of the first of them. *)
Definition spaced (tol : R) (bs : list bore) : Prop := forall a b, (a < length bs)%nat -> (b < length bs)%nat -> a <> b ->
  (1 + tol) * br (nth 0 bs no_bore) <= planar (nth a bs no_bore) (nth b bs no_bore).

(** Boreholes with the same label see the boreholes of every label at the same distances. *)
Definition equitable (labels : list nat) (bs : list bore) : Prop := forall y y', (y < length bs)%nat -> (y' < length bs)%nat -> nth y labels O = nth y' labels O ->
  forall i, Permutation (map (fun x => planar (nth x bs no_bore) (nth y bs no_bore)) (owners labels (length bs) i))
                        (map (fun x => planar (nth x bs no_bore) (nth y' bs no_bore)) (owners labels (length bs) i)).

(** The fields for which the equivalent boreholes are exact: vertical boreholes, those of
    the same dimensions next to each other in the list, with the same [n] segments;
    dimensions that are not equal are further apart than the tolerances. *)
Definition regular_field (tol disTol u M : R) (bs : list bore) (n : nat) (r : list R) : Prop :=
  (0 < length bs)%nat /\ vertical_field bs /\ length r = n /\ good_ratios [r] /\
  on_grid tol u M bs (repeat n (length bs)) (repeat r (length bs)) /\ radii_apart tol bs /\ level bs /\ in_blocks bs /\
  0 < disTol /\ spaced disTol bs.

(** Response factors as the solution of the g-function equations takes them. *)
Definition factors (h : R -> option Mx) : list R -> nat -> nat -> nat -> R :=
  fun tl i j p => match h (nth p tl 0) with Some m => m i j | None => 0 end.
