(** The solver of equivalent boreholes: pygfunction/solvers/equivalent.py.

    Floats are reals.  The hierarchical clustering of scipy (linkage, dendrogram and
    cut_tree, lines 360-362, 378-379, 382-383) is a parameter: the coordinates of the
    dendrogram and the labels for a height or for a number of clusters.  The solver only
    takes vertical boreholes with the same segments (820-825): one number of segments and
    one list of ratios. *)
From Verif Require Import Base LinAlg FLS_Model.
From Verif Require Import Bore_Model Solve_Model Detailed_Model Sim_Model.

(** 449-474: _compare_boreholes *)
Definition eq_compare (tol : R) (b1 b2 : bore) : bool :=
  Rltb (Rabs ((bH b1 - bH b2) / bH b1)) tol && Rltb (Rabs ((br b1 - br b2) / br b1)) tol
  && Rltb (Rabs ((bD b1 - bD b2) / (bD b1 + tiny))) tol.

(** 637-665: _find_unique_boreholes, and the groups of 598-609 *)
Definition unique_boreholes (tol : R) (bs : list bore) : list (list nat) :=
  fold_left (fun gs i => add_group (fun m => if eq_compare tol (nth i bs (Bore 0 0 0 0 0 0 0)) (nth m bs (Bore 0 0 0 0 0 0 0)) then Some i else None) i gs)
    (seq 0 (length bs)) [].

(** 349: steady-state temperature change of every borehole.  heat_transfer.py 290-304: the
    distance is at least the radius of the emitting borehole. *)
Definition steady_data (bs : list bore) : list R :=
  map (fun r => Rsum (map (fun e => fls_steady (Rmax (planar r e) (br e)) (bH e) (bD e) (bH r) (bD r) true true) bs)) bs.

(** A dendrogram: the four ordinates of each link, labels of the members for a height and
    for a number of clusters. *)
Record tree := mktree { t_dcoord : list (R * R * R * R); t_height : R -> list nat; t_number : nat -> list nat }.

Definition y0 (d : R * R * R * R) : R := fst (fst (fst d)).
Definition y1 (d : R * R * R * R) : R := snd (fst (fst d)).
Definition y2 (d : R * R * R * R) : R := snd (fst d).
Definition y3 (d : R * R * R * R) : R := snd d.

(** numpy.max and the index of the first maximum *)
Definition maxR (l : list R) : R := match l with [] => 0 | x :: r => fold_left Rmax r x end.
Definition argmaxR (l : list R) : nat := argmax_bool (map (fun x => Rleb (maxR l) x) l).

(** 365-380: number of clusters of a group of [size] boreholes *)
Definition cut_height (t : tree) : R :=
  let dc := t_dcoord t in
  let left := map (fun d => y1 d - y0 d) dc in
  let right := map (fun d => y2 d - y3 d) dc in
  if Rleb (maxR right) (maxR left) then let d := nth (argmaxR left) dc (0, 0, 0, 0) in (1/2) * (y1 d + y0 d)
  else let d := nth (argmaxR right) dc (0, 0, 0, 0) in (1/2) * (y2 d + y3 d).
Definition max_clusters (t : tree) (maxTemp : R) (size : nat) : nat :=
  Nat.min (length (filter (fun d => Rltb (/ 10 ^ 6 * maxTemp) (y1 d)) (t_dcoord t)) + 1) size.
Definition n_clusters (kClusters : nat) (t : tree) (maxTemp : R) (size : nat) : nat :=
  Nat.min (list_max (t_height t (cut_height t)) + 1 + kClusters) (max_clusters t maxTemp size).

Section Groups.
  Variables (link : list R -> tree) (kClusters : nat) (tol : R).

  (** 355-389: labels of the members of the groups, one group after the other *)
  Definition cluster_step (data : list R) (s : list nat * nat) (group : list nat) : list nat * nat :=
    let (clusters, nEq) := s in
    if Nat.ltb 1 (length group) then
      let d := map (fun k => nth k data 0) group in
      let n := n_clusters kClusters (link d) (maxR d) (length group) in
      (clusters ++ map (fun label => (label + nEq)%nat) (t_number (link d) n), (nEq + n)%nat)
    else (clusters ++ [nEq], (nEq + 1)%nat).

  (** 347-392 *)
  Definition clusters (bs : list bore) : list nat * nat :=
    if Nat.ltb 1 (length bs) then fold_left (cluster_step (steady_data bs)) (unique_boreholes tol bs) ([], O)
    else (seq 0 (length bs), length bs).

  (** 394-398: the labels are taken in the order of the boreholes *)
  Definition members (bs : list bore) (labels : list nat) (i : nat) : list bore :=
    map fst (filter (fun c => Nat.eqb (snd c) i) (combine bs labels)).
  Fixpoint all_some {A} (l : list (option A)) : option (list A) :=
    match l with
    | [] => Some []
    | Some x :: r => option_map (cons x) (all_some r)
    | None :: _ => None
    end.
  Definition equivalent_boreholes (bs : list bore) : option (list ebore) :=
    let (labels, nEq) := clusters bs in
    all_some (map (fun i => eb_of_bores (members bs labels i)) (seq 0 nEq)).
End Groups.

(** 346, 404: distances of the whole field, without the smallest one *)
Definition field_distances (disTol : R) (bs : list bore) : option (list R) :=
  match eb_of_bores bs with
  | None => None
  | Some e => match unique_distance (length bs * length bs) disTol e e with
              | Some (ds, _) => Some (tl ds)
              | None => None
              end
  end.

(** 700-704: index of the distance for an actual distance; -1 is not an index *)
Definition closest (dis : list R) (x : R) : nat :=
  let k := searchsorted_left dis x in
  if Nat.eqb k (length dis) || Rltb (Rabs (x - nth (k - 1) dis 0)) (Rabs (x - nth (Nat.min k (length dis - 1)) dis 0))
  then (k - 1)%nat else k.

(** 699, 705: np.add.at(wDis_ij, iDis, 1) raises IndexError if there is no distance *)
Definition weights (dis : list R) (l : list R) : option (list nat) :=
  match dis, l with
  | [], _ :: _ => None
  | _, _ => Some (fold_left (fun w x => upd w (closest dis x) (S (nth (closest dis x) w O))) l (repeat O (length dis)))
  end.

Section Matrix.
  Variables (tol : R) (E : list ebore) (n : nat) (r : list R) (dis : list R).
  Local Notation nE := (length E).
  Local Notation e_ i := (nth i E (EBore 0 0 0 [] [] 0 [])).
  Definition count (e : ebore) : nat := length (ex e).

  (** the attributes that are compared *)
  Definition dims (e : ebore) : bore := Bore (eH e) (eD e) (er e) 0 0 0 0.
  Local Notation d_ i := (dims (e_ i)).

  (** 570-635: _find_axial_borehole_pairs; the comparisons of pairs (476-568) are those
      of the similarities solver. *)
  Definition eq_self_groups : list (list nat) :=
    if Nat.ltb 1 nE then unique_boreholes tol (map dims E) else [[O]].
  Definition eq_pair_similar (i j : nat) (mn : nat * nat) : option (nat * nat) :=
    let p := (d_ (fst mn), d_ (snd mn)) in
    if compare_vertical tol (d_ i, d_ j) p then Some (i, j)
    else if compare_vertical tol (d_ j, d_ i) p then Some (j, i)
    else None.
  Definition eq_index_pairs : list (nat * nat) := flat_map (fun i => map (fun j => (i, j)) (seq i (nE - i))) (seq 0 nE).
  Definition eq_pair_groups : list (list (nat * nat)) :=
    if Nat.ltb 1 nE then fold_left (fun gs ij => add_group (eq_pair_similar (fst ij) (snd ij)) ij gs) eq_index_pairs []
    else [[(O, O)]].

  (** 693-698: distances between two equivalent boreholes, or between the boreholes of
      one of them *)
  Definition pair_distances (i j : nat) : list R :=
    let D := eb_distance (e_ i) (e_ j) in
    if Nat.eqb i j then
      concat (map (fun c => map snd (filter (fun q => negb (Nat.eqb (fst q) (fst c))) (combine (seq 0 (length (snd c))) (snd c))))
        (combine (seq 0 (length D)) D))
    else concat D.

  (** 710-806: _map_axial_segment_pairs *)
  Definition eq_map_pairs (i j : nat) : list pair * list nat :=
    unique_pairs (compare_vertical tol)
      (list_prod (map dims (eb_segments (e_ i) n (Some r))) (map dims (eb_segments (e_ j) n (Some r)))) [].
  Definition eq_i_pair : list nat := flat_map (fun k => repeat k n) (seq 0 n).
  Definition eq_j_pair : list nat := concat (repeat (seq 0 n) n).

  (** 194, 197-200, 267-268 *)
  Definition place (i : nat) (l : list nat) : list nat := map (fun k => (nth i (i0_segments nE (repeat n nE)) 0 + k)%nat) l.

  (** 424-447: segment_lengths *)
  Definition eq_lengths : vec := fun k =>
    nth k (flat_map (fun e => map (fun s => eH s * INR (count s)) (eb_segments e n (Some r))) E) 0.

  (** The solutions: between two segments for distances with weights and a number of
      receiving boreholes, and at a distance. *)
  Variables (ke : list (R * R) -> pair -> R -> R) (kv : R -> pair -> R).

  (** 266-272: one pair (i, j) of a group *)
  Definition pair_block (U : list pair) (k_pair : list nat) (o : option Mx) (ij : nat * nat) : option Mx :=
    let (i, j) := ij in
    match o, weights dis (pair_distances i j) with
    | Some M, Some w =>
        let no := (Bore 0 0 0 0 0 0 0, Bore 0 0 0 0 0 0 0) in
        let h := map (fun k => ke (combine dis (map INR w)) (nth k U no) (INR (count (e_ j)))) k_pair in
        let is := place i eq_i_pair in
        let js := place j eq_j_pair in
        let M := assign M js is h in
        Some (if Nat.eqb i j then M
              else assign M is js (map (fun c => snd c * eq_lengths (snd (fst c)) / eq_lengths (fst (fst c))) (combine (combine is js) h)))
    | _, _ => None
    end.
  (** 250-272 *)
  Definition pair_group (o : option Mx) (pairs : list (nat * nat)) : option Mx :=
    let (i, j) := hd (O, O) pairs in
    let (U, k_pair) := eq_map_pairs i j in
    fold_left (pair_block U k_pair) pairs o.

  (** 279-299 *)
  Definition self_block (U : list pair) (k_pair : list nat) (rb : R) (M : Mx) (i : nat) : Mx :=
    let no := (Bore 0 0 0 0 0 0 0, Bore 0 0 0 0 0 0 0) in
    let is := place i eq_i_pair in
    let js := place i eq_j_pair in
    assign M js is (map (fun c => M (fst (fst c)) (snd (fst c)) + kv rb (nth (snd c) U no)) (combine (combine js is) k_pair)).
  Definition self_group (M : Mx) (group : list nat) : Mx :=
    let i := hd O group in
    let (U, k_pair) := eq_map_pairs i i in
    fold_left (self_block U k_pair (er (e_ i))) group M.

  (** 203-299: thermal_response_factors at one time *)
  Definition eq_matrix : option Mx :=
    match fold_left pair_group eq_pair_groups (Some (fun _ _ => 0)) with
    | Some M => Some (fold_left self_group eq_self_groups M)
    | None => None
    end.
End Matrix.

(** heat_transfer.py 1293-1331 *)
Definition kernel_e (alpha t : R) : list (R * R) -> pair -> R -> R :=
  fun dw p N2 => fls_equivalent t alpha dw (bH (fst p)) (bD (fst p)) (bH (snd p)) (bD (snd p)) N2 true true.

(** 175-201, 203-311: the equivalent boreholes, the lengths of their segments and the
    response factors as a function of the times *)
Definition equivalent (link : list R -> tree) (kClusters : nat) (tol disTol alpha : R) (bs : list bore) (n : nat) (r : list R)
  : option (list ebore * vec * (R -> option Mx)) :=
  match equivalent_boreholes link kClusters tol bs, field_distances disTol bs with
  | Some E, Some dis => Some (E, eq_lengths E n r, fun t => eq_matrix tol E n r dis (kernel_e alpha t) (kernel_v alpha t))
  | _, _ => None
  end.
