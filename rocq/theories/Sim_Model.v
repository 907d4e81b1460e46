(** The Similarities solver: pygfunction/solvers/similarities.py.

    Floats are reals; 1e-30 is the exact power.  numpy's argsort is an insertion sort of
    the indices.  cos(arctan2(dy, dx) - o) is written with the cosine and the sine of o.
    An index out of the range of the array of solutions is None. *)
From Verif Require Import Base LinAlg FLS_Model.
From Verif Require Import Bore_Model Solve_Model Detailed_Model.

Definition tiny : R := / 10 ^ 30.
Definition pair := (bore * bore)%type.

(** 549-575: _compare_boreholes *)
Definition compare_boreholes (tol : R) (b1 b2 : bore) : bool :=
  Rltb (Rabs ((bH b1 - bH b2) / bH b1)) tol && Rltb (Rabs ((br b1 - br b2) / br b1)) tol
  && Rltb (Rabs ((bD b1 - bD b2) / (bD b1 + tiny))) tol
  && Rltb (Rabs (Rabs (btilt b1) - Rabs (btilt b2)) / (Rabs (btilt b1) + tiny)) tol.

(** equality of lengths between pairs (598-599, 634-635, 794-795) *)
Definition cond_H (tol : R) (p1 p2 : pair) : bool :=
  Rltb (Rabs ((bH (fst p1) - bH (fst p2)) / bH (fst p1))) tol && Rltb (Rabs ((bH (snd p1) - bH (snd p2)) / bH (snd p1))) tol.

(** 577-612: _compare_real_pairs_vertical *)
Definition compare_real (tol : R) (p1 p2 : pair) : bool :=
  let deltaD1 := bD (snd p1) - bD (fst p1) in
  let deltaD2 := bD (snd p2) - bD (fst p2) in
  let equal_H := Rltb (Rabs ((bH (fst p1) - bH (snd p1)) / bH (fst p1))) tol in
  let cond_deltaD := Rltb (Rabs (deltaD1 - deltaD2) / Rabs (deltaD1 + tiny)) tol in
  let cond_deltaD_equal_H := Rltb (Rabs ((Rabs deltaD1 - Rabs deltaD2) / (Rabs deltaD1 + tiny))) tol in
  cond_H tol p1 p2 && (cond_deltaD || (equal_H && cond_deltaD_equal_H)).

(** 614-644: _compare_image_pairs_vertical *)
Definition compare_image (tol : R) (p1 p2 : pair) : bool :=
  let sumD1 := bD (snd p1) + bD (fst p1) in
  let sumD2 := bD (snd p2) + bD (fst p2) in
  cond_H tol p1 p2 && Rltb (Rabs ((sumD1 - sumD2) / (sumD1 + tiny))) tol.

(** 646-670: _compare_realandimage_pairs_vertical *)
Definition compare_vertical (tol : R) (p1 p2 : pair) : bool := compare_real tol p1 p2 && compare_image tol p1 p2.

(** np.cos(np.arctan2(dy, dx) - o) *)
Definition cos_from (dx dy o : R) : R :=
  if Reqb dx 0 && Reqb dy 0 then cos o else (dx * cos o + dy * sin o) / sqrt (dx ^ 2 + dy ^ 2).

(** 768-821: _compare_realandimage_pairs_inclined *)
Definition compare_inclined (tol disTol : R) (p1 p2 : pair) : bool :=
  let dx p := bx (fst p) - bx (snd p) in
  let dy p := by_ (fst p) - by_ (snd p) in
  let dis p := sqrt (dx p ^ 2 + dy p ^ 2) in
  let near a b := Rltb (Rabs (a - b) / (Rabs a + tiny)) tol in
  let sc (p : pair) (b : bore) := sin (btilt b) * cos_from (dx p) (dy p) (bori b) in
  cond_H tol p1 p2
  && (near (bD (fst p1)) (bD (fst p2)) && near (bD (snd p1)) (bD (snd p2)))
  && Rltb (Rabs (dis p1 - dis p2) / (Rabs (dis p1) + tiny)) disTol
  && (Rltb (Rabs (Rabs (btilt (fst p1)) - Rabs (btilt (fst p2))) / (Rabs (btilt (fst p1)) + tiny)) tol
      && Rltb (Rabs (Rabs (btilt (snd p1)) - Rabs (btilt (snd p2))) / (Rabs (btilt (snd p1)) + tiny)) tol)
  && (near (sc p1 (fst p1)) (sc p2 (fst p2)) && near (sc p1 (snd p1)) (sc p2 (snd p2))).

(** np.allclose(a, b, rtol=rtol) on arrays of the same length *)
Definition allclose (rtol : R) (a b : list R) : bool :=
  forallb (fun c => Rleb (Rabs (fst c - snd c)) (/ 10 ^ 8 + rtol * Rabs (snd c))) (combine a b).

(** one of the for-else loops over known groups: the first group whose first element is
    similar gets the element (or its reciprocal), otherwise there is a new group *)
Fixpoint add_group {A} (sim : A -> option A) (x : A) (gs : list (list A)) : list (list A) :=
  match gs with
  | [] => [[x]]
  | g :: r => match g with
              | [] => g :: add_group sim x r
              | h :: _ => match sim h with Some y => (g ++ [y]) :: r | None => g :: add_group sim x r end
              end
  end.

(** the pairs i < j in the order of the loops (848, 875) *)
Definition index_pairs (n : nat) : list (nat * nat) :=
  flat_map (fun i => map (fun j => (i, j)) (seq (i + 1) (n - i - 1))) (seq 0 n).

(** insertion sort of indices: ndarray.argsort *)
Fixpoint insert_index (d : list R) (i : nat) (l : list nat) : list nat :=
  match l with
  | [] => [i]
  | j :: r => if Rleb (nth i d 0) (nth j d 0) then i :: l else j :: insert_index d i r
  end.
Definition argsort (d : list R) : list nat := fold_right (insert_index d) [] (seq 0 (length d)).

(** 975-999: the loop of _find_distances on one group; [d] are the sorted distances,
    [isort] the indices, [ind] the array of indices of distances. *)
Fixpoint fd_loop (fuel : nat) (tol : R) (d : list R) (isort : list nat) (j0 j1 nDis : nat) (ind : list nat) : option (list R * list nat) :=
  if ((j0 <? length d) && (0 <? j1))%nat then
    match fuel with
    | O => None
    | S f =>
        let j1' := argmax_bool (map (fun x => Rleb ((1 + tol) * nth j0 d 0) x) d) in
        let dis := mean (if (j0 <? j1')%nat then slice j0 j1' d else skipn j0 d) in
        let who := if (j0 <? j1')%nat then slice j0 j1' isort else skipn j0 isort in
        match fd_loop f tol d isort j1' j1' (nDis + 1) (fold_left (fun a i => upd a i nDis) who ind) with
        | Some (ds, r) => Some (dis :: ds, r)
        | None => None
        end
    end
  else Some ([], ind).

(** 961-999: distances and indices of one group *)
Definition find_distances (fuel : nat) (tol : R) (all : list R) : option (list R * list nat) :=
  let i_sort := argsort all in
  fd_loop fuel tol (map (fun i => nth i all 0) i_sort) i_sort 0 1 0 (repeat 0%nat (length all)).

(** 1076-1097 and 1193-1229: the first of the known unique pairs that is similar; the
    unique pairs and the index of each pair *)
Fixpoint find_index {A} (f : A -> bool) (l : list A) : option nat :=
  match l with [] => None | x :: r => if f x then Some O else option_map S (find_index f r) end.
Fixpoint unique_pairs {A} (cmp : A -> A -> bool) (ps U : list A) : list A * list nat :=
  match ps with
  | [] => (U, [])
  | p :: r => match find_index (cmp p) U with
              | Some k => let (V, ks) := unique_pairs cmp r U in (V, k :: ks)
              | None => let (V, ks) := unique_pairs cmp r (U ++ [p]) in (V, length U :: ks)
              end
  end.

Section Similarities.
  Variables (tol disTol : R) (bs : list bore) (ns : list nat) (rs : list (list R)).
  Local Notation nB := (length bs).
  Local Notation b_ i := (nth i bs (Bore 0 0 0 0 0 0 0)).
  Local Notation n_ i := (nth i ns 0%nat).
  Local Notation r_ i := (nth i rs []).

  (** _base_solver.py 142-149 *)
  Definition equal_ratios : bool :=
    forallb (fun n => Nat.eqb n (n_ 0)) ns && forallb (fun r => allclose (/ 10 ^ 5) r (r_ 0)) rs.
  Definition uniform_ratios (r : list R) : bool := allclose (/ 10 ^ 6) r (repeat (hd 0 r) (length r)).

  (** 861-865, 890-898: same segments *)
  Definition same_split (i m : nat) : bool := Nat.eqb (n_ i) (n_ m) && allclose tol (r_ i) (r_ m).

  (** 850-870 *)
  Definition self_similar (i m : nat) : option nat :=
    if compare_boreholes tol (b_ i) (b_ m) && (equal_ratios || same_split i m) then Some i else None.
  Definition self_step (s : list (list nat) * list (list nat)) (i : nat) : list (list nat) * list (list nat) :=
    if vertical (b_ i) then (add_group (self_similar i) i (fst s), snd s) else (fst s, add_group (self_similar i) i (snd s)).

  (** 872-919 *)
  Definition pair_similar (cmp : pair -> pair -> bool) (i j : nat) (mn : nat * nat) : option (nat * nat) :=
    let (m, n) := mn in
    if cmp (b_ i, b_ j) (b_ m, b_ n) && (equal_ratios || (same_split i m && same_split j n)) then Some (i, j)
    else if cmp (b_ j, b_ i) (b_ m, b_ n) && (equal_ratios || (same_split j m && same_split i n)) then Some (j, i)
    else None.
  Definition pair_step (s : list (list (nat * nat)) * list (list (nat * nat))) (ij : nat * nat) :=
    let (i, j) := ij in
    if vertical (b_ i) && vertical (b_ j) then (add_group (pair_similar (compare_vertical tol) i j) (i, j) (fst s), snd s)
    else (fst s, add_group (pair_similar (compare_inclined tol disTol) i j) (i, j) (snd s)).

  (** 823-933: _find_axial_borehole_pairs.  A method is true as a condition (924): the
      single borehole is always taken as vertical. *)
  Definition self_groups : list (list nat) * list (list nat) :=
    if Nat.ltb 1 nB then fold_left self_step (seq 0 nB) ([], []) else ([[0%nat]], []).
  Definition pair_groups : list (list (nat * nat)) * list (list (nat * nat)) :=
    if Nat.ltb 1 nB then fold_left pair_step (index_pairs nB) ([], []) else ([], []).

  (** 1051-1097, 1169-1233: the segment pairs of boreholes i and j *)
  Definition map_pairs (cmp : pair -> pair -> bool) (i j : nat) : list pair * list nat :=
    unique_pairs cmp (list_prod (segments (b_ i) (n_ i) (Some (r_ i))) (segments (b_ j) (n_ j) (Some (r_ j)))) [].
  (** 1061-1064 *)
  Definition i_pair (i j : nat) : list nat := flat_map (fun k => repeat k (n_ j)) (seq 0 (n_ i)).
  Definition j_pair (i j : nat) : list nat := concat (repeat (seq 0 (n_ j)) (n_ i)).

  (** 1273-1281, 1317-1322: positions in the matrix, with the same [i], [j] for all of
      the pairs of a group *)
  Definition i_segments (i j : nat) (pairs : list (nat * nat)) : list nat :=
    flat_map (fun p => map (fun k => (k + nth (fst p) (i0_segments nB ns) 0)%nat) (i_pair i j)) pairs.
  Definition j_segments (i j : nat) (pairs : list (nat * nat)) : list nat :=
    flat_map (fun p => map (fun k => (k + nth (snd p) (i0_segments nB ns) 0)%nat) (j_pair i j)) pairs.
  Definition k_segments (k_pair : list nat) (pairs : list (nat * nat)) : list nat := concat (repeat k_pair (length pairs)).
  Definition l_segments (k_pair indices : list nat) : list nat := flat_map (fun l => repeat l (length k_pair)) indices.

  (** The line source solution at the time considered: between vertical segments at a
      distance, and between inclined segments. *)
  Variables (kv : R -> pair -> R) (ki : pair -> R).

  (** h_ij[rows, columns] = values *)
  Definition assign (M : Mx) (rows cols : list nat) (values : list R) : Mx :=
    fold_left (fun M c => write M (fst (fst c)) (snd (fst c)) (snd c)) (combine (combine rows cols) values) M.

  (** 482-519: same-borehole interactions, vertical boreholes.  [dp] are the distances
      and the unique pairs of all the groups. *)
  Record self_data := mkself { s_dp : list (R * pair); s_i : list nat; s_j : list nat; s_k : list nat; s_k0 : nat }.
  Definition self_vertical_step (s : self_data) (group : list nat) : self_data :=
    let i := hd 0%nat group in
    let (U, k_pair) := map_pairs (compare_vertical tol) i i in
    let pairs := map (fun n => (n, n)) group in
    mkself (s_dp s ++ map (fun p => (br (b_ i), p)) U) (s_i s ++ i_segments i i pairs) (s_j s ++ j_segments i i pairs)
           (s_k s ++ map (fun k => (k + s_k0 s)%nat) (k_segments k_pair pairs)) (s_k0 s + (list_max k_pair + 1))%nat.
  Definition self_vertical : self_data := fold_left self_vertical_step (fst self_groups) (mkself [] [] [] [] 0).

  (** 328-378, 404-456: inclined boreholes; the offset is the number of pairs. *)
  Definition inclined_step (s : self_data) (pairs : list (nat * nat)) : self_data :=
    let (i, j) := hd (0%nat, 0%nat) pairs in
    let (U, k_pair) := map_pairs (compare_inclined tol disTol) i j in
    mkself (s_dp s ++ map (fun p => (0, p)) U) (s_i s ++ i_segments i j pairs) (s_j s ++ j_segments i j pairs)
           (s_k s ++ map (fun k => (k + s_k0 s)%nat) (k_segments k_pair pairs)) (s_k0 s + length k_pair)%nat.
  Definition self_inclined : self_data :=
    fold_left inclined_step (map (map (fun n => (n, n))) (snd self_groups)) (mkself [] [] [] [] 0).
  Definition pair_inclined : self_data := fold_left inclined_step (snd pair_groups) (mkself [] [] [] [] 0).

  (** h[k_segment] *)
  Definition gather (h : list R) (k : list nat) : option (list R) :=
    if forallb (fun i => Nat.ltb i (length h)) k then Some (map (fun i => nth i h 0) k) else None.

  (** 242-272: one group of pairs of vertical boreholes *)
  Definition pair_vertical_step (o : option Mx) (pairs : list (nat * nat)) : option Mx :=
    match o with
    | None => None
    | Some M =>
        let (i, j) := hd (0%nat, 0%nat) pairs in
        match find_distances (length pairs) disTol (map (fun p => Rmax (planar (b_ (fst p)) (b_ (snd p))) (br (b_ (fst p)))) pairs) with
        | None => None
        | Some (distances, indices) =>
            let (U, k_pair) := map_pairs (compare_vertical tol) i j in
            let is := i_segments i j pairs in
            let js := j_segments i j pairs in
            let lk := combine (l_segments k_pair indices) (k_segments k_pair pairs) in
            let no := (Bore 0 0 0 0 0 0 0, Bore 0 0 0 0 0 0 0) in
            let h c := kv (nth (fst c) distances 0) (nth (snd c) U no) in
            let hT c := if compare_boreholes tol (b_ j) (b_ i) && Nat.eqb (n_ i) (n_ j) && uniform_ratios (r_ i) && uniform_ratios (r_ j)
                        then h c else h c * bH (snd (nth (snd c) U no)) / bH (fst (nth (snd c) U no)) in
            Some (assign (assign M js is (map h lk)) is js (map hT lk))
        end
    end.

  (** 213-284: thermal_response_factors *)
  Definition sim_matrix : option Mx :=
    let sv := self_vertical in
    let si := self_inclined in
    let pi := pair_inclined in
    match gather (map (fun c => kv (fst c) (snd c)) (s_dp sv)) (s_k sv), gather (map (fun c => ki (snd c)) (s_dp si)) (s_k si) with
    | Some hv, Some hi =>
        let M := assign (assign (fun _ _ => 0) (s_j sv) (s_i sv) hv) (s_j si) (s_i si) hi in
        match fold_left pair_vertical_step (fst pair_groups) (Some M),
              gather (map (fun c => ki (snd c)) (s_dp pi)) (s_k pi),
              gather (map (fun c => ki (snd c) * bH (snd (snd c)) / bH (fst (snd c))) (s_dp pi)) (s_k pi) with
        | Some M, Some h, Some hT => Some (assign (assign M (s_j pi) (s_i pi) h) (s_i pi) (s_j pi) hT)
        | _, _, _ => None
        end
    | _, _ => None
    end.
End Similarities.

(** The solutions between two segments: the distance is that of the boreholes. *)
Definition kernel_v (alpha t : R) : R -> pair -> R :=
  fun d p => fls t alpha d (bH (fst p)) (bD (fst p)) (bH (snd p)) (bD (snd p)) true true.
Definition kernel_i (alpha t : R) (uw : list (R * R)) : pair -> R :=
  fun p => fls_inclined (to_bh (fst p)) (to_bh (snd p)) (rule uw) t alpha true true.
