(** Segments of the solvers and response matrix of the detailed solver:
    pygfunction/solvers/_base_solver.py and pygfunction/solvers/detailed.py. *)
From Verif Require Import Base LinAlg FLS_Model.
From Verif Require Import Bore_Model Solve_Model.

(** the argument segment_ratios: an array, None, a function of the number of segments
    or a list of arrays *)
Inductive ratios_arg := RArray (r : list R) | RNone | RFun (f : nat -> list R) | RList (l : list (list R)).

(** _base_solver.py 134-139 *)
Definition format_ratios (nB : nat) (ns : list nat) (a : ratios_arg) : list (list R) :=
  match a with
  | RArray r => repeat r nB
  | RNone => map (fun n => repeat (1 / INR n) n) ns
  | RFun f => map f ns
  | RList l => l
  end.

(** the argument nSegments: an integer or a list; 129-132 *)
Inductive segments_arg := SInt (n : nat) | SList (l : list nat).
Definition format_segments (nB : nat) (a : segments_arg) : list nat :=
  match a with SInt n => repeat n nB | SList l => l end.

(** 150-153: _i0Segments and _i1Segments *)
Definition i0_segments (nB : nat) (ns : list nat) : list nat := map (fun i => list_sum (firstn i ns)) (seq 0 nB).
Definition i1_segments (nB : nat) (ns : list nat) : list nat := map (fun i => list_sum (firstn (S i) ns)) (seq 0 nB).

(** 605-611 and 634-643: the checks of _check_inputs on the segments.  The length of
    nBoreSegments is compared to itself (606-607). *)
Definition check_segments (bs : list bore) (ns : list nat) (rs : list (list R)) : bool :=
  Nat.ltb 0 (length bs) && Nat.eqb (length ns) (length ns) && Nat.ltb 0 (length ns) && forallb (fun n => Nat.leb 1 n) ns
  && forallb (fun c => Nat.eqb (length (fst c)) (snd c) && Rltb (Rabs (1 - Rsum (fst c))) (1 / 10 ^ 6)) (combine rs ns).

(** 480-498: borehole_segments *)
Fixpoint borehole_segments (bs : list bore) (ns : list nat) (rs : list (list R)) : list bore :=
  match bs, ns, rs with
  | b :: bs', n :: ns', r :: rs' => segments b n (Some r) ++ borehole_segments bs' ns' rs'
  | _, _, _ => []
  end.

(** an assignment to an element of a matrix *)
Definition write (M : Mx) (r c : nat) (v : R) : Mx :=
  fun i j => if Nat.eqb i r && Nat.eqb j c then v else M i j.

Definition vertical (b : bore) : bool := negb (tilted (btilt b)).

Section Detailed.
  (** The line source solution at the time considered: whether it is the solution for
      vertical boreholes, the emitting and the receiving segment. *)
  Variable ker : bool -> bore -> bore -> R.
  Variables (bs : list bore) (ns : list nat) (rs : list (list R)).

  Local Notation nB := (length bs).
  Definition bore_segments : list bore := borehole_segments bs ns rs.
  Local Notation seg k := (nth k bore_segments (Bore 0 0 0 0 0 0 0)).
  (** detailed.py 155-157 *)
  Definition n_sources : nat := length bore_segments.
  (** _base_solver.py 462-478 *)
  Definition segment_length : vec := fun k => bH (seg k).

  (** detailed.py 264-274: indices of the emitting and receiving segments *)
  Definition i_segment : list nat :=
    flat_map (fun c => flat_map (fun k => repeat k (snd c)) (seq (fst (fst c)) (snd (fst c) - fst (fst c))))
      (combine (combine (i0_segments nB ns) (i1_segments nB ns)) ns).
  Definition j_segment : list nat :=
    flat_map (fun c => concat (repeat (seq (fst (fst c)) (snd (fst c) - fst (fst c))) (snd c)))
      (combine (combine (i0_segments nB ns) (i1_segments nB ns)) ns).

  (** 203-209: h_ij[j_segment, i_segment, 1:] = h *)
  Definition self_matrix : Mx :=
    fold_left (fun M c => write M (snd c) (fst c) (ker (forallb vertical bs) (seg (fst c)) (seg (snd c))))
      (combine i_segment j_segment) (fun _ _ => 0).

  (** 214-228: one borehole and all those after it *)
  Definition block_step (M : Mx) (c : nat * (nat * nat)) : Mx :=
    let '(i, (i0, i1)) := c in
    if Nat.ltb (i + 1) nB then
      let b2 := slice i0 i1 bore_segments in
      let b1 := skipn i1 bore_segments in
      let v := forallb vertical b1 && forallb vertical b2 in
      let h r c := ker v (seg c) (seg r) in
      fun r c =>
        if Nat.leb i0 r && Nat.ltb r i1 && Nat.leb i1 c && Nat.ltb c n_sources then h r c
        else if Nat.leb i1 r && Nat.ltb r n_sources && Nat.leb i0 c && Nat.ltb c i1
        then h c r * (segment_length c / segment_length r)
        else M r c
    else M.

  Definition detailed_matrix : Mx :=
    fold_left block_step (combine (seq 0 nB) (combine (i0_segments nB ns) (i1_segments nB ns))) self_matrix.
End Detailed.

(** The line source solution of two segments (heat_transfer.py 264-275 and 293-307 with
    np.maximum(distance, r_b of the emitting segment); detailed.py 281-299). *)
Definition to_bh (b : bore) : bh := mkbh (bH b) (bD b) (br b) (bx b) (by_ b) (btilt b) (bori b).
Definition line_kernel (alpha t : R) (uw : list (R * R)) (v : bool) (e r : bore) : R :=
  if v then fls t alpha (Rmax (planar e r) (br e)) (bH e) (bD e) (bH r) (bD r) true true
  else fls_inclined (to_bh e) (to_bh r) (rule uw) t alpha true true.

(** detailed.py thermal_response_factors as a function of the grid of times *)
Definition detailed_trf (alpha : R) (uw : list (R * R)) (bs : list bore) (ns : list nat) (rs : list (list R)) : list R -> nat -> nat -> nat -> R :=
  fun tl i j k => detailed_matrix (line_kernel alpha (nth k tl 0) uw) bs ns rs i j.
