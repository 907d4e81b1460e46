(** Model of single boreholes and of lists of boreholes: pygfunction/boreholes.py. *)
From Verif Require Import Base.

(** boreholes.py 37-51, the attributes of [Borehole]. *)
Record bore := Bore { bH : R; bD : R; br : R; bx : R; by_ : R; btilt : R; bori : R }.

(** boreholes.py 46, [_is_tilted]. *)
Definition tilted (t : R) : bool := Rltb (/ 10 ^ 6) (Rabs t).

(** boreholes.py 37-51, [Borehole.__init__]. *)
Definition mk_bore (H D r x y tilt ori : R) : bore :=
  Bore H D r x y tilt (if tilted tilt then ori else 0).

(** boreholes.py 137-139, [Borehole.distance]. *)
Definition bdist (a b : bore) : R :=
  Rmax (br a) (sqrt ((bx a - bx b) ^ 2 + (by_ a - by_ b) ^ 2)).

(** numpy.cumsum *)
Fixpoint cumsum_from (s : R) (l : list R) : list R :=
  match l with [] => [] | x :: r => (s + x) :: cumsum_from (s + x) r end.
Definition cumsum := cumsum_from 0.

(** boreholes.py 258-261, [Borehole._segment_edges]; the default ratios are
    those of 258-259. [nSegments] is only used for the default. *)
Definition default_ratios (n : nat) (o : option (list R)) : list R :=
  match o with Some l => l | None => repeat (1 / INR n) n end.
Definition segment_edges (b : bore) (n : nat) (o : option (list R)) : list R :=
  map (fun z => z * bH b) (0 :: cumsum (default_ratios n o)).

(** boreholes.py 211-228, [Borehole.segments]. *)
Definition segments (b : bore) (n : nat) (o : option (list R)) : list bore :=
  map (fun p => let '(z, ratio) := p in
         mk_bore (ratio * bH b) (bD b + z * cos (btilt b)) (br b)
                 (bx b + z * sin (btilt b) * cos (bori b))
                 (by_ b + z * sin (btilt b) * sin (bori b))
                 (btilt b) (bori b))
      (combine (removelast (segment_edges b n o)) (default_ratios n o)).

(** boreholes.py 290-295, [Borehole._segment_midpoints]. *)
Definition segment_midpoints (b : bore) (n : nat) (o : option (list R)) : list R :=
  map (fun p => fst p + snd p * bH b / 2)
      (combine (removelast (segment_edges b n o)) (default_ratios n o)).

(** boreholes.py 640-644: scipy's [pdist], row by row. *)
Definition planar (a b : bore) : R := sqrt ((bx a - bx b) ^ 2 + (by_ a - by_ b) ^ 2).
Fixpoint pdist (l : list bore) : list R :=
  match l with [] => [] | a :: r => map (planar a) r ++ pdist r end.

(** numpy.max of a non-empty list. *)
Definition lmax (l : list R) : option R :=
  match l with [] => None | x :: r => Some (fold_left Rmax r x) end.

(** numpy.argwhere of [d < r]. *)
Fixpoint argwhere_lt (r : R) (k : nat) (d : list R) : list nat :=
  match d with
  | [] => []
  | x :: l => if Rltb x r then k :: argwhere_lt r (S k) l else argwhere_lt r (S k) l
  end.

(** boreholes.py 647-650: index pair of the condensed index [k]. Integer
    arithmetic of numpy is exact, the root is rounded to a real floor. The
    half products of 649 are exact divisions. *)
Definition pair_i (n k : Z) : Z :=
  (n - 2 - Int_part (sqrt (IZR (-8 * k + 4 * n * (n - 1) - 7)) / 2 - 1 / 2))%Z.
Definition pair_j (n k : Z) : Z :=
  let i := pair_i n k in (k + i + 1 - n * (n - 1) / 2 + (n - i) * ((n - i) - 1) / 2)%Z.

(** boreholes.py 617-655, [find_duplicates]; [None]: numpy.max of an empty list. *)
Definition find_duplicates (f : list bore) : option (list (nat * nat)) :=
  let n := Z.of_nat (length f) in
  match lmax (map br f) with
  | None => None
  | Some r =>
      Some (map (fun k => (Z.to_nat (pair_i n (Z.of_nat k)), Z.to_nat (pair_j n (Z.of_nat k))))
                (argwhere_lt r 0 (pdist f)))
  end.

(** boreholes.py 680-694, [remove_duplicates]. *)
Definition keep_bores (dup : list nat) (f : list bore) : list bore :=
  map snd (filter (fun p => negb (existsb (Nat.eqb (fst p)) dup)) (combine (seq 0 (length f)) f)).
Definition remove_duplicates (f : list bore) : option (list bore) :=
  match find_duplicates f with
  | None => None
  | Some ps => Some (keep_bores (map snd ps) f)
  end.

(** boreholes.py 342-369, [_EquivalentBorehole] built from boreholes (343-350),
    from equivalent boreholes (351-359) or from a tuple (360-365). A tuple of
    five attributes leaves [tilt] undefined and 369 raises AttributeError. *)
Record ebore := EBore { eH : R; eD : R; er : R; ex : list R; ey : list R; etilt : R; eori : list R }.
Definition eb_of_bores (l : list bore) : option ebore :=
  match l with
  | [] => None
  | b :: _ => Some (EBore (bH b) (bD b) (br b) (map bx l) (map by_ l) (btilt b) (map bori l))
  end.
Definition eb_of_ebores (l : list ebore) : option ebore :=
  match l with
  | [] => None
  | b :: _ => Some (EBore (eH b) (eD b) (er b) (concat (map ex l)) (concat (map ey l)) (etilt b) (concat (map eori l)))
  end.
Definition eb_of_tuple (H D r : R) (x y : list R) (rest : option (R * list R)) : option ebore :=
  match rest with
  | Some (t, o) => Some (EBore H D r x y t o)
  | None => None
  end.

(** boreholes.py 398-402, [_EquivalentBorehole.distance]: rows are targets. *)
Definition eb_distance (b target : ebore) : list (list R) :=
  map (fun p => let '(tx, ty) := p in
    map (fun q => let '(sx, sy) := q in
           Rmax (sqrt ((tx + - sx) ^ 2 + (ty + - sy) ^ 2)) (er b))
        (combine (ex b) (ey b)))
    (combine (ex target) (ey target)).

(** boreholes.py 470-485, [_EquivalentBorehole.segments]. *)
Definition eb_edges (b : ebore) (n : nat) (o : option (list R)) : list R :=
  map (fun z => z * eH b) (0 :: cumsum (default_ratios n o)).
Definition eb_segments (b : ebore) (n : nat) (o : option (list R)) : list ebore :=
  map (fun p => let '(z, ratio) := p in
         EBore (ratio * eH b) (eD b + z * cos (etilt b)) (er b)
               (map (fun q => fst q + z * sin (etilt b) * cos (snd q)) (combine (ex b) (eori b)))
               (map (fun q => fst q + z * sin (etilt b) * sin (snd q)) (combine (ey b) (eori b)))
               (etilt b) (eori b))
      (combine (removelast (eb_edges b n o)) (default_ratios n o)).

(** numpy.sort *)
Fixpoint rinsert (x : R) (l : list R) : list R :=
  match l with [] => [x] | y :: r => if Rleb x y then x :: l else y :: rinsert x r end.
Fixpoint rsort (l : list R) : list R :=
  match l with [] => [] | x :: r => rinsert x (rsort r) end.

(** numpy.argmax of a boolean array: index of the first True, 0 when there is none. *)
Fixpoint first_true (l : list bool) : option nat :=
  match l with
  | [] => None
  | true :: _ => Some O
  | false :: r => option_map S (first_true r)
  end.
Definition argmax_bool (l : list bool) : nat := match first_true l with Some k => k | None => O end.

(** boreholes.py 524-547, the search loop of [unique_distance] on the sorted
    distances, with fuel. *)
Fixpoint ud_loop (fuel : nat) (tol : R) (d : list R) (j0 j1 : nat) : option (list R * list nat) :=
  if ((j0 <? length d) && (0 <? j1))%nat then
    match fuel with
    | O => None
    | S f =>
        let j1' := argmax_bool (map (fun x => Rleb ((1 + tol) * nth j0 d 0) x) d) in
        let c := if (j0 <? j1')%nat then (mean (slice j0 j1' d), (j1' - j0)%nat)
                 else (mean (skipn j0 d), (length d - j0)%nat) in
        match ud_loop f tol d j1' j1' with
        | Some (ds, ws) => Some (fst c :: ds, snd c :: ws)
        | None => None
        end
    end
  else Some ([], []).
Definition unique_distance (fuel : nat) (tol : R) (b target : ebore) : option (list R * list nat) :=
  ud_loop fuel tol (rsort (concat (eb_distance b target))) 0 1.
