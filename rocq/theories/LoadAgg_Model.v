(** Model of pygfunction/load_aggregation.py.
    Arrays of shape (nSources, n) are lists of rows, one row per source.
    Response factor arrays of shape (nSources, nSources, Nt) are functions of
    the three indices. Floats are reals. *)
From Verif Require Import Base.

(** The two mutating calls of a simulation.  [SetLoad q] carries one value per
    source (a scalar argument is numpy-broadcast to that list). *)
Inductive op := Next | SetLoad (q : list R).

(** Python indexing of a row with possibly negative index; a value outside the
    range raises IndexError in Python, [None] here. *)
Definition pyget (l : list R) (i : Z) : option R :=
  if (i <? 0)%Z
  then (if (Z.of_nat (length l) + i <? 0)%Z then None
        else nth_error l (Z.to_nat (Z.of_nat (length l) + i)))
  else nth_error l (Z.to_nat i).

(** ** ClaessonJaved *)

(** load_aggregation.py 218-219, [_build_cells]: widths from the time vector. *)
Fixpoint diffs (l : list R) : list R :=
  match l with
  | x :: ((y :: _) as r) => (y - x) :: diffs r
  | _ => []
  end.
Definition cj_width_of (dt : R) (time : list R) : list R :=
  1 :: map (fun d => d / dt) (diffs time).

(** load_aggregation.py 224-225: [A = (1 - 1/width) * eye(nt) + diag(1/width[1:], k=1)]
    (the one-dimensional factor multiplies the columns of [eye]). *)
Definition cj_A (w : list R) (i j : nat) : R :=
  (if (i =? j)%nat then 1 - 1 / nth j w 0 else 0)
  + (if (j =? S i)%nat then 1 / nth j w 0 else 0).

Record cj := { cj_w : list R; cj_q : list (list R) }.

(** load_aggregation.py 220-222: zero aggregated loads. *)
Definition cj_init (w : list R) (nS : nat) : cj :=
  {| cj_w := w; cj_q := repeat (repeat 0 (length w)) nS |}.

(** load_aggregation.py 117, [q_b @ A] for one source. *)
Definition cj_row_next (w row : list R) : list R :=
  map (fun j => sumn (length w) (fun i => nth i row 0 * cj_A w i j)) (seq 0 (length w)).

(** load_aggregation.py 107-117 and 156-167. A load vector of the wrong size is
    rejected by numpy broadcasting ([None]). *)
Definition cj_step (s : cj) (o : op) : option cj :=
  match o with
  | Next => Some {| cj_w := cj_w s; cj_q := map (cj_row_next (cj_w s)) (cj_q s) |}
  | SetLoad q =>
      if (length q =? length (cj_q s))%nat
      then Some {| cj_w := cj_w s;
                   cj_q := map (fun p => upd (fst p) 0 (snd p)) (combine (cj_q s) q) |}
      else None
  end.

Fixpoint cj_run (s : cj) (ops : list op) : option cj :=
  match ops with
  | [] => Some s
  | o :: r => match cj_step s o with Some s' => cj_run s' r | None => None end
  end.

(** load_aggregation.py 101-105, [initialize]: response factor increments. *)
Definition cj_dg (g : nat -> nat -> nat -> R) (i j k : nat) : R :=
  match k with O => g i j O | S m => g i j (S m) - g i j m end.

(** load_aggregation.py 193, [einsum('ijk,jk', dg, q_b)]: component i. *)
Definition cj_superposition (g : nat -> nat -> nat -> R) (s : cj) (i : nat) : R :=
  sumn (length (cj_q s)) (fun j =>
    sumn (length (cj_w s)) (fun k => cj_dg g i j k * nth k (nth j (cj_q s) []) 0)).

(** ** MLAA *)

Record mlaa := {
  ml_N0 : nat; ml_N1 : nat; ml_N2 : nat; ml_N3 : nat; ml_Nt : nat;
  ml_nt : nat; ml_n0 : nat; ml_n1 : nat; ml_n2 : nat; ml_n3 : nat; ml_n4 : nat;
  ml_qb : list (list R); ml_Q0 : list (list R);
  ml_Q1 : list R; ml_Q2 : list R; ml_Q3 : list R; ml_Q4 : list R }.

(** load_aggregation.py 450-470, [_build_cells] ([Nt = ceil(tmax/dt)] is a parameter). *)
Definition mlaa_init (nS Nt N0 N1 N2 N3 : nat) : mlaa :=
  {| ml_N0 := N0; ml_N1 := N1; ml_N2 := N2; ml_N3 := N3; ml_Nt := Nt;
     ml_nt := 0; ml_n0 := 0; ml_n1 := 0; ml_n2 := 0; ml_n3 := 0; ml_n4 := 0;
     ml_qb := repeat (repeat 0 Nt) nS; ml_Q0 := repeat (repeat 0 N0) nS;
     ml_Q1 := repeat 0 nS; ml_Q2 := repeat 0 nS; ml_Q3 := repeat 0 nS; ml_Q4 := repeat 0 nS |}.

(** load_aggregation.py 293-355, [next_time_step]. Going past the horizon
    ([nt > Nt]) makes the slices too short; that case is [None] here (Python
    raises here or at the following [set_current_load]). *)
Definition mlaa_next (s : mlaa) : option mlaa :=
  let nt := S (ml_nt s) in
  if (ml_Nt s <? nt)%nat then None else
  let n0 := if (nt <? ml_N0 s)%nat then nt else ml_N0 s in
  let Q0 := map (fun p => firstn (ml_N0 s - n0) (fst p) ++ slice (nt - n0) nt (snd p))
                (combine (ml_Q0 s) (ml_qb s)) in
  let c1 := (ml_N0 s + ml_N1 s <=? nt)%nat in
  let n1 := if c1 then ml_N1 s else O in
  let Q1 := if c1 then map (fun r => mean (slice (nt - (n0 + n1)) (nt - n0) r)) (ml_qb s)
            else ml_Q1 s in
  let c2 := (ml_N0 s + ml_N1 s + ml_N2 s <=? nt)%nat in
  let n2 := if c2 then ml_N2 s else O in
  let Q2 := if c2 then map (fun r => mean (slice (nt - (n0 + n1 + n2)) (nt - (n0 + n1)) r)) (ml_qb s)
            else ml_Q2 s in
  let c3 := (ml_N0 s + ml_N1 s + ml_N2 s + ml_N3 s <=? nt)%nat in
  let n3 := if c3 then ml_N3 s else O in
  let Q3 := if c3 then map (fun r => mean (slice (nt - (n0 + n1 + n2 + n3)) (nt - (n0 + n1 + n2)) r)) (ml_qb s)
            else ml_Q3 s in
  let n4 := (nt - (n0 + n1 + n2 + n3))%nat in
  let Q4 := if (0 <? n4)%nat then map (fun r => mean (slice 0 n4 r)) (ml_qb s) else ml_Q4 s in
  Some {| ml_N0 := ml_N0 s; ml_N1 := ml_N1 s; ml_N2 := ml_N2 s; ml_N3 := ml_N3 s; ml_Nt := ml_Nt s;
          ml_nt := nt; ml_n0 := n0; ml_n1 := n1; ml_n2 := n2; ml_n3 := n3; ml_n4 := n4;
          ml_qb := ml_qb s; ml_Q0 := Q0; ml_Q1 := Q1; ml_Q2 := Q2; ml_Q3 := Q3; ml_Q4 := Q4 |}.

(** load_aggregation.py 371-383, [set_current_load]: writes [q_b[:,nt-1]] and
    [Q0[:,-1]]. Index errors (no time step yet is outside the modelled use,
    N0 = 0 leaves an empty [Q0]) are [None]. *)
Definition mlaa_set (s : mlaa) (q : list R) : option mlaa :=
  if negb (length q =? length (ml_qb s))%nat then None else
  if (ml_nt s =? 0)%nat then None else
  if (ml_N0 s =? 0)%nat then None else
  Some {| ml_N0 := ml_N0 s; ml_N1 := ml_N1 s; ml_N2 := ml_N2 s; ml_N3 := ml_N3 s; ml_Nt := ml_Nt s;
          ml_nt := ml_nt s; ml_n0 := ml_n0 s; ml_n1 := ml_n1 s; ml_n2 := ml_n2 s; ml_n3 := ml_n3 s;
          ml_n4 := ml_n4 s;
          ml_qb := map (fun p => upd (fst p) (ml_nt s - 1) (snd p)) (combine (ml_qb s) q);
          ml_Q0 := map (fun p => upd (fst p) (ml_N0 s - 1) (snd p)) (combine (ml_Q0 s) q);
          ml_Q1 := ml_Q1 s; ml_Q2 := ml_Q2 s; ml_Q3 := ml_Q3 s; ml_Q4 := ml_Q4 s |}.

Definition mlaa_step (s : mlaa) (o : op) : option mlaa :=
  match o with Next => mlaa_next s | SetLoad q => mlaa_set s q end.

Fixpoint mlaa_run (s : mlaa) (ops : list op) : option mlaa :=
  match ops with
  | [] => Some s
  | o :: r => match mlaa_step s o with Some s' => mlaa_run s' r | None => None end
  end.

(** load_aggregation.py 405-428, [temporal_superposition], component i.
    [Q0[:, -m]] is [nth (N0 - m)]. Only meaningful after a first time step. *)
Definition mlaa_superposition (g : nat -> nat -> nat -> R) (s : mlaa) (i : nat) : R :=
  let nS := length (ml_qb s) in
  let dotg k (v : nat -> R) := sumn nS (fun j => g i j k * v j) in
  let q0 m j := nth (ml_N0 s - m) (nth j (ml_Q0 s) []) 0 in
  let q v j := nth j v 0 in
  let n0 := ml_n0 s in
  let n1 := (n0 + ml_n1 s)%nat in
  let n2 := (n1 + ml_n2 s)%nat in
  let n3 := (n2 + ml_n3 s)%nat in
  let n4 := (n3 + ml_n4 s)%nat in
  sumn (n0 - 1) (fun it => dotg it (fun j => q0 (it + 1)%nat j - q0 (it + 2)%nat j))
  + dotg (n0 - 1)%nat (fun j => q0 n0 j - q (ml_Q1 s) j)
  + dotg (n1 - 1)%nat (fun j => q (ml_Q1 s) j - q (ml_Q2 s) j)
  + dotg (n2 - 1)%nat (fun j => q (ml_Q2 s) j - q (ml_Q3 s) j)
  + dotg (n3 - 1)%nat (fun j => q (ml_Q3 s) j - q (ml_Q4 s) j)
  + dotg (n4 - 1)%nat (q (ml_Q4 s)).

(** ** Liu *)

Record liu := {
  li_N1 : nat; li_N2 : nat; li_N3 : nat; li_W1 : nat; li_W2 : nat; li_W3 : nat;
  li_Nt : nat; li_nt : nat; li_n0 : nat; li_n1 : nat; li_n2 : nat; li_n3 : nat;
  li_Q0 : list (list R); li_Q1 : list (list R); li_Q2 : list (list R); li_Q3 : list (list R) }.

(** ceil(a / b) on naturals, b > 0. *)
Definition ceil_div (a b : nat) : nat := ((a + b - 1) / b)%nat.

(** load_aggregation.py 702-721, [_build_cells] ([Nt = ceil(tmax/dt)] is a parameter). *)
Definition liu_init (nS Nt N1 N2 N3 W1 W2 W3 : nat) : liu :=
  {| li_N1 := N1; li_N2 := N2; li_N3 := N3; li_W1 := W1; li_W2 := W2; li_W3 := W3;
     li_Nt := Nt; li_nt := 0; li_n0 := 0; li_n1 := 0; li_n2 := 0; li_n3 := 0;
     li_Q0 := repeat (repeat 0 (N1 + W1)) nS;
     li_Q1 := repeat (repeat 0 (N2 + W2)) nS;
     li_Q2 := repeat (repeat 0 (N3 + W3)) nS;
     li_Q3 := repeat (repeat 0 (ceil_div Nt (N1 * N2 * N3))) nS |}.

(** The loops [for i in range(n-1, 0, -1): Q[:,i] = Q[:,i-1]]
    (load_aggregation.py 559-560, 569-570, 583-584, 597-598) on one row. *)
Definition liu_shift (n : nat) (row : list R) : list R :=
  fold_left (fun r i => upd r i (nth (i - 1) r 0)) (rev (seq 1 (n - 1))) row.

(** One hand-over between levels: a new cell holding the mean of the [N] oldest
    of the [n] entries of the finer level (load_aggregation.py 566-575,
    580-589, 594-601). *)
Definition liu_push (n' : nat) (coarse : list R) (m : R) : list R :=
  upd (liu_shift n' coarse) 0 m.
Definition liu_oldest (N n : nat) (fine : list R) : R := mean (slice (n - N) n fine).

(** load_aggregation.py 545-603, [next_time_step]. Writing past the end of a
    level array is an IndexError ([None]). *)
Definition liu_next (s : liu) : option liu :=
  let nt := S (li_nt s) in
  let n0 := S (li_n0 s) in
  if (li_N1 s + li_W1 s <? n0)%nat then None else
  let Q0 := map (fun r => upd (liu_shift n0 r) 0 0) (li_Q0 s) in
  if (li_N1 s + li_W1 s <=? n0)%nat then
    let n1 := S (li_n1 s) in
    if (li_N2 s + li_W2 s <? n1)%nat then None else
    let Q1 := map (fun p => liu_push n1 (fst p) (liu_oldest (li_N1 s) n0 (snd p)))
                  (combine (li_Q1 s) Q0) in
    let n0' := (n0 - li_N1 s)%nat in
    if (li_N2 s + li_W2 s <=? n1)%nat then
      let n2 := S (li_n2 s) in
      if (li_N3 s + li_W3 s <? n2)%nat then None else
      let Q2 := map (fun p => liu_push n2 (fst p) (liu_oldest (li_N2 s) n1 (snd p)))
                    (combine (li_Q2 s) Q1) in
      let n1' := (n1 - li_N2 s)%nat in
      if (li_N3 s + li_W3 s <=? n2)%nat then
        let n3 := S (li_n3 s) in
        if (ceil_div (li_Nt s) (li_N1 s * li_N2 s * li_N3 s) <? n3)%nat then None else
        let Q3 := map (fun p => liu_push n3 (fst p) (liu_oldest (li_N3 s) n2 (snd p)))
                      (combine (li_Q3 s) Q2) in
        let n2' := (n2 - li_N3 s)%nat in
        Some {| li_N1 := li_N1 s; li_N2 := li_N2 s; li_N3 := li_N3 s;
                li_W1 := li_W1 s; li_W2 := li_W2 s; li_W3 := li_W3 s; li_Nt := li_Nt s;
                li_nt := nt; li_n0 := n0'; li_n1 := n1'; li_n2 := n2'; li_n3 := n3;
                li_Q0 := Q0; li_Q1 := Q1; li_Q2 := Q2; li_Q3 := Q3 |}
      else
        Some {| li_N1 := li_N1 s; li_N2 := li_N2 s; li_N3 := li_N3 s;
                li_W1 := li_W1 s; li_W2 := li_W2 s; li_W3 := li_W3 s; li_Nt := li_Nt s;
                li_nt := nt; li_n0 := n0'; li_n1 := n1'; li_n2 := n2; li_n3 := li_n3 s;
                li_Q0 := Q0; li_Q1 := Q1; li_Q2 := Q2; li_Q3 := li_Q3 s |}
    else
      Some {| li_N1 := li_N1 s; li_N2 := li_N2 s; li_N3 := li_N3 s;
              li_W1 := li_W1 s; li_W2 := li_W2 s; li_W3 := li_W3 s; li_Nt := li_Nt s;
              li_nt := nt; li_n0 := n0'; li_n1 := n1; li_n2 := li_n2 s; li_n3 := li_n3 s;
              li_Q0 := Q0; li_Q1 := Q1; li_Q2 := li_Q2 s; li_Q3 := li_Q3 s |}
  else
    Some {| li_N1 := li_N1 s; li_N2 := li_N2 s; li_N3 := li_N3 s;
            li_W1 := li_W1 s; li_W2 := li_W2 s; li_W3 := li_W3 s; li_Nt := li_Nt s;
            li_nt := nt; li_n0 := n0; li_n1 := li_n1 s; li_n2 := li_n2 s; li_n3 := li_n3 s;
            li_Q0 := Q0; li_Q1 := li_Q1 s; li_Q2 := li_Q2 s; li_Q3 := li_Q3 s |}.

(** load_aggregation.py 619-630, [set_current_load]. *)
Definition liu_set (s : liu) (q : list R) : option liu :=
  if negb (length q =? length (li_Q0 s))%nat then None else
  Some {| li_N1 := li_N1 s; li_N2 := li_N2 s; li_N3 := li_N3 s;
          li_W1 := li_W1 s; li_W2 := li_W2 s; li_W3 := li_W3 s; li_Nt := li_Nt s;
          li_nt := li_nt s; li_n0 := li_n0 s; li_n1 := li_n1 s; li_n2 := li_n2 s; li_n3 := li_n3 s;
          li_Q0 := map (fun p => upd (fst p) 0 (snd p)) (combine (li_Q0 s) q);
          li_Q1 := li_Q1 s; li_Q2 := li_Q2 s; li_Q3 := li_Q3 s |}.

Definition liu_step (s : liu) (o : op) : option liu :=
  match o with Next => liu_next s | SetLoad q => liu_set s q end.

Fixpoint liu_run (s : liu) (ops : list op) : option liu :=
  match ops with
  | [] => Some s
  | o :: r => match liu_step s o with Some s' => liu_run s' r | None => None end
  end.

(** Row access [Q[j, i]] with Python negative indices (array index -1 is the
    last cell); the cases out of range do not occur in reachable states. *)
Definition qz (Q : list (list R)) (j : nat) (i : Z) : R :=
  match pyget (nth j Q []) i with Some v => v | None => 0 end.

(** Python index along the time axis of [g_d], of size Nt. *)
Definition gz (Nt : nat) (i : Z) : nat :=
  if (i <? 0)%Z then Z.to_nat (Z.of_nat Nt + i) else Z.to_nat i.

(** load_aggregation.py 632-672, [temporal_superposition], component i. *)
Definition liu_superposition (g : nat -> nat -> nat -> R) (s : liu) (i : nat) : R :=
  let nS := length (li_Q0 s) in
  let dotg (k : Z) (v : nat -> R) := sumn nS (fun j => g i j (gz (li_Nt s) k) * v j) in
  let z := Z.of_nat in
  let n0 := z (li_n0 s) in let n1 := z (li_n1 s) in
  let n2 := z (li_n2 s) in let n3 := z (li_n3 s) in
  let N1 := z (li_N1 s) in let N2 := z (li_N2 s) in let N3 := z (li_N3 s) in
  sumn (li_n0 s - 1) (fun t => dotg (z t) (fun j => qz (li_Q0 s) j (z t) - qz (li_Q0 s) j (z t + 1)))
  + dotg (n0 - 1)%Z (fun j => qz (li_Q0 s) j (n0 - 1) - qz (li_Q1 s) j 0)
  + sumn (li_n1 s - 1) (fun t => dotg (n0 + (z t + 1) * N1 - 1)%Z
        (fun j => qz (li_Q1 s) j (z t) - qz (li_Q1 s) j (z t + 1)))
  + dotg (n0 + n1 * N1 - 1)%Z (fun j => qz (li_Q1 s) j (n1 - 1) - qz (li_Q2 s) j 0)
  + sumn (li_n2 s - 1) (fun t => dotg (n0 + n1 * N1 + (z t + 1) * N2 * N1 - 1)%Z
        (fun j => qz (li_Q2 s) j (z t) - qz (li_Q2 s) j (z t + 1)))
  + dotg (n0 + n1 * N1 + n2 * N1 * N2 - 1)%Z (fun j => qz (li_Q2 s) j (n2 - 1) - qz (li_Q3 s) j 0)
  + sumn (li_n3 s - 1) (fun t => dotg (n0 + n1 * N1 + n2 * N2 * N1 + (z t + 1) * N3 * N2 * N1 - 1)%Z
        (fun j => qz (li_Q3 s) j (z t) - qz (li_Q3 s) j (z t + 1)))
  + dotg (n0 - 1 + (n1 * N1 + n2 * N1 * N2 + n3 * N1 * N2 * N3))%Z
        (fun j => qz (li_Q3 s) j (n3 - 1)).
