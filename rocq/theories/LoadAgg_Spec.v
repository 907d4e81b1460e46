(** What a user of a load aggregation object may rely on, stated without the
    aggregation machinery: the load history that the calls describe, and the
    classical temporal superposition of a history. *)
From Verif Require Import Base LoadAgg_Model.

(** Load history of source [s], oldest first: a new time step starts with zero
    load, setting the current load replaces the latest entry. *)
Definition hist_step (s : nat) (h : list R) (o : op) : list R :=
  match o with
  | Next => h ++ [0]
  | SetLoad q => removelast h ++ [nth s q 0]
  end.
Definition history (s : nat) (ops : list op) : list R := fold_left (hist_step s) ops [].

(** Number of time steps started. *)
Fixpoint steps (ops : list op) : nat :=
  match ops with
  | [] => O
  | Next :: r => S (steps r)
  | SetLoad _ :: r => steps r
  end.

(** A simulation begins by starting a time step. *)
Definition starts_with_step (ops : list op) : Prop :=
  match ops with [] => True | Next :: _ => True | SetLoad _ :: _ => False end.

(** Classical superposition of a load history (oldest first, one entry per time
    step): every load increment acts since the step at which it took place. *)
Definition superpose (g : nat -> R) (h : list R) : R :=
  sumn (length h) (fun m =>
    g (length h - 1 - m)%nat * (nth m h 0 - match m with O => 0 | S p => nth p h 0 end)).

(** A block of loads replaced by its average. *)
Definition averaged (l : list R) : list R := repeat (mean l) (length l).

(** Width-weighted total of a row of aggregated loads. *)
Definition energy (w q : list R) : R := sumn (length w) (fun k => nth k w 0 * nth k q 0).

(** Start (in steps before now) of cell [k] of a grid of widths [w]. *)
Definition left_edge (w : list R) (k : nat) : R := sumn k (fun i => nth i w 0).

(** Age-weighted total of the aggregated loads, ages measured at cell starts. *)
Definition age_moment (w q : list R) : R :=
  sumn (length w) (fun k => left_edge w k * (nth k w 0 * nth k q 0)).
Definition history_moment (h : list R) : R :=
  sumn (length h) (fun m => INR (length h - 1 - m) * nth m h 0).

(** What leaves through the oldest cell during a run of ClaessonJaved. *)
Fixpoint cj_expelled (s : cj) (src : nat) (ops : list op) : R :=
  match ops with
  | [] => 0
  | o :: r =>
      match cj_step s o with
      | None => 0
      | Some s' =>
          (match o with
           | Next => nth (length (cj_w s) - 1) (nth src (cj_q s) []) 0
           | SetLoad _ => 0
           end) + cj_expelled s' src r
      end
  end.

(** Linear combination of two simulations of the same shape. *)
Fixpoint combine_ops (a b : R) (o1 o2 : list op) : option (list op) :=
  match o1, o2 with
  | [], [] => Some []
  | Next :: r1, Next :: r2 =>
      match combine_ops a b r1 r2 with Some r => Some (Next :: r) | None => None end
  | SetLoad q1 :: r1, SetLoad q2 :: r2 =>
      if (length q1 =? length q2)%nat then
        match combine_ops a b r1 r2 with
        | Some r => Some (SetLoad (map (fun p => a * fst p + b * snd p) (combine q1 q2)) :: r)
        | None => None end
      else None
  | _, _ => None
  end.

(** How MLAA may blur a history of [n] steps: the latest [N0] loads verbatim,
    then (from recent to old) one average over [N1], one over [N2], one over
    [N3] steps once enough history exists, and one average over the rest. *)
Definition ml_blocks (N0 N1 N2 N3 n : nat) (h B4 B3 B2 B1 R0 : list R) : Prop :=
  h = B4 ++ B3 ++ B2 ++ B1 ++ R0
  /\ length R0 = Nat.min n N0
  /\ length B1 = (if (N0 + N1 <=? n)%nat then N1 else O)
  /\ length B2 = (if (N0 + N1 + N2 <=? n)%nat then N2 else O)
  /\ length B3 = (if (N0 + N1 + N2 + N3 <=? n)%nat then N3 else O).


(** How Liu's scheme may blur a history: whole blocks of N1, N1*N2, N1*N2*N3
    steps (oldest first), the latest loads verbatim, and at least the waiting
    periods kept at each level before coarser cells exist. *)
Definition liu_blocks (N1 N2 N3 W1 W2 W3 : nat) (h : list R) (Ls Ms Ss : list (list R)) (R0 : list R) : Prop :=
  h = concat Ls ++ concat Ms ++ concat Ss ++ R0
  /\ Forall (fun b => length b = N1) Ss
  /\ Forall (fun b => length b = (N1 * N2)%nat) Ms
  /\ Forall (fun b => length b = (N1 * N2 * N3)%nat) Ls
  /\ (1 <= length R0 < N1 + W1)%nat /\ (length Ss < N2 + W2)%nat /\ (length Ms < N3 + W3)%nat
  /\ ((Ss = [] /\ Ms = [] /\ Ls = []) \/ (W1 <= length R0)%nat)
  /\ ((Ms = [] /\ Ls = []) \/ (W2 <= length Ss)%nat)
  /\ (Ls = [] \/ (W3 <= length Ms)%nat).

(** Increasing cell times. *)
Definition good_times (dt : R) (time : list R) : Prop :=
  0 < dt /\ time <> [] /\ forall k, (S k < length time)%nat -> nth k time 0 < nth (S k) time 0.

(** Loads within a range. *)
Definition load_in (lo hi : R) (o : op) : Prop :=
  match o with Next => True | SetLoad q => forall x, In x q -> lo <= x <= hi end.
