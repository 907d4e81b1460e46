(* The same events with values in place of references. *)
From Coq Require Import Reals List Bool Arith.
From Verif Require Import Base LinAlg Net_Model NetAlias_Model.
Import ListNotations.

(* The contents of the arrays after a sequence of events *)
Fixpoint contents (l : list event) (h : heap) : heap :=
  match l with
  | [] => h
  | Write a v :: l => contents l (fun i => if Nat.eqb i a then v else h i)
  | Ask _ _ :: l => contents l h
  end.

(* The requests, each with what the arrays contain at that moment *)
Fixpoint requests (l : list event) (h : heap) : list (method * args) :=
  match l with
  | [] => []
  | Write a v :: l => requests l (fun i => if Nat.eqb i a then v else h i)
  | Ask k g :: l => (k, deref h g) :: requests l h
  end.

(* The caller writes in no array of flows that it has handed over before *)
Fixpoint careful (given : list nat) (l : list event) : Prop :=
  match l with
  | [] => True
  | Write a _ :: l => ~ In a given /\ careful given l
  | Ask _ g :: l => careful (match q_m g with Arr a => a :: given | Num _ => given end) l
  end.

(* Every statement that writes fills the array in place: it keeps the length *)
Fixpoint in_place (l : list event) (h : heap) : Prop :=
  match l with
  | [] => True
  | Write a v :: l => length v = length (h a) /\ in_place l (fun i => if Nat.eqb i a then v else h i)
  | Ask _ _ :: l => in_place l h
  end.
