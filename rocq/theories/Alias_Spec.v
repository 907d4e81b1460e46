(* The same events with values in place of references. *)
From Coq Require Import Reals List Bool Arith.
From Verif Require Import Base LinAlg Bore_Model Net_Model Pipe_Model PipeCache_Model Alias_Model.
Import ListNotations.

(* A request with the ratios that its array contains *)
Definition by_value (h : heap) (e : event) : option request :=
  match e with
  | GetInlet g => Some (AskInlet (deref h g))
  | GetOutlet g => Some (AskOutlet (deref h g))
  | GetTemperature z g => Some (AskTemperature z (deref h g))
  | GetHeat g => Some (AskHeat (deref h g))
  | GetFluid g => Some (AskFluid (deref h g))
  | NewResistances Rd => Some (Update Rd)
  | _ => None
  end.

(* The contents of the arrays after a sequence of events *)
Fixpoint contents (l : list event) (h : heap) : heap :=
  match l with
  | [] => h
  | WriteArray a v :: l => contents l (fun i => if Nat.eqb i a then v else h i)
  | _ :: l => contents l h
  end.

(* The requests of a sequence of events, each with what the arrays contain at that moment *)
Fixpoint requests (l : list event) (h : heap) : list request :=
  match l with
  | [] => []
  | e :: l =>
      let h' := contents [e] h in
      match by_value h e with Some q => q :: requests l h' | None => requests l h' end
  end.

(* The array that an event hands to the object *)
Definition array_of (e : event) : option nat :=
  match e with
  | GetInlet g | GetOutlet g | GetTemperature _ g | GetHeat g | GetFluid g => r_a g
  | _ => None
  end.

(* The caller writes in no result, and in no array that it has handed over before *)
Fixpoint careful (given : list nat) (l : list event) : Prop :=
  match l with
  | [] => True
  | WriteResult _ _ :: _ => False
  | WriteArray a _ :: l => ~ In a given /\ careful given l
  | e :: l => careful (match array_of e with Some a => a :: given | None => given end) l
  end.
