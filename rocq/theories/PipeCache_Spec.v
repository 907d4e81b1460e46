(* Specification of the queries of a pipe object: what a new object answers. *)
From Coq Require Import Reals List Bool.
From Verif Require Import Base LinAlg Bore_Model Net_Model Pipe_Model Pipe_Spec PipeCache_Model.
Import ListNotations.
Local Open Scope R_scope.

(* The tube after a sequence of requests: only the updates change it. *)
Fixpoint tube_after (l : list request) (u : utube) : utube :=
  match l with
  | [] => u
  | Update Rd :: l' => tube_after l' (mkutube Rd (u_b u) (u_reversible u))
  | _ :: l' => tube_after l' u
  end.

Definition call_of (q : request) : option call :=
  match q with
  | AskInlet g | AskOutlet g | AskTemperature _ g | AskHeat g | AskFluid g => Some g
  | Update _ => None
  end.

(* What a new object answers to a request *)
Definition answer_of (u : utube) (q : request) : result :=
  match q with
  | AskInlet g => match inlet u (c_m g) (c_cp g) (c_n g) (c_r g) with Some c => RScal c | None => RError end
  | AskOutlet g => RScal (outlet u (c_m g) (c_cp g) (c_n g) (c_r g))
  | AskTemperature z g => RTemp (temperature u (c_m g) (c_cp g) (c_n g) (c_r g) z)
  | AskHeat g => RHeat (borehole_heat u (c_m g) (c_cp g) (c_n g) (c_r g))
  | AskFluid g => RScal (fluid_heat u (c_m g) (c_cp g) (c_n g) (c_r g))
  | Update _ => RDone
  end.

(* Usable calls: positive heat capacity, one ratio per segment *)
Definition good_call1 (g : call) : Prop :=
  0 < c_cp g /\ match c_r g with Some l => length l = c_n g | None => True end.

(* Two numbers are the same or differ by more than the relative tolerance. *)
Definition apart (x y : R) : Prop := x = y \/ Rabs y / 1000000 <= Rabs (x - y).

(* Two calls with the same number of segments have heat capacity rates that are
   equal or apart, and ratios that are equal or apart somewhere. *)
Definition distinct (g h : call) : Prop :=
  c_n g = c_n h ->
  apart (c_m g * c_cp g) (c_m h * c_cp h)
  /\ (c_r g = c_r h
      \/ forall l s, c_r g = Some l -> c_r h = Some s ->
         exists i, (i < c_n g)%nat /\ Rabs (nth i s 0) / 1000000 <= Rabs (nth i l 0 - nth i s 0)).

(* The flow goes the same way in both calls. *)
Definition same_way (g h : call) : Prop := (c_m g < 0 <-> c_m h < 0).
