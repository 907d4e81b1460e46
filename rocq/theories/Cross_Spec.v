(** Specification of cross-sections with any number of pipes. *)
From Verif Require Import Base LinAlg Bore_Model Net_Model Pipe_Model Res_Model Res_Spec.
Import ListNotations.
Local Open Scope R_scope.

(** Pipes of any radii inside the borehole, side by side; they may touch. *)
Definition pipes_fit (a : rargs) : Prop :=
  length (a_rout a) = length (a_pos a) /\ length (a_Rfp a) = length (a_pos a)
  /\ 0 < a_rb a /\ 0 < a_ks a /\ 0 < a_kg a
  /\ (forall i, (i < length (a_pos a))%nat ->
        0 < nth i (a_rout a) 0 /\ 0 < nth i (a_Rfp a) 0 /\ sqrt (p_x a i ^ 2 + p_y a i ^ 2) + nth i (a_rout a) 0 <= a_rb a)
  /\ (forall i j, (i < length (a_pos a))%nat -> (j < length (a_pos a))%nat -> i <> j ->
        nth i (a_rout a) 0 + nth j (a_rout a) 0 <= sqrt ((p_x a i - p_x a j) ^ 2 + (p_y a i - p_y a j) ^ 2)).

(** Heat flows times temperatures above the wall *)
Definition lost_work (n : nat) (Rm : Mx) (q : nat -> R) : R := sumn n (fun i => q i * sumn n (fun j => Rm i j * q j)).

Definition some_flow (n : nat) (q : nat -> R) : Prop := exists i, (i < n)%nat /\ q i <> 0.

(** A cross-section that conducts better: the same pipes at the same places and maybe
    more pipes, not smaller, not less conductive, with resistances that are not larger. *)
Definition conducts_better (a b : rargs) : Prop :=
  a_pos a = firstn (length (a_pos a)) (a_pos b) /\ a_rb a = a_rb b /\ a_ks a <= a_ks b /\ a_kg a <= a_kg b
  /\ (forall i, (i < length (a_pos a))%nat -> nth i (a_rout a) 0 <= nth i (a_rout b) 0 /\ nth i (a_Rfp b) 0 <= nth i (a_Rfp a) 0).
