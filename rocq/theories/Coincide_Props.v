(** Fields of different shapes that hold the same boreholes: C171. *)
From Coq Require Import String Reals Lra Lia List Permutation.
From Verif Require Import Base LinAlg TimeGrid_Model FLS_Model.
From Verif Require Import Bore_Model Bore_Spec Field_Model Field_Spec Field_Props Whole_Model Net_Model Solve_Model Detailed_Model Detailed_Spec
  GFun_Model GFun_Spec Sym_Spec Def_Spec Whole_Spec Whole_Proofs Whole_Field_Proofs Whole_Props Coincide_Proofs.
Import ListNotations.
Local Open Scope R_scope.
Local Open Scope string_scope.

(** * C171 *)

(** A box with at most two boreholes along a side is the full rectangle. *)
Theorem C171_box link uw roots N1 N2 B1 B2 H D r orient orient' :
  sr_exact_roots 8 (2 / 100) (roots 8%nat (2 / 100)) -> 0 < H -> 0 <= D -> 0 < r -> (1 <= N1)%nat -> (1 <= N2)%nat -> (N1 <= 2 \/ N2 <= 2)%nat ->
  exists f f', rectangle_field N1 N2 B1 B2 H D r 0 orient = Some f /\ box_field N1 N2 B1 B2 H D r 0 orient' = Some f' /\
  Permutation (to_boreholes f) (to_boreholes f') /\ forall alpha time bc,
  evaluate_g_function link uw roots f' alpha time "detailed" bc None = evaluate_g_function link uw roots f alpha time "detailed" bc None.
Proof.
  intros Ro PH PD Pr P1 P2 S. apply (fun E => same_default link uw roots _ _ _ _ _ _ _ _ _ _ _ _ _ Ro E (C14_rectangle N1 N2 B1 B2 H D r 0 orient) (C15_box N1 N2 B1 B2 H D r 0 orient' P1 P2)); auto.
  intros i j. cbv beta. lia.
Qed.
Print Assumptions C171_box.

(** A U with at most two boreholes along its base, or none on its legs, is the full rectangle. *)
Theorem C171_U link uw roots N1 N2 B1 B2 H D r orient orient' :
  sr_exact_roots 8 (2 / 100) (roots 8%nat (2 / 100)) -> 0 < H -> 0 <= D -> 0 < r -> (1 <= N1)%nat -> (1 <= N2)%nat -> (N1 <= 2 \/ N2 = 1)%nat ->
  exists f f', rectangle_field N1 N2 B1 B2 H D r 0 orient = Some f /\ U_field N1 N2 B1 B2 H D r 0 orient' = Some f' /\
  Permutation (to_boreholes f) (to_boreholes f') /\ forall alpha time bc,
  evaluate_g_function link uw roots f' alpha time "detailed" bc None = evaluate_g_function link uw roots f alpha time "detailed" bc None.
Proof.
  intros Ro PH PD Pr P1 P2 S. apply (fun E => same_default link uw roots _ _ _ _ _ _ _ _ _ _ _ _ _ Ro E (C14_rectangle N1 N2 B1 B2 H D r 0 orient) (C15_U N1 N2 B1 B2 H D r 0 orient' P1 P2)); auto.
  intros i j. cbv beta. lia.
Qed.
Print Assumptions C171_U.

(** An L with a single leg is a line of boreholes. *)
Theorem C171_L link uw roots N1 N2 B1 B2 H D r orient orient' :
  sr_exact_roots 8 (2 / 100) (roots 8%nat (2 / 100)) -> 0 < H -> 0 <= D -> 0 < r -> (1 <= N1)%nat -> (1 <= N2)%nat -> (N1 = 1 \/ N2 = 1)%nat ->
  exists f f', rectangle_field N1 N2 B1 B2 H D r 0 orient = Some f /\ L_field N1 N2 B1 B2 H D r 0 orient' = Some f' /\
  Permutation (to_boreholes f) (to_boreholes f') /\ forall alpha time bc,
  evaluate_g_function link uw roots f' alpha time "detailed" bc None = evaluate_g_function link uw roots f alpha time "detailed" bc None.
Proof.
  intros Ro PH PD Pr P1 P2 S. apply (fun E => same_default link uw roots _ _ _ _ _ _ _ _ _ _ _ _ _ Ro E (C14_rectangle N1 N2 B1 B2 H D r 0 orient) (C15_L N1 N2 B1 B2 H D r 0 orient' P1 P2)); auto.
  intros i j. cbv beta. lia.
Qed.
Print Assumptions C171_L.

(** The conditions are needed: a box of 3 by 3 has one borehole less than the rectangle. *)
Theorem C171_counts H D r f f' : rectangle_field 3 3 5 7 H D r 0 None = Some f -> box_field 3 3 5 7 H D r 0 None = Some f' ->
  ~ Permutation (to_boreholes f) (to_boreholes f').
Proof.
  intros E E' Pm. apply Permutation_length in Pm.
  destruct (C14_rectangle 3 3 5 7 H D r 0 None) as (f1 & E1 & _ & L1 & _). destruct (C15_box 3 3 5 7 H D r 0 None ltac:(lia) ltac:(lia)) as (f2 & E2 & _ & L2 & _).
  rewrite E in E1. injection E1 as <-. rewrite E' in E2. injection E2 as <-. rewrite L1, L2 in Pm. discriminate.
Qed.
Print Assumptions C171_counts.

(** A box of 2 by 4 boreholes: both fields have a g-function, the same. *)
Example C171_ex link uw : exists roots f f' g, rectangle_field 2 4 5 7 150 4 (75 / 1000) 0 None = Some f /\ box_field 2 4 5 7 150 4 (75 / 1000) 0 None = Some f' /\
  List.length g = 3%nat /\
  evaluate_g_function link uw roots f (1 / 10 ^ 6) (VArr [3600; 7200; 36000]) "detailed" "UBWT" None = Some (G1 g) /\
  evaluate_g_function link uw roots f' (1 / 10 ^ 6) (VArr [3600; 7200; 36000]) "detailed" "UBWT" None = Some (G1 g).
Proof.
  destruct ex_roots as [roots Ro].
  destruct (C171_box link uw roots 2 4 5 7 150 4 (75 / 1000) None None Ro ltac:(lra) ltac:(lra) ltac:(lra) ltac:(lia) ltac:(lia) ltac:(lia)) as (f & f' & E & E' & _ & K).
  destruct (lattice_spread _ _ _ _ _ _ _ _ _ (C14_rectangle 2 4 5 7 150 4 (75 / 1000) 0 None) ltac:(lia) ltac:(lra) ltac:(lra) ltac:(lra) ltac:(lra) ltac:(lra)) as (f1 & E1 & _ & Sp).
  rewrite E in E1. injection E1 as <-.
  destruct (C124_field link uw roots 8%nat f (1 / 10 ^ 6) [3600; 7200; 36000] "UBWT" Ro ltac:(lia) Sp ltac:(lra)) as (g & Eg & Lg); [|auto|].
  { split; [discriminate|]. split; repeat constructor; lra. }
  exists roots, f, f', g. split; [exact E|]. split; [exact E'|]. split; [exact Lg|]. split; [exact Eg|]. rewrite K. exact Eg.
Qed.
