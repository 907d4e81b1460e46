(** Fields laid along the other axis: C170. *)
From Coq Require Import String Reals Lra Lia List.
From Verif Require Import Base LinAlg TimeGrid_Model FLS_Model.
From Verif Require Import Bore_Model Bore_Spec Field_Model Field_Spec Field_Props Whole_Model Net_Model Solve_Model Detailed_Model Detailed_Spec
  GFun_Model GFun_Spec GFun_Props Sym_Spec Def_Spec Whole_Spec Whole_Proofs Whole_Field_Proofs Whole_Props GFun_Pair_Proofs Swap_Proofs Swap_Pair_Proofs.
Import ListNotations.
Local Open Scope R_scope.
Local Open Scope string_scope.

(** * C170 *)

(** Two fields of vertical boreholes at the same places of lattices with exchanged axes
    have the same g-function, with any options that give one number of segments and one
    list of ratios to all boreholes. *)
Theorem C170_lattice link uw roots P m m' H D r o o' B1 B2 f f' alpha time bc n opt :
  built (lattice B1 B2) P m H D r 0 o (Some f) -> built (lattice B2 B1) (fun i j => P j i) m' H D r 0 o' (Some f') ->
  0 < H -> 0 <= D -> 0 < r -> same_segments opt n ->
  good_ratios (format_ratios (List.length (to_boreholes f)) (repeat n (List.length (to_boreholes f))) (o_r opt)) ->
  evaluate_g_function link uw roots f' alpha time "detailed" bc (Some opt) = evaluate_g_function link uw roots f alpha time "detailed" bc (Some opt).
Proof. exact (swapped_gfunction link uw roots P m m' H D r o o' B1 B2 f f' alpha time bc n opt). Qed.
Print Assumptions C170_lattice.

Theorem C170_rectangle link uw roots N1 N2 B1 B2 H D r orient orient' :
  sr_exact_roots 8 (2 / 100) (roots 8%nat (2 / 100)) -> 0 < H -> 0 <= D -> 0 < r ->
  exists f f', rectangle_field N1 N2 B1 B2 H D r 0 orient = Some f /\ rectangle_field N2 N1 B2 B1 H D r 0 orient' = Some f' /\ forall alpha time bc,
  evaluate_g_function link uw roots f' alpha time "detailed" bc None = evaluate_g_function link uw roots f alpha time "detailed" bc None.
Proof.
  intros Ro PH PD Pr. apply (swapped_default link uw roots _ _ _ _ _ _ _ _ _ _ _ _ _ Ro (C14_rectangle N1 N2 B1 B2 H D r 0 orient) (C14_rectangle N2 N1 B2 B1 H D r 0 orient')); auto.
  intros i j. cbv beta. lia.
Qed.
Print Assumptions C170_rectangle.

Theorem C170_L link uw roots N1 N2 B1 B2 H D r orient orient' :
  sr_exact_roots 8 (2 / 100) (roots 8%nat (2 / 100)) -> 0 < H -> 0 <= D -> 0 < r -> (1 <= N1)%nat -> (1 <= N2)%nat ->
  exists f f', L_field N1 N2 B1 B2 H D r 0 orient = Some f /\ L_field N2 N1 B2 B1 H D r 0 orient' = Some f' /\ forall alpha time bc,
  evaluate_g_function link uw roots f' alpha time "detailed" bc None = evaluate_g_function link uw roots f alpha time "detailed" bc None.
Proof.
  intros Ro PH PD Pr P1 P2. apply (swapped_default link uw roots _ _ _ _ _ _ _ _ _ _ _ _ _ Ro (C15_L N1 N2 B1 B2 H D r 0 orient P1 P2) (C15_L N2 N1 B2 B1 H D r 0 orient' P2 P1)); auto.
  intros i j. cbv beta. lia.
Qed.
Print Assumptions C170_L.

Theorem C170_box link uw roots N1 N2 B1 B2 H D r orient orient' :
  sr_exact_roots 8 (2 / 100) (roots 8%nat (2 / 100)) -> 0 < H -> 0 <= D -> 0 < r -> (1 <= N1)%nat -> (1 <= N2)%nat ->
  exists f f', box_field N1 N2 B1 B2 H D r 0 orient = Some f /\ box_field N2 N1 B2 B1 H D r 0 orient' = Some f' /\ forall alpha time bc,
  evaluate_g_function link uw roots f' alpha time "detailed" bc None = evaluate_g_function link uw roots f alpha time "detailed" bc None.
Proof.
  intros Ro PH PD Pr P1 P2. apply (swapped_default link uw roots _ _ _ _ _ _ _ _ _ _ _ _ _ Ro (C15_box N1 N2 B1 B2 H D r 0 orient P1 P2) (C15_box N2 N1 B2 B1 H D r 0 orient' P2 P1)); auto.
  intros i j. cbv beta. lia.
Qed.
Print Assumptions C170_box.

(** With method 'similarities', for fields that its tolerances do not confuse. *)
Theorem C170_similarities link uw roots P m m' H D r o o' B1 B2 f f' alpha time bc n opt u M u' M' :
  built (lattice B1 B2) P m H D r 0 o (Some f) -> built (lattice B2 B1) (fun i j => P j i) m' H D r 0 o' (Some f') ->
  0 < H -> 0 <= D -> 0 < r -> same_segments opt n ->
  sharp (mkcall (GFun_Model.Field (to_boreholes f)) alpha time "similarities" (Some bc) VNone VNone VNone opt) u M ->
  sharp (mkcall (GFun_Model.Field (to_boreholes f')) alpha time "similarities" (Some bc) VNone VNone VNone opt) u' M' ->
  evaluate_g_function link uw roots f' alpha time "similarities" bc (Some opt) = evaluate_g_function link uw roots f alpha time "similarities" bc (Some opt).
Proof.
  intros Bf Bf' PH PD Pr Ss Sh Sh'.
  etransitivity; [exact (C89_similarities link uw _ u' M' Sh')|]. etransitivity; [|symmetry; exact (C89_similarities link uw _ u M Sh)].
  apply (C170_lattice link uw roots P m m' H D r o o' B1 B2 f f' alpha time bc n opt Bf Bf' PH PD Pr Ss).
  destruct Sh as (_ & _ & G & _). unfold ratios_of, segments_of in G. cbn [boreholes_of c_source c_options] in G. rewrite (proj1 Ss) in G. exact G.
Qed.
Print Assumptions C170_similarities.

(** A field of 3 by 2 boreholes, 5 m and 7 m apart: both fields have a g-function, the same. *)
Example C170_ex link uw : exists roots f f' g, rectangle_field 3 2 5 7 150 4 (75 / 1000) 0 None = Some f /\ rectangle_field 2 3 7 5 150 4 (75 / 1000) 0 None = Some f' /\
  List.length g = 3%nat /\
  evaluate_g_function link uw roots f (1 / 10 ^ 6) (VArr [3600; 7200; 36000]) "detailed" "UBWT" None = Some (G1 g) /\
  evaluate_g_function link uw roots f' (1 / 10 ^ 6) (VArr [3600; 7200; 36000]) "detailed" "UBWT" None = Some (G1 g).
Proof.
  destruct ex_roots as [roots Ro].
  destruct (C170_rectangle link uw roots 3 2 5 7 150 4 (75 / 1000) None None Ro ltac:(lra) ltac:(lra) ltac:(lra)) as (f & f' & E & E' & K).
  destruct (lattice_spread _ _ _ _ _ _ _ _ _ (C14_rectangle 3 2 5 7 150 4 (75 / 1000) 0 None) ltac:(lia) ltac:(lra) ltac:(lra) ltac:(lra) ltac:(lra) ltac:(lra)) as (f1 & E1 & _ & Sp).
  rewrite E in E1. injection E1 as <-.
  destruct (C124_field link uw roots 8%nat f (1 / 10 ^ 6) [3600; 7200; 36000] "UBWT" Ro ltac:(lia) Sp ltac:(lra)) as (g & Eg & Lg); [|auto|].
  { split; [discriminate|]. split; repeat constructor; lra. }
  exists roots, f, f', g. split; [exact E|]. split; [exact E'|]. split; [exact Lg|]. split; [exact Eg|]. rewrite K. exact Eg.
Qed.

(** Two boreholes in a row and in a column, with similarities. *)
Example C170_similarities_ex link uw roots alpha time bc : exists f f',
  rectangle_field 2 1 5 7 100 4 (3 / 40) 0 None = Some f /\ rectangle_field 1 2 7 5 100 4 (3 / 40) 0 None = Some f' /\
  evaluate_g_function link uw roots f' alpha time "similarities" bc (Some pair_options) = evaluate_g_function link uw roots f alpha time "similarities" bc (Some pair_options).
Proof.
  pose proof (C14_rectangle 2 1 5 7 100 4 (3 / 40) 0 None) as Bf. pose proof (C14_rectangle 1 2 7 5 100 4 (3 / 40) 0 None) as Bf'.
  destruct (rectangle_field 2 1 5 7 100 4 (3 / 40) 0 None) as [f|] eqn:E; [|destruct Bf as (f & Q & _); discriminate].
  destruct (rectangle_field 1 2 7 5 100 4 (3 / 40) 0 None) as [f'|] eqn:E'; [|destruct Bf' as (f' & Q & _); discriminate].
  exists f, f'. split; [reflexivity|]. split; [reflexivity|].
  apply (built_iff _ _ (fun i j => j < 2 /\ i < 1)%nat) in Bf'; [|intros i j; lia].
  apply (C170_similarities link uw roots _ _ _ _ _ _ _ _ _ _ f f' alpha time bc 1 pair_options 1 104 1 104 Bf Bf'); try lra.
  - split; reflexivity.
  - rewrite (row_list f E). apply duo_sharp. lra.
  - rewrite (column_list f' E'). apply duo_sharp. lra.
Qed.
