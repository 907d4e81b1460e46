(** Fields assembled from parts: C172. *)
From Coq Require Import String Reals Lra Lia List Permutation.
From Verif Require Import Base LinAlg TimeGrid_Model FLS_Model.
From Verif Require Import Bore_Model Bore_Spec Field_Model Field_Spec Field_Proofs Field_Props Assemble_Spec Whole_Model Net_Model Solve_Model Detailed_Model Detailed_Spec
  GFun_Model GFun_Spec Sym_Spec Def_Spec Whole_Spec Whole_Proofs Whole_Field_Proofs Whole_Props Assemble_Proofs.
Import ListNotations.
Local Open Scope R_scope.
Local Open Scope string_scope.
Local Open Scope list_scope.

(** * C172 *)

(** The boreholes of a sum: those of the left operand, then those of the right one. *)
Theorem C172_sum a b la lb : operand_ok a -> operand_ok b -> is_list a && is_list b = false -> holds a la -> holds b lb ->
  exists f, add a b = Some (OField f) /\ holds (OField f) (la ++ lb).
Proof.
  intros Ka Kb N Ha Hb. destruct (sum_field a b Ka Kb N) as (f & E & _ & L). exists f. split; [exact E|].
  rewrite <- (holds_list a la Ha), <- (holds_list b lb Hb), <- L. exact (list_holds (OField f)).
Qed.
Print Assumptions C172_sum.

(** The order of the operands of + does not change the g-function. *)
Theorem C172_commute link uw roots a b la lb :
  sr_exact_roots 8 (2 / 100) (roots 8%nat (2 / 100)) -> operand_ok a -> operand_ok b -> is_list a && is_list b = false ->
  holds a la -> holds b lb -> upright la -> upright lb ->
  exists f f', add a b = Some (OField f) /\ add b a = Some (OField f') /\ forall alpha time bc,
  evaluate_g_function link uw roots f' alpha time "detailed" bc None = evaluate_g_function link uw roots f alpha time "detailed" bc None.
Proof.
  intros Ro Ka Kb N Ha Hb Ua Ub. destruct (sum_field a b Ka Kb N) as (f & E & _ & L). rewrite Bool.andb_comm in N.
  destruct (sum_field b a Kb Ka N) as (f' & E' & _ & L'). exists f, f'. split; [exact E|]. split; [exact E'|]. intros alpha time bc.
  apply same_boreholes; [exact Ro| |rewrite L, L'; apply Permutation_app_comm].
  rewrite L, (holds_list a la Ha), (holds_list b lb Hb). intros x Hx. apply in_app_or in Hx. destruct Hx; auto.
Qed.
Print Assumptions C172_commute.

(** A field assembled from parts that hold the boreholes of another field has its g-function. *)
Theorem C172_parts link uw roots a b g la lb lg :
  sr_exact_roots 8 (2 / 100) (roots 8%nat (2 / 100)) -> operand_ok a -> operand_ok b -> is_list a && is_list b = false ->
  holds a la -> holds b lb -> holds (OField g) lg -> upright lg -> Permutation (la ++ lb) lg ->
  exists f, add a b = Some (OField f) /\ forall alpha time bc,
  evaluate_g_function link uw roots f alpha time "detailed" bc None = evaluate_g_function link uw roots g alpha time "detailed" bc None.
Proof.
  intros Ro Ka Kb N Ha Hb Hg U Pm. destruct (sum_field a b Ka Kb N) as (f & E & _ & L). exists f. split; [exact E|]. intros alpha time bc.
  pose proof (holds_list (OField g) lg Hg) as Lg. cbn [operand_list] in Lg.
  apply same_boreholes; [exact Ro|rewrite Lg; exact U|]. rewrite L, Lg, (holds_list a la Ha), (holds_list b lb Hb). symmetry. exact Pm.
Qed.
Print Assumptions C172_parts.

(** Two slices that together take every borehole once, put together again. *)
Theorem C172_slices link uw roots g ks ks' :
  sr_exact_roots 8 (2 / 100) (roots 8%nat (2 / 100)) -> field_ok g -> upright (to_boreholes g) ->
  Permutation (ks ++ ks') (seq 0 (List.length (to_boreholes g))) ->
  exists p p' f, getitems g ks = Some p /\ getitems g ks' = Some p' /\ add (OField p) (OField p') = Some (OField f) /\ forall alpha time bc,
  evaluate_g_function link uw roots f alpha time "detailed" bc None = evaluate_g_function link uw roots g alpha time "detailed" bc None.
Proof.
  intros Ro K U Pm.
  assert (Lt : forall k, In k (ks ++ ks') -> (k < nBoreholes g)%nat).
  { intros k Hk. rewrite <- to_boreholes_length. apply (Permutation_in k Pm) in Hk. apply in_seq in Hk. lia. }
  destruct (C18_slice g ks K) as (p & E & Kp & Lp); [intros k Hk; apply Lt, in_or_app; auto|].
  destruct (C18_slice g ks' K) as (p' & E' & Kp' & Lp'); [intros k Hk; apply Lt, in_or_app; auto|].
  destruct (C172_parts link uw roots (OField p) (OField p') g _ _ _ Ro Kp Kp' eq_refl (list_holds (OField p)) (list_holds (OField p')) (list_holds (OField g)) U) as (f & Ef & Q).
  { cbn [operand_list]. rewrite Lp, Lp', <- map_app. apply indexed_all. exact Pm. }
  exists p, p', f. auto.
Qed.
Print Assumptions C172_slices.

(** A rectangle of 3 by 2 boreholes cut in even and odd places and put together again. *)
Example C172_ex link uw : exists roots g p p' f v, rectangle_field 3 2 5 7 150 4 (75 / 1000) 0 None = Some g /\
  getitems g [0; 2; 4]%nat = Some p /\ getitems g [1; 3; 5]%nat = Some p' /\ add (OField p) (OField p') = Some (OField f) /\ List.length v = 3%nat /\
  evaluate_g_function link uw roots f (1 / 10 ^ 6) (VArr [3600; 7200; 36000]) "detailed" "UBWT" None = Some (G1 v).
Proof.
  destruct ex_roots as [roots Ro].
  destruct (C14_rectangle 3 2 5 7 150 4 (75 / 1000) 0 None) as (g & E & K & L & _ & S).
  destruct (lattice_spread _ _ _ _ _ _ _ _ _ (C14_rectangle 3 2 5 7 150 4 (75 / 1000) 0 None) ltac:(lia) ltac:(lra) ltac:(lra) ltac:(lra) ltac:(lra) ltac:(lra)) as (f1 & E1 & _ & Sp).
  rewrite E in E1. injection E1 as <-.
  assert (U : upright (to_boreholes g)).
  { intros b Hb. destruct (S b Hb) as (A1 & A2 & A3 & A & B). rewrite A1, A2, A3. split; [|lra].
    destruct (Rlt_le_dec (sqrt ((bx b - fst (center 3 2 5 7 None)) ^ 2 + (by_ b - snd (center 3 2 5 7 None)) ^ 2)) (75 / 1000)) as [Q|Q]; [apply (A Q)|apply (B Q)]. }
  destruct (C172_slices link uw roots g [0; 2; 4]%nat [1; 3; 5]%nat Ro K U) as (p & p' & f & Ep & Ep' & Ef & Q).
  { rewrite L. apply NoDup_Permutation; [repeat constructor; cbn; lia|apply seq_NoDup|]. intros x. rewrite in_seq. cbn. lia. }
  destruct (C124_field link uw roots 8%nat g (1 / 10 ^ 6) [3600; 7200; 36000] "UBWT" Ro ltac:(lia) Sp ltac:(lra)) as (v & Ev & Lv); [|auto|].
  { split; [discriminate|]. split; repeat constructor; lra. }
  exists roots, g, p, p', f, v. repeat (split; [assumption|]). rewrite Q. exact Ev.
Qed.
