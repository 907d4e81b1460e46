(** Fields assembled from parts. *)
From Coq Require Import String Reals Lra Lia ZArith List Permutation.
From Verif Require Import Base LinAlg TimeGrid_Model FLS_Model.
From Verif Require Import Bore_Model Bore_Spec Field_Model Field_Spec Field_Proofs Field_Props Assemble_Spec Whole_Model Net_Model Solve_Model Detailed_Model Detailed_Spec
  GFun_Model GFun_Spec Sym_Spec Sym_Props Whole_Spec Whole_Proofs.
Import ListNotations.
Local Open Scope R_scope.
Local Open Scope string_scope.
Local Open Scope list_scope.

Lemma same_boreholes link uw roots f f' alpha time bc :
  sr_exact_roots 8 (2 / 100) (roots 8%nat (2 / 100)) -> upright (to_boreholes f) -> Permutation (to_boreholes f) (to_boreholes f') ->
  evaluate_g_function link uw roots f' alpha time "detailed" bc None = evaluate_g_function link uw roots f alpha time "detailed" bc None.
Proof.
  intros Ro U Pm.
  set (c := mkcall (GFun_Model.Field (to_boreholes f)) alpha time "detailed" (Some bc) VNone VNone VNone (usual_options roots 8)).
  change (gfunction link uw (with_boreholes c (to_boreholes f')) = gfunction link uw c).
  apply (C126_field link uw c (to_boreholes f) (to_boreholes f') 8 eq_refl Pm eq_refl); [| |exact U].
  - split; [reflexivity|]. exact (proj1 (usual_good roots 8 Ro ltac:(lia))).
  - exact (proj2 (whole_segmented roots 8 Ro ltac:(lia) (to_boreholes f) alpha "detailed" (Some bc) time)).
Qed.

Lemma sum_field a b : operand_ok a -> operand_ok b -> is_list a && is_list b = false ->
  exists f, add a b = Some (OField f) /\ field_ok f /\ to_boreholes f = operand_list a ++ operand_list b.
Proof.
  intros Ka Kb N. destruct (C18_add a b Ka Kb) as (c & E & K & L & I & Nb). rewrite N in I.
  destruct c as [d|l|f]; [exfalso; exact (Nb d eq_refl)|discriminate|]. exists f. auto.
Qed.

Lemma indexed_all (l : list bore) ks : Permutation ks (seq 0 (List.length l)) -> Permutation (map (fun k => nth k l b0) ks) l.
Proof.
  intros Pm. transitivity (map (fun k => nth k l b0) (seq 0 (List.length l))); [apply Permutation_map; exact Pm|].
  replace (map (fun k => nth k l b0) (seq 0 (List.length l))) with l; [reflexivity|].
  apply (nth_ext _ _ b0 b0); [rewrite map_length, seq_length; reflexivity|]. intros i Hi.
  rewrite (nth_indep (map _ _) b0 (nth O l b0)) by (rewrite map_length, seq_length; exact Hi).
  rewrite (map_nth (fun k => nth k l b0)). rewrite seq_nth by exact Hi. reflexivity.
Qed.

Lemma py_index_nat {A} (l : list A) i : Field_Spec.py_index l (Z.of_nat i) = nth_error l i.
Proof.
  unfold Field_Spec.py_index. replace (Z.of_nat i <? 0)%Z with false by (symmetry; apply Z.ltb_ge; lia). rewrite Nat2Z.id. reflexivity.
Qed.

Lemma holds_list o l : holds o l -> operand_list o = l.
Proof.
  destruct o as [b|m|f]; cbn [holds operand_list]; auto. intros [L K].
  assert (Q : forall i, nth_error (to_boreholes f) i = nth_error l i).
  { intros i. destruct (Nat.ltb_spec i (nBoreholes f)) as [H|H].
    - rewrite <- (K i H), C18_index, py_index_nat. reflexivity.
    - rewrite (proj2 (nth_error_None _ _)) by (rewrite to_boreholes_length; exact H). symmetry. apply nth_error_None. lia. }
  clear - Q. revert l Q. induction (to_boreholes f) as [|x t IH]; intros [|y l] Q; auto.
  - discriminate (Q O).
  - discriminate (Q O).
  - pose proof (Q O) as E. cbn in E. injection E as ->. f_equal. apply IH. intros i. exact (Q (S i)).
Qed.

Lemma list_holds o : holds o (operand_list o).
Proof.
  destruct o as [b|m|f]; cbn [holds operand_list]; auto. split; [apply to_boreholes_length|]. intros i H.
  rewrite C18_index, py_index_nat. reflexivity.
Qed.
