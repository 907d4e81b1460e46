(** Fields of different shapes that hold the same boreholes. *)
From Coq Require Import String Reals Lra Lia List Permutation.
From Verif Require Import Base LinAlg TimeGrid_Model FLS_Model.
From Verif Require Import Bore_Model Bore_Spec Field_Model Field_Spec Field_Props Whole_Model Net_Model Solve_Model Detailed_Model Detailed_Spec
  GFun_Model GFun_Spec Sym_Spec Sym_Props Whole_Spec Whole_Proofs Swap_Proofs.
Import ListNotations.
Local Open Scope R_scope.
Local Open Scope string_scope.

Lemma same_fields P Q m m' H D r o o' B1 B2 f f' : (forall i j, Q i j <-> P i j) ->
  built (lattice B1 B2) P m H D r 0 o (Some f) -> built (lattice B1 B2) Q m' H D r 0 o' (Some f') ->
  Permutation (to_boreholes f) (to_boreholes f').
Proof.
  intros E (f1 & E1 & _ & _ & (pts & Ep & Nd & In1) & S1) (f2 & E2 & _ & _ & (pts' & Ep' & Nd' & In2) & S2).
  injection E1 as <-. injection E2 as <-.
  rewrite (list_of_positions H D r o _ S1), (list_of_positions H D r o' _ S2), Ep, Ep'.
  apply Permutation_map, Permutation_map. apply NoDup_Permutation; [exact Nd|exact Nd'|].
  intros [i j]. rewrite In2, In1. symmetry. apply E.
Qed.

Lemma same_default link uw roots P Q m m' H D r o o' B1 B2 res res' :
  sr_exact_roots 8 (2 / 100) (roots 8%nat (2 / 100)) -> (forall i j, Q i j <-> P i j) ->
  built (lattice B1 B2) P m H D r 0 o res -> built (lattice B1 B2) Q m' H D r 0 o' res' -> 0 < H -> 0 <= D -> 0 < r ->
  exists f f', res = Some f /\ res' = Some f' /\ Permutation (to_boreholes f) (to_boreholes f') /\ forall alpha time bc,
  evaluate_g_function link uw roots f' alpha time "detailed" bc None = evaluate_g_function link uw roots f alpha time "detailed" bc None.
Proof.
  intros Ro E (f & -> & Rf) (f' & -> & Rf') PH PD Pr.
  assert (Pm : Permutation (to_boreholes f) (to_boreholes f')).
  { apply (same_fields P Q m m' H D r o o' B1 B2); [exact E|exists f; auto|exists f'; auto]. }
  exists f, f'. split; [reflexivity|]. split; [reflexivity|]. split; [exact Pm|]. intros alpha time bc.
  set (c := mkcall (GFun_Model.Field (to_boreholes f)) alpha time "detailed" (Some bc) VNone VNone VNone (usual_options roots 8)).
  change (gfunction link uw (with_boreholes c (to_boreholes f')) = gfunction link uw c).
  apply (C126_field link uw c (to_boreholes f) (to_boreholes f') 8 eq_refl Pm eq_refl).
  - split; [reflexivity|]. exact (proj1 (usual_good roots 8 Ro ltac:(lia))).
  - exact (proj2 (whole_segmented roots 8 Ro ltac:(lia) (to_boreholes f) alpha "detailed" (Some bc) time)).
  - intros b Hb. destruct Rf as (_ & _ & _ & S1). destruct (S1 b Hb) as (E1 & E2 & E3 & A & B).
    rewrite E1, E2, E3. split; [|auto].
    destruct (Rlt_le_dec (sqrt ((bx b - fst o) ^ 2 + (by_ b - snd o) ^ 2)) r) as [K|K]; [apply (A K)|apply (B K)].
Qed.
