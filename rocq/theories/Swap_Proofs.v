(** Fields whose two axes are exchanged. *)
From Coq Require Import String Reals Lra Lia List Permutation.
From Verif Require Import Base LinAlg TimeGrid_Model FLS_Model.
From Verif Require Import Bore_Model Bore_Spec Field_Model Field_Spec Field_Props Whole_Model Net_Model Solve_Model Detailed_Model Detailed_Spec
  GFun_Model GFun_Spec Sym_Spec Sym_Props Whole_Spec Whole_Proofs.
Import ListNotations.
Local Open Scope R_scope.
Local Open Scope string_scope.

Definition exchange : motion := mkmotion true (PI / 2) 0 0.
Definition upright_bore (H D r : R) (q : R * R) : bore := mk_bore H D r (fst q) (snd q) 0 0.

Lemma no_tilt : tilted 0 = false.
Proof. unfold tilted. apply Rltb_false. rewrite Rabs_R0. apply Rlt_le, Rinv_0_lt_compat, pow_lt. lra. Qed.

Lemma specified_upright H D r o b : as_specified H D r 0 o b -> b = upright_bore H D r (position b).
Proof.
  intros (E1 & E2 & E3 & A & B). destruct b as [h d rb x y t ori]. cbn [bH bD br bx by_ btilt bori] in *. subst.
  unfold upright_bore, mk_bore, position. rewrite no_tilt. cbn [fst snd bx by_].
  destruct (Rlt_le_dec (sqrt ((x - fst o) ^ 2 + (y - snd o) ^ 2)) r) as [K|K].
  - destruct (A K) as [-> ->]. reflexivity.
  - destruct (B K) as (-> & Z & _). rewrite (Z no_tilt). reflexivity.
Qed.

Lemma exchange_bore H D r q : moved exchange (upright_bore H D r q) = upright_bore H D r (snd q, fst q).
Proof.
  unfold moved, exchange, upright_bore, mk_bore. cbn [mo_mirror mo_turn mo_x mo_y bH bD br bx by_ btilt bori fst snd].
  rewrite no_tilt, cos_PI2, sin_PI2. f_equal; ring.
Qed.

Lemma list_of_positions H D r o l : (forall b, In b l -> as_specified H D r 0 o b) -> l = map (upright_bore H D r) (map position l).
Proof.
  intros S. rewrite map_map. rewrite <- (map_id l) at 1. apply map_ext_in. intros b Hb. apply (specified_upright H D r o). apply S. exact Hb.
Qed.

Lemma swapped_fields P m m' H D r o o' B1 B2 f f' :
  built (lattice B1 B2) P m H D r 0 o (Some f) -> built (lattice B2 B1) (fun i j => P j i) m' H D r 0 o' (Some f') ->
  Permutation (map (moved exchange) (to_boreholes f)) (to_boreholes f').
Proof.
  intros (f1 & E1 & _ & _ & (pts & Ep & Nd & In1) & S1) (f2 & E2 & _ & _ & (pts' & Ep' & Nd' & In2) & S2).
  injection E1 as <-. injection E2 as <-.
  rewrite (list_of_positions H D r o _ S1), (list_of_positions H D r o' _ S2), Ep, Ep'. rewrite !map_map.
  replace (map (fun x => moved exchange (upright_bore H D r (lattice B1 B2 (fst x) (snd x)))) pts)
    with (map (fun x => upright_bore H D r (lattice B2 B1 (fst x) (snd x))) (map (fun p : nat * nat => (snd p, fst p)) pts)).
  2:{ rewrite map_map. apply map_ext. intros [i j]. rewrite exchange_bore. reflexivity. }
  apply Permutation_map. apply NoDup_Permutation; [|exact Nd'|].
  - apply FinFun.Injective_map_NoDup; [|exact Nd]. intros [a b] [c d] E. injection E as -> ->. reflexivity.
  - intros [i j]. rewrite In2, <- In1. rewrite in_map_iff. split.
    + intros ([a b] & E & H0). injection E as <- <-. exact H0.
    + intros H0. exists (j, i). split; [reflexivity|exact H0].
Qed.

Lemma swapped_gfunction link uw roots P m m' H D r o o' B1 B2 f f' alpha time bc n opt :
  built (lattice B1 B2) P m H D r 0 o (Some f) -> built (lattice B2 B1) (fun i j => P j i) m' H D r 0 o' (Some f') ->
  0 < H -> 0 <= D -> 0 < r -> same_segments opt n ->
  good_ratios (format_ratios (List.length (to_boreholes f)) (repeat n (List.length (to_boreholes f))) (o_r opt)) ->
  evaluate_g_function link uw roots f' alpha time "detailed" bc (Some opt) = evaluate_g_function link uw roots f alpha time "detailed" bc (Some opt).
Proof.
  intros Bf Bf' PH PD Pr Ss Gr. pose proof (swapped_fields _ _ _ _ _ _ _ _ _ _ _ _ Bf Bf') as Pm.
  set (c := mkcall (GFun_Model.Field (to_boreholes f)) alpha time "detailed" (Some bc) VNone VNone VNone opt).
  assert (V : upright (to_boreholes f)).
  { intros b Hb. destruct Bf as (f1 & E1 & _ & _ & _ & S1). injection E1 as <-. destruct (S1 b Hb) as (E1 & E2 & E3 & A & B).
    rewrite E1, E2, E3. split; [|auto].
    destruct (Rlt_le_dec (sqrt ((bx b - fst o) ^ 2 + (by_ b - snd o) ^ 2)) r) as [K|K]; [apply (A K)|apply (B K)]. }
  assert (Um : upright (map (moved exchange) (to_boreholes f))).
  { intros b Hb. apply in_map_iff in Hb. destruct Hb as (a & <- & Ha). exact (V a Ha). }
  change (gfunction link uw (with_boreholes (moved_call exchange c) (to_boreholes f')) = gfunction link uw c).
  rewrite <- (C125_vertical exchange link uw c) by (intros b Hb; apply (V b Hb)).
  apply (C126_field link uw (moved_call exchange c) (map (moved exchange) (to_boreholes f)) (to_boreholes f') n eq_refl Pm eq_refl Ss); [|exact Um].
  unfold ratios_of, segments_of. cbn [boreholes_of moved_call moved_source c c_source c_options]. destruct Ss as [En _].
  rewrite map_length. rewrite En. cbn [format_segments]. exact Gr.
Qed.

Lemma built_iff emb P Q m H D r t o res : (forall i j, P i j <-> Q i j) -> built emb P m H D r t o res -> built emb Q m H D r t o res.
Proof.
  intros E (f & A & B & C & (pts & X & Y & Z) & F). exists f. split; [exact A|]. split; [exact B|]. split; [exact C|]. split; [|exact F].
  exists pts. split; [exact X|]. split; [exact Y|].
  intros i j. rewrite Z. apply E.
Qed.

Lemma swapped_default link uw roots P Q m m' H D r o o' B1 B2 res res' :
  sr_exact_roots 8 (2 / 100) (roots 8%nat (2 / 100)) ->
  built (lattice B1 B2) P m H D r 0 o res -> built (lattice B2 B1) Q m' H D r 0 o' res' -> (forall i j, Q i j <-> P j i) ->
  0 < H -> 0 <= D -> 0 < r ->
  exists f f', res = Some f /\ res' = Some f' /\ forall alpha time bc,
  evaluate_g_function link uw roots f' alpha time "detailed" bc None = evaluate_g_function link uw roots f alpha time "detailed" bc None.
Proof.
  intros Ro Bf Bf' E PH PD Pr. destruct Bf as (f & -> & Rf). destruct Bf' as (f' & -> & Rf').
  exists f, f'. split; [reflexivity|]. split; [reflexivity|]. intros alpha time bc.
  change (evaluate_g_function link uw roots f' alpha time "detailed" bc (Some (usual_options roots 8)) = evaluate_g_function link uw roots f alpha time "detailed" bc (Some (usual_options roots 8))).
  apply (swapped_gfunction link uw roots P m m' H D r o o' B1 B2 f f' alpha time bc 8 (usual_options roots 8)); auto.
  - exists f. auto.
  - apply (built_iff _ Q); [exact E|]. exists f'. auto.
  - split; [reflexivity|]. exact (proj1 (usual_good roots 8 Ro ltac:(lia))).
  - exact (proj2 (whole_segmented roots 8 Ro ltac:(lia) (to_boreholes f) alpha "detailed" (Some bc) time)).
Qed.
