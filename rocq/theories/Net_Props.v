(** Networks: C20 - C25, C57, C65 - C67. *)
From Coq Require Import Reals Lra Lia List ZArith Bool.
From Verif Require Import Base LinAlg Net_Model Net_Spec Net_Proofs Net_Coef_Proofs Net_Heat_Proofs Net_Cache_Proofs
  Net_More_Proofs Net_Equiv_Proofs Net_Extra_Proofs.
Import ListNotations.
Local Open Scope R_scope.

(** C20 *)
Theorem C20_accepts_chains n c : (exists N, build_net n (Some c) = Some N) <-> chains n c.
Proof. exact (build_iff n c). Qed.
Print Assumptions C20_accepts_chains.

(** C20: without connectivity, all boreholes are in parallel. *)
Theorem C20_default n : (exists N, build_net n None = Some N) <-> (0 < n)%nat.
Proof.
  change (build_net n None) with (build_net n (Some (repeat (-1)%Z n))). rewrite build_iff. split.
  - intro H. apply H.
  - apply default_chains.
Qed.
Print Assumptions C20_default.

(** C20: the inlets are the boreholes fed by the field, the outlets those that
    feed none, in borehole order and as many; each borehole knows the circuit
    that feeds it. *)
Theorem C20_structure n conn N : build_net n conn = Some N ->
  (forall i, In i (n_in N) <-> nth_error (n_c N) i = Some (-1)%Z)
  /\ (forall i, In i (n_out N) <-> (i < n)%nat /\ forall j, nth_error (n_c N) j <> Some (Z.of_nat i))
  /\ length (n_in N) = length (n_out N)
  /\ (forall i, (i < n)%nat -> (nth i (n_circ N) O < length (n_in N))%nat
                  /\ root (n_c N) i (nth (nth i (n_circ N) O) (n_in N) O)).
Proof.
  intro B. destruct (build_wf _ _ _ B) as [W En]. assert (L := nOut_nIn N W).
  destruct W as [C [E1 [E2 [_ P]]]]. split; [|split; [|split]].
  - intro i. rewrite E1. apply inlets_in.
  - intro i. rewrite E2, outlets_in. fold (nB N). rewrite En. tauto.
  - unfold nInlets in L. auto.
  - rewrite <- En. exact P.
Qed.
Print Assumptions C20_structure.

Example C20_example : (exists N, build_net 4 (Some [-1; -1; 1; 0]%Z) = Some N)
  /\ ~ chains 3 [-1; 2; 1]%Z /\ ~ chains 2 [-1; -2]%Z /\ ~ chains 3 [-1; 0; 0]%Z.
Proof.
  split; [exists crossed_net; reflexivity|].
  assert (X : forall n c, build_net n (Some c) = None -> ~ chains n c).
  { intros n c H Hc. apply C20_accepts_chains in Hc. destruct Hc as [N E]. congruence. }
  split; [apply X; reflexivity|]. split; apply X; reflexivity.
Qed.

(** C21 *)
Theorem C21_connections n conn N ps g F t Tb : build_net n conn = Some N -> good_args N ps g F ->
  exists a o, fresh N ps Inlet g = Some a /\ fresh N ps Outlet g = Some o
  /\ let tin := apply_coefs (seg_total (f_seg F)) a t Tb in
     let tout := apply_coefs (seg_total (f_seg F)) o t Tb in
     connected (n_c N) (f_rev F) t tin tout
     /\ forall i, (i < n)%nat -> tout i = bore_outlet ps F i (tin i) Tb.
Proof.
  intros B G. destruct (build_wf _ _ _ B) as [W En].
  destruct (coef_inlet_some N ps F W) as [a Ea]. destruct (coef_outlet_some N ps F W) as [o Eo].
  exists a, o. rewrite !(fresh_direct N ps _ g F W G). split; [auto|]. split; [auto|]. cbv zeta. split.
  - exact (coefs_connected N ps g F a o t Tb W G Ea Eo).
  - rewrite <- En. exact (in_out_consistent N ps g F a o t Tb W G Ea Eo).
Qed.
Print Assumptions C21_connections.

Theorem C21_unique n conn N ps F t Tb tin tout tin' tout' : build_net n conn = Some N ->
  connected (n_c N) (f_rev F) t tin tout ->
  (forall i, (i < n)%nat -> tout i = bore_outlet ps F i (tin i) Tb) ->
  connected (n_c N) (f_rev F) t tin' tout' ->
  (forall i, (i < n)%nat -> tout' i = bore_outlet ps F i (tin' i) Tb) ->
  forall i, (i < n)%nat -> tin i = tin' i /\ tout i = tout' i.
Proof.
  intro B. destruct (build_wf _ _ _ B) as [W En]. rewrite <- En. exact (connected_unique N ps F t Tb tin tout tin' tout' W).
Qed.
Print Assumptions C21_unique.

(** C21: the flow a borehole receives is the flow of its circuit. *)
Theorem C21_flow n conn N ps g F i j : build_net n conn = Some N -> good_args N ps g F ->
  (feeds (n_c N) (f_rev F) i j -> nth i (f_mb F) 0 = nth j (f_mb F) 0)
  /\ ((i < n)%nat -> nth i (f_mb F) 0 = nth (nth i (n_circ N) O) (f_m F) 0)
  /\ (f_rev F = false -> forall x, In x (g_m g) -> 0 <= x)
  /\ (f_rev F = true -> forall x, In x (g_m g) -> x <= 0)
  /\ (forall x, g_m g = [x] -> sumn (nInlets N) (fun k => nth k (f_m F) 0) = x).
Proof.
  intros B [Hf G]. destruct (build_wf _ _ _ B) as [W En].
  split; [|split; [|split; [|split]]].
  - intro H. destruct (feeds_lt _ _ _ _ _ (proj1 W) H) as [Hi Hj].
    rewrite !(mb_nth N g F _ W Hf) by auto. rewrite (feeds_circ N _ _ _ W H). auto.
  - intro Hi. apply (mb_nth N g F i W Hf). lia.
  - intros Hr x Hx. unfold format_inputs in Hf. destruct (format_flow N (g_m g)); [|discriminate].
    destruct (format_dir (g_m g)) as [r|] eqn:D; [|discriminate].
    destruct (format_cp N (g_cp g)); [|discriminate]. destruct (format_seg N (g_n g)); [|discriminate].
    injection Hf as <-. cbn [f_rev] in Hr. subst r. unfold format_dir in D.
    destruct (forallb (fun x => Rleb 0 x) (g_m g)) eqn:E; [|destruct (forallb (fun x => Rleb x 0) (g_m g)); discriminate].
    rewrite forallb_forall in E. apply Rleb_true, E; auto.
  - intros Hr x Hx. unfold format_inputs in Hf. destruct (format_flow N (g_m g)); [|discriminate].
    destruct (format_dir (g_m g)) as [r|] eqn:D; [|discriminate].
    destruct (format_cp N (g_cp g)); [|discriminate]. destruct (format_seg N (g_n g)); [|discriminate].
    injection Hf as <-. cbn [f_rev] in Hr. subst r. unfold format_dir in D.
    destruct (forallb (fun x => Rleb 0 x) (g_m g)); [discriminate|].
    destruct (forallb (fun x => Rleb x 0) (g_m g)) eqn:E; [|discriminate].
    rewrite forallb_forall in E. apply Rleb_true, E; auto.
  - intros x Hx. unfold format_inputs in Hf. rewrite Hx in Hf. cbn [format_flow] in Hf.
    destruct (format_dir [x]); [|discriminate].
    destruct (format_cp N (g_cp g)); [|discriminate]. destruct (format_seg N (g_n g)); [|discriminate].
    injection Hf as <-. cbn [f_m].
    assert (Hn : (0 < nInlets N)%nat).
    { destruct W as [C [_ [_ [_ P]]]]. destruct C as [_ [C _]]. destruct (P O C) as [P1 _]. lia. }
    transitivity (sumn (nInlets N) (fun _ => x / INR (nInlets N))).
    + apply sumn_ext. intros k Hk. apply nth_repeat_lt. auto.
    + rewrite sumn_const. field. apply not_0_INR. lia.
Qed.
Print Assumptions C21_flow.

(** C21: the arguments that are accepted, and what each borehole gets of them. *)
Theorem C21_accepts n conn N g : build_net n conn = Some N ->
  (exists F, format_inputs N g = Some F) <->
  (length (g_m g) = 1%nat \/ length (g_m g) = nInlets N)
  /\ ((forall x, In x (g_m g) -> 0 <= x) \/ (forall x, In x (g_m g) -> x <= 0))
  /\ (length (g_cp g) = 1%nat \/ length (g_cp g) = nInlets N)
  /\ (forall x y, In x (g_cp g) -> In y (g_cp g) -> x = y)
  /\ match g_n g with SegN _ => True | SegL l => length l = 1%nat \/ length l = n end.
Proof. intro B. destruct (build_wf _ _ _ B) as [W En]. rewrite <- En. exact (format_accepts N g W). Qed.
Print Assumptions C21_accepts.

Theorem C21_inputs n conn N g F i : build_net n conn = Some N -> format_inputs N g = Some F -> (i < n)%nat ->
  (forall cp, In cp (g_cp g) -> nth i (f_cpb F) 0 = cp)
  /\ (length (g_m g) <> 1%nat -> f_m F = g_m g)
  /\ (forall s, g_n g = SegN s \/ g_n g = SegL [s] -> nth i (f_seg F) O = s)
  /\ (forall l, g_n g = SegL l -> length l = n -> nth i (f_seg F) O = nth i l O)
  /\ (g_r g = RNone -> nth i (f_rat F) None = None)
  /\ (forall a, g_r g = RArr a -> nth i (f_rat F) None = Some a)
  /\ (forall l, g_r g = RList l -> length l = n -> nth i (f_rat F) None = Some (nth i l [])).
Proof.
  intros B H Hi. destruct (build_wf _ _ _ B) as [W En]. rewrite <- En in *.
  destruct (cpb_nth N g F W H) as [c [C1 C2]]. destruct (format_segments N g F i H Hi) as [S1 S2].
  destruct (format_ratios N g F i H Hi) as [R1 [R2 R3]].
  split; [intros cp Hc; rewrite C2 by exact Hi; symmetry; apply C1; exact Hc|].
  split; [|split; [exact S1|split; [exact S2|split; [exact R1|split; [exact R2|exact R3]]]]].
  intro L. apply format_parts in H. destruct H as [H _]. unfold format_flow in H.
  destruct (g_m g) as [|a [|b l]]; [|exfalso; apply L; reflexivity|];
  (destruct (Nat.eqb _ _) in H; [injection H as <-; reflexivity|discriminate]).
Qed.
Print Assumptions C21_inputs.

Example C21_example : exists F, good_args crossed_net (repeat perfect 4) crossed_args F
  /\ feeds (n_c crossed_net) (f_rev F) 1 2 /\ feeds (n_c crossed_net) (f_rev F) 0 3.
Proof. exists crossed_fmt. split; [apply crossed_good; reflexivity|]. split; reflexivity. Qed.

(** C22: every circuit has one end. *)
Theorem C22_ends n conn N (rev : bool) : build_net n conn = Some N ->
  exists E, ends N rev E /\ forall k b, (k < nInlets N)%nat -> circuit_end (n_c N) rev (nth k (n_in N) O) b -> b = E k.
Proof.
  intro B. destruct (build_wf _ _ _ B) as [W En]. destruct (ends_exist N rev W) as [E HE].
  exists E. split; [exact HE|]. intros k b Hk Hb. exact (circuit_end_unique _ _ _ _ _ _ (proj1 W) Hb (HE k Hk)).
Qed.
Print Assumptions C22_ends.

(** C22, when the flows are reversed, or equal in all circuits, or the circuits
    end in the order in which they begin.  Missing: the other networks, for
    which it is false (C22_mixing_refuted). *)
Theorem C22_mixing_partial n conn N ps g F E t Tb a o : build_net n conn = Some N -> good_args N ps g F ->
  ends N (f_rev F) E -> well_mixed N F E ->
  fresh N ps NetOutlet g = Some a -> fresh N ps Outlet g = Some o ->
  let K := seg_total (f_seg F) in
  apply_coefs K a t Tb O
  = sumn (nInlets N) (fun k => Rabs (nth k (f_m F) 0) * apply_coefs K o t Tb (E k)) / total_flow N F.
Proof. intro B. exact (outlet_mixture N ps g F E t Tb a o (proj1 (build_wf _ _ _ B))). Qed.
Print Assumptions C22_mixing_partial.

(** C22: a single flow for the whole network is always mixed as it should. *)
Theorem C22_scalar_flow n conn N ps x cp s r F E t Tb a o : build_net n conn = Some N ->
  let g := mkargs [x] cp s r in
  good_args N ps g F -> ends N (f_rev F) E -> x <> 0 ->
  fresh N ps NetOutlet g = Some a -> fresh N ps Outlet g = Some o ->
  let K := seg_total (f_seg F) in
  apply_coefs K a t Tb O = sumn (nInlets N) (fun k => apply_coefs K o t Tb (E k)) / INR (nInlets N).
Proof.
  intros B g G HE Hx Ha Ho K. assert (W := proj1 (build_wf _ _ _ B)).
  assert (Hm : forall k, (k < nInlets N)%nat -> nth k (f_m F) 0 = x / INR (nInlets N)).
  { destruct G as [Hf _]. unfold format_inputs, g in Hf. cbn [g_m g_cp g_n g_r format_flow] in Hf.
    destruct (format_dir [x]); [|discriminate]. destruct (format_cp N cp); [|discriminate].
    destruct (format_seg N s); [|discriminate]. injection Hf as <-. cbn [f_m]. intros. apply nth_repeat_lt; auto. }
  assert (WM : well_mixed N F E) by (right; left; exists (x / INR (nInlets N)); exact Hm).
  assert (X := outlet_mixture N ps g F E t Tb a o W G HE WM Ha Ho). cbv zeta in X. fold K in X. rewrite X.
  assert (Hn : (0 < nInlets N)%nat).
  { destruct W as [C [_ [_ [_ P]]]]. destruct C as [_ [C _]]. destruct (P O C) as [P1 _]. lia. }
  assert (Hi : INR (nInlets N) <> 0) by (apply not_0_INR; lia).
  assert (Ha0 : Rabs (x / INR (nInlets N)) <> 0).
  { apply Rabs_no_R0. unfold Rdiv. apply Rmult_integral_contrapositive_currified; auto. apply Rinv_neq_0_compat; auto. }
  assert (E1 : total_flow N F = Rabs (x / INR (nInlets N)) * INR (nInlets N)).
  { unfold total_flow. rewrite (sumn_ext _ _ (fun _ => Rabs (x / INR (nInlets N)))).
    - rewrite sumn_const. lra.
    - intros k Hk. rewrite Hm by auto. auto. }
  assert (E2 : sumn (nInlets N) (fun k => Rabs (nth k (f_m F) 0) * apply_coefs K o t Tb (E k))
     = Rabs (x / INR (nInlets N)) * sumn (nInlets N) (fun k => apply_coefs K o t Tb (E k))).
  { rewrite <- sumn_scal. apply sumn_ext. intros k Hk. rewrite Hm by auto. auto. }
  rewrite E1, E2. field. auto.
Qed.
Print Assumptions C22_scalar_flow.

Theorem C22_mixing_refuted : exists N ps g F E a o t Tb,
  build_net 4 (Some [-1; -1; 1; 0]%Z) = Some N /\ good_args N ps g F
  /\ every_pipe pipe_neutral N ps F /\ every_pipe pipe_balanced N ps F
  /\ ends N (f_rev F) E /\ fresh N ps NetOutlet g = Some a /\ fresh N ps Outlet g = Some o
  /\ let K := seg_total (f_seg F) in
     apply_coefs K a t Tb O
     <> sumn (nInlets N) (fun k => Rabs (nth k (f_m F) 0) * apply_coefs K o t Tb (E k)) / total_flow N F.
Proof.
  destruct crossed_values as (a & o & h & Ha & Ho & Hh & V1 & V3 & V2 & V4 & TF).
  exists crossed_net, (repeat perfect 4), crossed_args, crossed_fmt, crossed_end, a, o, 0, INR.
  split; [exact crossed_build|]. split; [apply crossed_good; reflexivity|].
  destruct (perfect_everywhere crossed_net crossed_fmt 4) as [P1 P2].
  { intros i Hi. do 4 (destruct i as [|i]; [discriminate|]). lia. }
  split; [exact P1|]. split; [exact P2|]. split; [exact crossed_ends|]. split; [exact Ha|]. split; [exact Ho|]. cbv zeta.
  change (seg_total (f_seg crossed_fmt)) with 4%nat. rewrite V1, TF. change (nInlets crossed_net) with 2%nat.
  cbn [sumn nth f_m crossed_fmt crossed_end Nat.sub]. rewrite V3, V2, Rabs_R1, (Rabs_right 2) by lra. lra.
Qed.
Print Assumptions C22_mixing_refuted.

Example C22_example : exists N F, build_net 4 (Some [-1; -1; 0; 1]%Z) = Some N
  /\ format_inputs N (mkargs [1; 2] [1] (SegN 1) RNone) = Some F /\ well_mixed N F (fun k => (2 + k)%nat)
  /\ ends N (f_rev F) (fun k => (2 + k)%nat).
Proof.
  exists (mknet [-1; -1; 0; 1]%Z [0; 1]%nat [2; 3]%nat [0; 1; 0; 1]%nat).
  exists (mkfmt [1; 2] false [1; 2; 1; 2] [1; 1; 1; 1] [1; 1; 1; 1]%nat [None; None; None; None]).
  split; [reflexivity|]. split; [|split].
  - unfold format_inputs. cbn [g_m g_cp g_n g_r].
    assert (D : format_dir [1; 2] = Some false).
    { unfold format_dir. cbn [forallb]. assert (A : Rleb 0 1 = true) by (apply Rleb_true; lra).
      assert (B : Rleb 0 2 = true) by (apply Rleb_true; lra). rewrite A, B. auto. }
    rewrite D. reflexivity.
  - right; right. intros; lia.
  - intros k Hk. unfold nInlets in Hk. cbn [n_in length] in Hk. assert (k = 0 \/ k = 1)%nat as [->| ->] by lia.
    + split; [cbn; lia|]. split; [apply (root_up _ 2 0); [reflexivity|apply root_here; reflexivity]|].
      intros j Hj. unfold feeds. cbn in Hj. do 4 (destruct j as [|j]; [discriminate|]). lia.
    + split; [cbn; lia|]. split; [apply (root_up _ 3 1); [reflexivity|apply root_here; reflexivity]|].
      intros j Hj. unfold feeds. cbn in Hj. do 4 (destruct j as [|j]; [discriminate|]). lia.
Qed.

(** C23: sum over the boreholes. *)
Theorem C23_sum n conn N ps g F t Tb h qf : build_net n conn = Some N -> good_args N ps g F ->
  fresh N ps NetHeat g = Some h -> fresh N ps FluidHeat g = Some qf ->
  let K := seg_total (f_seg F) in
  apply_coefs K h t Tb O = sumn n (apply_coefs K qf t Tb).
Proof.
  intros B. destruct (build_wf _ _ _ B) as [W En]. rewrite <- En. exact (heat_sum N ps g F t Tb h qf W).
Qed.
Print Assumptions C23_sum.

(** C23: heat of one borehole. *)
Theorem C23_borehole n conn N ps g F t Tb cp a o qf i : build_net n conn = Some N -> good_args N ps g F ->
  fresh N ps Inlet g = Some a -> fresh N ps Outlet g = Some o -> fresh N ps FluidHeat g = Some qf ->
  In cp (g_cp g) -> (i < n)%nat ->
  let K := seg_total (f_seg F) in
  apply_coefs K qf t Tb i
  = Rabs (nth i (f_mb F) 0) * cp * (apply_coefs K o t Tb i - apply_coefs K a t Tb i).
Proof.
  intros B G Ha Ho Hq Hc Hi K. destruct (build_wf _ _ _ B) as [W En].
  rewrite (fresh_direct N ps _ g F W G) in Ha; rewrite (fresh_direct N ps _ g F W G) in Ho;
  rewrite (fresh_direct N ps _ g F W G) in Hq. cbn [direct] in Ha, Ho, Hq. rewrite Ha in Hq. injection Hq as <-.
  assert (X := qf_apply N ps g F a t Tb i W G). cbv zeta in X. fold K in X. rewrite X by lia.
  assert (Y := in_out_consistent N ps g F a o t Tb W G Ha Ho). cbv zeta in Y. fold K in Y. rewrite Y by lia.
  destruct (cpb_nth N g F W (proj1 G)) as [c [C1 C2]]. rewrite (C1 cp Hc), C2 by lia. reflexivity.
Qed.
Print Assumptions C23_borehole.

(** C23: sum over the segments, for pipes that obey C28. *)
Theorem C23_segments n conn N ps g F t Tb h qb : build_net n conn = Some N -> good_args N ps g F ->
  every_pipe pipe_balanced N ps F ->
  fresh N ps NetHeat g = Some h -> fresh N ps BoreHeat g = Some qb ->
  let K := seg_total (f_seg F) in
  apply_coefs K h t Tb O = sumn K (apply_coefs K qb t Tb).
Proof. intros B. exact (heat_sum_segments N ps g F t Tb h qb (proj1 (build_wf _ _ _ B))). Qed.
Print Assumptions C23_segments.

(** C23: heat gained by the fluid of each circuit. *)
Theorem C23_by_circuit n conn N ps g F E t Tb cp h o : build_net n conn = Some N -> good_args N ps g F ->
  ends N (f_rev F) E -> In cp (g_cp g) -> fresh N ps NetHeat g = Some h -> fresh N ps Outlet g = Some o ->
  let K := seg_total (f_seg F) in
  apply_coefs K h t Tb O
  = sumn (nInlets N) (fun k => Rabs (nth k (f_m F) 0) * cp * (apply_coefs K o t Tb (E k) - t)).
Proof. intros B. exact (heat_circuits N ps g F E t Tb cp h o (proj1 (build_wf _ _ _ B))). Qed.
Print Assumptions C23_by_circuit.

(** C23 in terms of the network outlet temperature, in the situations of C22.
    Missing: the other networks, for which it is false (C23_network_refuted). *)
Theorem C23_network_partial n conn N ps g F E t Tb cp h no : build_net n conn = Some N -> good_args N ps g F ->
  ends N (f_rev F) E -> well_mixed N F E -> total_flow N F <> 0 ->
  In cp (g_cp g) -> fresh N ps NetHeat g = Some h -> fresh N ps NetOutlet g = Some no ->
  let K := seg_total (f_seg F) in
  apply_coefs K h t Tb O = total_flow N F * cp * (apply_coefs K no t Tb O - t).
Proof. intros B. exact (heat_balance N ps g F E t Tb cp h no (proj1 (build_wf _ _ _ B))). Qed.
Print Assumptions C23_network_partial.

Theorem C23_network_refuted : exists N ps g F h no t Tb,
  build_net 4 (Some [-1; -1; 1; 0]%Z) = Some N /\ good_args N ps g F
  /\ every_pipe pipe_neutral N ps F /\ every_pipe pipe_balanced N ps F
  /\ In 1 (g_cp g) /\ total_flow N F <> 0
  /\ fresh N ps NetHeat g = Some h /\ fresh N ps NetOutlet g = Some no
  /\ let K := seg_total (f_seg F) in
     apply_coefs K h t Tb O <> total_flow N F * 1 * (apply_coefs K no t Tb O - t).
Proof.
  destruct crossed_values as (a & o & h & Ha & Ho & Hh & V1 & V3 & V2 & V4 & TF).
  exists crossed_net, (repeat perfect 4), crossed_args, crossed_fmt, h, a, 0, INR.
  split; [exact crossed_build|]. split; [apply crossed_good; reflexivity|].
  destruct (perfect_everywhere crossed_net crossed_fmt 4) as [P1 P2].
  { intros i Hi. do 4 (destruct i as [|i]; [discriminate|]). lia. }
  split; [exact P1|]. split; [exact P2|]. split; [left; reflexivity|]. split; [rewrite TF; lra|].
  split; [exact Hh|]. split; [exact Ha|]. cbv zeta.
  change (seg_total (f_seg crossed_fmt)) with 4%nat. rewrite V1, V4, TF. lra.
Qed.
Print Assumptions C23_network_refuted.

Example C23_example : exists h, fresh crossed_net (repeat perfect 4) NetHeat crossed_args = Some h
  /\ apply_coefs 4 h 0 INR O = 1 * 1 * (3 - 0) + 2 * 1 * (2 - 0).
Proof.
  destruct crossed_values as (a & o & h & Ha & Ho & Hh & V1 & V3 & V2 & V4 & TF). exists h. split; [exact Hh|]. rewrite V4. lra.
Qed.

(** C24 *)
Theorem C24_equilibrium n conn N ps g F T : build_net n conn = Some N -> good_args N ps g F ->
  every_pipe pipe_neutral N ps F ->
  exists a o qb qf h no, fresh N ps Inlet g = Some a /\ fresh N ps Outlet g = Some o
   /\ fresh N ps BoreHeat g = Some qb /\ fresh N ps FluidHeat g = Some qf /\ fresh N ps NetHeat g = Some h
   /\ fresh N ps NetOutlet g = Some no
   /\ let K := seg_total (f_seg F) in
      let U := fun _ : nat => T in
      (forall i, (i < n)%nat -> apply_coefs K a T U i = T /\ apply_coefs K o T U i = T /\ apply_coefs K qf T U i = 0)
      /\ (forall k, (k < K)%nat -> apply_coefs K qb T U k = 0)
      /\ apply_coefs K h T U O = 0
      /\ (total_flow N F <> 0 -> apply_coefs K no T U O = T).
Proof.
  intros B G HP. destruct (build_wf _ _ _ B) as [W En].
  destruct (fresh_some_all N ps g F W G) as (a & o & qb & qf & h & no & H1 & H2 & H3 & H4 & H5 & H6).
  exists a, o, qb, qf, h, no. do 6 (split; [assumption|]). rewrite <- En.
  exact (equilibrium N ps g F T a o qb qf h no W G HP H1 H2 H3 H4 H5 H6).
Qed.
Print Assumptions C24_equilibrium.

Example C24_example : every_pipe pipe_neutral crossed_net (repeat perfect 4) crossed_fmt
  /\ total_flow crossed_net crossed_fmt <> 0.
Proof.
  split.
  - apply perfect_everywhere. intros i Hi. do 4 (destruct i as [|i]; [discriminate|]). lia.
  - destruct crossed_values as (a & o & h & _ & _ & _ & _ & _ & _ & _ & TF). rewrite TF. lra.
Qed.

(** C25 for an object always called with the same arguments. *)
Theorem C25_same_arguments n conn N ps l k g : build_net n conn = Some N -> good_call N ps g ->
  (forall h, In h (map snd l) -> h = g) ->
  snd (call N ps k g (calls N ps l init_state)) = fresh N ps k g.
Proof. intros B. exact (history_same N ps l k g (proj1 (build_wf _ _ _ B))). Qed.
Print Assumptions C25_same_arguments.

(** C25 for one positive flow of the network per call, the flows being equal or
    farther apart than one part in a million. *)
Theorem C25_scalar_flows n conn N ps cp l k x : build_net n conn = Some N -> length ps = n -> cp <> 0 ->
  (forall y, In y (x :: map snd l) -> 0 < fst y) ->
  (forall y z, In y (x :: map snd l) -> In z (x :: map snd l) -> well_apart (fst y) (fst z)) ->
  snd (call N ps k (scalar_call cp x) (calls N ps (map (fun c => (fst c, scalar_call cp (snd c))) l) init_state))
  = fresh N ps k (scalar_call cp x).
Proof.
  intros B L. destruct (build_wf _ _ _ B) as [W En]. rewrite <- En in L. exact (history_scalar N ps cp l k x W L).
Qed.
Print Assumptions C25_scalar_flows.

(** C25 for all methods but the network outlet temperature, for calls that the
    stored coefficients tell apart.  Missing: the network outlet temperature
    (C25_mixing_refuted) and calls that are not told apart
    (C25_scalar_array_refuted). *)
Theorem C25_told_apart_partial n conn N ps l k g : build_net n conn = Some N -> k <> NetOutlet ->
  (forall h, In h (g :: map snd l) -> good_call N ps h) ->
  (forall h1 h2, In h1 (g :: map snd l) -> In h2 (g :: map snd l) -> told_apart h1 h2) ->
  snd (call N ps k g (calls N ps l init_state)) = fresh N ps k g.
Proof.
  intros B Hk HG HT. apply (history_gen N ps l k g (proj1 (build_wf _ _ _ B)) HG HT). intro; contradiction.
Qed.
Print Assumptions C25_told_apart_partial.

Theorem C25_mixing_refuted : exists N ps l g a b t Tb, build_net 2 None = Some N
  /\ (forall h, In h (g :: map snd l) -> good_call N ps h)
  /\ snd (call N ps NetOutlet g (calls N ps l init_state)) = Some a
  /\ fresh N ps NetOutlet g = Some b /\ apply_coefs 2 a t Tb O <> apply_coefs 2 b t Tb O.
Proof.
  destruct stale_mixing as (a & b & H1 & H2 & H3 & H4).
  exists two, (repeat perfect 2), [(Outlet, two_args 1 1); (Inlet, two_args 1 3)], (two_args 1 1), a, b, 0, INR.
  split; [exact two_build|]. split; [|split; [exact H1|split; [exact H2|rewrite H3, H4; lra]]].
  intros h [<-|[<-|[<-|[]]]]; eexists; apply two_good; (reflexivity || lra).
Qed.
Print Assumptions C25_mixing_refuted.

Theorem C25_scalar_array_refuted : exists N ps l g a b t Tb, build_net 2 None = Some N
  /\ (forall h, In h (g :: map snd l) -> good_call N ps h)
  /\ snd (call N ps Outlet g (calls N ps l init_state)) = Some a
  /\ fresh N ps Outlet g = Some b /\ apply_coefs 2 a t Tb O <> apply_coefs 2 b t Tb O.
Proof.
  destruct stale_scalar as (a & b & H1 & H2 & H3 & H4).
  exists two, (repeat flowing 2), [(Outlet, two_args 1 1)], (mkargs [1] [1] (SegN 1) RNone), a, b, 1, (fun _ => 0).
  split; [exact two_build|]. split; [|split; [exact H1|split; [exact H2|rewrite H3, H4; lra]]].
  intros h [<-|[<-|[]]].
  - apply (scalar_good two (repeat flowing 2) 1 (1, 1%nat)); [reflexivity|cbn; lra].
  - eexists; apply two_good; (reflexivity || lra).
Qed.
Print Assumptions C25_scalar_array_refuted.

Example C25_example : snd (call two (repeat flowing 2) NetOutlet (scalar_call 4000 (1, 3%nat))
    (calls two (repeat flowing 2) (map (fun c => (fst c, scalar_call 4000 (snd c)))
       [(NetInlet, (2, 3%nat)); (Outlet, (1, 5%nat)); (NetOutlet, (2, 1%nat))]) init_state))
  = fresh two (repeat flowing 2) NetOutlet (scalar_call 4000 (1, 3%nat)).
Proof.
  apply (C25_scalar_flows 2 None); [exact two_build|reflexivity|lra| |].
  - intros y Hy. cbn in Hy. intuition (subst; cbn; lra).
  - assert (W : forall u v, (u = 1 \/ u = 2) -> (v = 1 \/ v = 2) -> well_apart u v).
    { intros u v [->| ->] [->| ->]; unfold well_apart; auto; right.
      - rewrite (Rabs_right 2), Rabs_left; lra.
      - rewrite (Rabs_right 1), Rabs_right; lra. }
    intros y z Hy Hz. apply W; cbn in Hy, Hz.
    + intuition (subst; cbn; auto).
    + intuition (subst; cbn; auto).
Qed.

(** C57: meaning of the thermal resistance of a network. *)
Theorem C57_network_meaning n conn N ps Htot m cp F Rf t T : build_net n conn = Some N ->
  let g := mkargs m cp (SegN 1) RNone in
  good_args N ps g F -> every_pipe pipe_neutral N ps F -> total_flow N F <> 0 -> Htot <> 0 ->
  network_thermal_resistance N ps Htot m cp = Some Rf ->
  exists a q, fresh N ps NetOutlet g = Some a /\ fresh N ps NetHeat g = Some q
  /\ (fst q O <> 0 ->
      let K := seg_total (f_seg F) in
      let U := fun _ : nat => T in
      (t + apply_coefs K a t U O) / 2 - T = Rf * (- apply_coefs K q t U O / Htot)).
Proof.
  intros B g G HP HT HH HR. assert (W := proj1 (build_wf _ _ _ B)).
  destruct (fresh_some_all N ps g F W G) as (i & o & qb & qf & h & no & _ & _ & _ & _ & H5 & H6).
  exists no, h. split; [exact H6|]. split; [exact H5|]. intro Hq.
  exact (resistance_meaning N ps Htot m cp F no h Rf t T W G HP HT HH H6 H5 Hq HR).
Qed.
Print Assumptions C57_network_meaning.

(** C57: one borehole. *)
Theorem C57_single_borehole N p H m cp : build_net 1 None = Some N -> m <> 0 -> pipe_balanced p m cp 1 None ->
  network_thermal_resistance N [p] H [m] [cp] = Some (effective_resistance p H m cp).
Proof. exact (resistance_single N p H m cp). Qed.
Print Assumptions C57_single_borehole.

Example C57_example : exists N, build_net 1 None = Some N
  /\ network_thermal_resistance N [flowing] 100 [1/2] [4000] = Some (3/40).
Proof.
  exists (mknet [-1]%Z [O] [O] [O]). split; [reflexivity|].
  rewrite (C57_single_borehole (mknet [-1]%Z [O] [O] [O]) flowing 100 (1/2) 4000 eq_refl); [|lra|apply flowing_ok; lia].
  f_equal. unfold effective_resistance. cbn. rewrite Rabs_right by lra. field.
Qed.

(** C65: the inlet temperature for a total heat extraction rate gives that rate. *)
Theorem C65_inlet_inverts n conn N ps g F a h K Q Tb : build_net n conn = Some N -> good_args N ps g F ->
  fresh N ps NetInlet g = Some a -> fresh N ps NetHeat g = Some h ->
  apply_coefs K h (apply_coefs K a Q Tb O) Tb O = Q.
Proof. intros B. exact (net_inlet_inverts N ps g F a h K Q Tb (proj1 (build_wf _ _ _ B))). Qed.
Print Assumptions C65_inlet_inverts.

(** C65: it exists when the rate depends on the inlet temperature. *)
Theorem C65_defined n conn N ps g F h : build_net n conn = Some N -> good_args N ps g F ->
  fresh N ps NetHeat g = Some h ->
  (exists a, fresh N ps NetInlet g = Some a)
  <-> exists t t', apply_coefs (seg_total (f_seg F)) h t (fun _ => 0) O <> apply_coefs (seg_total (f_seg F)) h t' (fun _ => 0) O.
Proof.
  intros B G Hh. rewrite (net_inlet_defined N ps g F h (proj1 (build_wf _ _ _ B)) G Hh).
  assert (Z : forall t, apply_coefs (seg_total (f_seg F)) h t (fun _ => 0) O = fst h O * t).
  { intro t. unfold apply_coefs. rewrite sumn_zero; [lra|]. intros; lra. }
  split.
  - intro H. exists 1, 0. rewrite !Z. lra.
  - intros [t [t' H]] E. apply H. rewrite !Z, E. lra.
Qed.
Print Assumptions C65_defined.

Example C65_example : exists a, fresh crossed_net (repeat perfect 4) NetInlet crossed_args = Some a.
Proof.
  destruct crossed_values as (a & o & h & Ha & Ho & Hh & _).
  assert (G := crossed_good (repeat perfect 4) eq_refl).
  apply (C65_defined 4 _ _ _ _ _ h crossed_build G Hh). exists 0, 1.
  assert (X : forall t, apply_coefs 4 h t (fun _ => 0) O = - 3 * t).
  { intro t. assert (L := C23_by_circuit 4 _ _ _ _ _ crossed_end t (fun _ => 0) 1 h o crossed_build G crossed_ends (or_introl eq_refl) Hh Ho).
    cbv zeta in L. change (seg_total (f_seg crossed_fmt)) with 4%nat in L. rewrite L. change (nInlets crossed_net) with 2%nat.
    destruct (build_wf _ _ _ crossed_build) as [W En].
    assert (O3 := perfect_outlet _ 4 _ _ o t (fun _ => 0) 3 W En G Ho). assert (O2 := perfect_outlet _ 4 _ _ o t (fun _ => 0) 2 W En G Ho).
    change (seg_total (f_seg crossed_fmt)) with 4%nat in *.
    cbn [sumn nth f_m crossed_fmt crossed_end Nat.sub]. rewrite O3, O2 by (cbn; lia). rewrite Rabs_R1, (Rabs_right 2) by lra. lra. }
  change (seg_total (f_seg crossed_fmt)) with 4%nat. rewrite !X. lra.
Qed.

(** C66: heat balance of an equivalent network. *)
Theorem C66_equivalent_balance n N w ps x cp s r F h o t Tb : build_net n None = Some N -> length w = n -> length ps = n ->
  eq_format N w (mkargs [x] [cp] s r) = Some F -> length (f_rat F) = n -> 0 < Rsum w -> x <> 0 ->
  eq_heat N w ps F = Some h -> eq_outlet N w ps F = Some o ->
  let K := seg_total (f_seg F) in
  apply_coefs K h t Tb O = Rabs x * cp * (apply_coefs K o t Tb O - t).
Proof. exact (eq_balance n N w ps x cp s r F h o t Tb). Qed.
Print Assumptions C66_equivalent_balance.

(** C67: an equivalent network stands for the parallel network of its boreholes. *)
Theorem C67_equivalent_network nF n NF N ps psF gam w x cp s r FF F hF oF h o t Tb TbF :
  build_net nF None = Some NF -> build_net n None = Some N -> length ps = n -> length psF = nF ->
  (forall i, (i < nF)%nat -> (gam i < n)%nat /\ nth i psF no_pipe = nth (gam i) ps no_pipe
     /\ forall k, (k < s)%nat -> TbF (i * s + k)%nat = Tb (gam i * s + k)%nat) ->
  w = map (fun j => INR (count_occ Nat.eq_dec (map gam (seq 0 nF)) j)) (seq 0 n) ->
  x <> 0 ->
  (r = RNone \/ exists a, r = RArr a) ->
  format_inputs NF (mkargs [x] [cp] (SegN s) r) = Some FF ->
  eq_format N w (mkargs [x] [cp] (SegN s) r) = Some F ->
  fresh NF psF NetHeat (mkargs [x] [cp] (SegN s) r) = Some hF ->
  fresh NF psF NetOutlet (mkargs [x] [cp] (SegN s) r) = Some oF ->
  eq_heat N w ps F = Some h -> eq_outlet N w ps F = Some o ->
  apply_coefs (nF * s) hF t TbF O = apply_coefs (n * s) h t Tb O
  /\ apply_coefs (nF * s) oF t TbF O = apply_coefs (n * s) o t Tb O.
Proof. exact (eq_reproduces nF n NF N ps psF gam w x cp s r FF F hF oF h o t Tb TbF). Qed.
Print Assumptions C67_equivalent_network.

(** C66, C67: three boreholes, the first and the last alike. *)
Example C67_example : let w := [2; 1] in exists N NF F FF h o hF oF,
  build_net 2 None = Some N /\ build_net 3 None = Some NF
  /\ w = map (fun j => INR (count_occ Nat.eq_dec (map (fun i => i mod 2) (seq 0 3)) j)) (seq 0 2)
  /\ format_inputs NF (mkargs [3] [4000] (SegN 1) RNone) = Some FF
  /\ eq_format N w (mkargs [3] [4000] (SegN 1) RNone) = Some F /\ length (f_rat F) = 2%nat
  /\ fresh NF [flowing; perfect; flowing] NetHeat (mkargs [3] [4000] (SegN 1) RNone) = Some hF
  /\ fresh NF [flowing; perfect; flowing] NetOutlet (mkargs [3] [4000] (SegN 1) RNone) = Some oF
  /\ eq_heat N w [flowing; perfect] F = Some h /\ eq_outlet N w [flowing; perfect] F = Some o.
Proof.
  cbv zeta. set (g := mkargs [3] [4000] (SegN 1) RNone).
  assert (B2 : build_net 2 None = Some two) by reflexivity.
  set (three := mknet [-1; -1; -1]%Z [0; 1; 2]%nat [0; 1; 2]%nat [0; 1; 2]%nat).
  assert (B3 : build_net 3 None = Some three) by reflexivity.
  destruct (build_wf _ _ _ B2) as [W2 _]. destruct (build_wf _ _ _ B3) as [W3 _].
  destruct (scalar_good three [flowing; perfect; flowing] 4000 (3, 1%nat) eq_refl ltac:(cbn; lra)) as [FF G].
  change (scalar_call 4000 (3, 1%nat)) with g in G.
  destruct (fresh_some_all _ _ _ _ W3 G) as (a & o & qb & qf & hF & oF & _ & _ & _ & _ & H5 & H6).
  destruct (eq_format two [2; 1] g) as [F|] eqn:EF; [|discriminate].
  destruct (coef_inlet_some two [flowing; perfect] F W2) as [ia Ia].
  destruct (coef_outlet_some two [flowing; perfect] F W2) as [oa Oa].
  exists two, three, F, FF, (eq_net_heat 2 [2; 1] (coef_qf two [flowing; perfect] F ia)),
    (coef_net_outlet two (eq_mixing (iOutlets two (f_rev F)) [2; 1] (f_m F)) oa), hF, oF.
  split; [exact B2|]. split; [exact B3|].
  split; [cbn; f_equal; lra|]. split; [exact (proj1 G)|]. split; [exact EF|].
  split; [unfold eq_format in EF; cbn in EF; injection EF as <-; reflexivity|].
  split; [exact H5|]. split; [exact H6|]. unfold eq_heat, eq_outlet. rewrite Ia, Oa. split; reflexivity.
Qed.
