From Coq Require Import String.
From Verif Require Import Base LinAlg FLS_Model.
From Verif Require Import Bore_Model Bore_Proofs Net_Model Net_Spec Solve_Model Solve_Spec Solve_Props Detailed_Model Detailed_Spec Detailed_Proofs Sim_Model Eq_Model GFun_Model GFun_Spec Prof_Model Prof_Spec Prof_Proofs.
Local Open Scope string_scope.

Lemma resolve_parts c q : resolve c = Some q -> q_bs q = boreholes_of c /\ (q_method q = c_method c \/ q_method q = "similarities") /\ (each_borehole c -> q_method q = c_method c).
Proof.
  unfold resolve, boreholes_of. set (bc := match c_bc c with Some s => s | None => _ end). clearbody bc.
  match goal with |- context [mkrequest _ _ _ _ ?a ?b ?d] => set (mb := a); set (mn := b); set (cp := d); clearbody mb mn cp end. cbv zeta.
  destruct (String.eqb bc "MIFT" && String.eqb (lower (c_method c)) "equivalent") eqn:B.
  - apply andb_true_iff in B. destruct B as [_ B]. apply String.eqb_eq in B.
    assert (N : ~ each_borehole c) by (intros [E|E]; rewrite E in B; discriminate B).
    destruct (c_source c) as [bs|w]; [discriminate|]. destruct (negb (parallel w)); [|destruct (equal_flows mb) as [[|]|]; [destruct (same_pipes w) as [[|]|]|..]];
      intros E; try discriminate E; injection E as <-; cbn; tauto.
  - intros E. injection E as <-. cbn. auto.
Qed.

Lemma make_solver_parts o q s : make_solver o q = Some s -> v_n s = format_segments (List.length (q_bs q)) (o_n o) /\
  v_r s = format_ratios (List.length (q_bs q)) (format_segments (List.length (q_bs q)) (o_n o)) (o_r o) /\ exists rows, solver_flows (q_mb q) (q_mn q) = Some (v_k s, rows) /\ v_rows s = rows.
Proof.
  unfold make_solver. destruct (solver_flows (q_mb q) (q_mn q)) as [[k rows]|]; [|discriminate].
  destruct (check_flows q rows && check_segments _ _ _); [|discriminate].
  destruct (String.eqb _ "detailed"); [intros E; injection E as <-; cbn; eauto|].
  destruct (String.eqb _ "similarities"); [destruct (Rltb _ _ && _); intros E; [injection E as <-; cbn; eauto|discriminate E]|].
  destruct (String.eqb _ "equivalent"); [|discriminate]. destruct (equivalent_checks _ _ _ _); [|discriminate].
  destruct (equivalent_network q) as [w|]; [|discriminate]. intros E; injection E as <-; cbn; eauto.
Qed.

Lemma construct_parts c q s : construct c = Some (q, s) -> q_bs q = boreholes_of c /\ v_n s = segments_of c /\ v_r s = ratios_of c /\
  (each_borehole c -> q_method q = c_method c) /\ (q_method q = c_method c \/ q_method q = "similarities") /\
  existsb (String.eqb (q_bc q)) ["UHTR"; "UBWT"; "MIFT"] = true /\ existsb (String.eqb (q_method q)) ["detailed"; "similarities"; "equivalent"] = true /\ resolve c = Some q /\
  (exists rows, solver_flows (q_mb q) (q_mn q) = Some (v_k s, rows) /\ v_rows s = rows).
Proof.
  unfold construct. destruct (resolve c) as [q'|] eqn:E; [|discriminate]. destruct (check c q') eqn:Ck; [|discriminate].
  destruct (make_solver (c_options c) q') as [s'|] eqn:M; [|discriminate]. intros X. injection X as <- <-.
  destruct (resolve_parts _ _ E) as [A [A' A'']]. destruct (make_solver_parts _ _ _ M) as [B1 [B2 B3]].
  unfold segments_of, ratios_of. unfold segments_of. rewrite <- A.
  unfold check in Ck. rewrite !andb_true_iff in Ck. destruct Ck as [[[[[[_ _] _] _] _] K1] K2].
  auto 10.
Qed.

Section Calls.
  Variables (link : list R -> tree) (uw : list (R * R)) (c : call) (V : object).
  Hypothesis Ev : evaluated link uw c = Some V.

  (** what an evaluated object is made of *)
  Lemma evaluated_parts : exists q s y g r_b_max, construct c = Some (q, s) /\ gfunction link uw c = Some g /\ evaluate link uw c (q, s) (c_time c) = Some g /\
    times (c_time c) = Some (b_time V) /\ lmax (map br (q_bs q)) = Some r_b_max /\ make_system link uw c q s = Some y /\
    solver_boreholes link c q s = Some (b_bores V, b_n V, b_r V) /\ b_k V = v_k s /\ b_sources V = y_n y /\ b_alpha V = c_alpha c /\
    solve_stored (q_bc q) (match q_net q with Some w => nth 0 (w_ks w) 0 | None => 0%R end) (v_rows s) y (b_time V) (time_threshold r_b_max (c_alpha c) (o_thr (c_options c))) = Some (b_stored V).
  Proof.
    unfold evaluated in Ev. destruct (gfunction link uw c) as [g|] eqn:G; [|discriminate Ev]. destruct (construct c) as [[q s]|] eqn:K; [|discriminate Ev].
    destruct (times (c_time c)) as [t|] eqn:T; [|discriminate Ev]. destruct (lmax _) as [r|] eqn:L; [|discriminate Ev].
    destruct (make_system link uw c q s) as [y|] eqn:Y; [|discriminate Ev]. destruct (solver_boreholes link c q s) as [[[bs ns] rs]|] eqn:S; [|discriminate Ev].
    destruct (solve_stored _ _ _ _ _ _) as [d|] eqn:D; [|discriminate Ev]. cbn in Ev. injection Ev as <-.
    exists q, s, y, g, r. cbn. repeat split; auto.
    unfold gfunction in G. rewrite K in G. destruct (c_time c); [discriminate G|..]; auto.
  Qed.

  (** the field of the detailed and similarities solvers *)
  Lemma each_parts : each_borehole c -> b_bores V = boreholes_of c /\ b_n V = segments_of c /\ b_r V = ratios_of c /\ b_alpha V = c_alpha c.
  Proof.
    intros Ea. destruct evaluated_parts as (q & s & y & g & r & K & _ & _ & _ & _ & _ & S & _ & _ & Al & _).
    destruct (construct_parts _ _ _ K) as (A & B & C & D & _). specialize (D Ea).
    unfold solver_boreholes in S. replace (String.eqb (lower (q_method q)) "equivalent") with false in S by (rewrite D; destruct Ea as [-> | ->]; reflexivity).
    injection S as <- <- <-. auto.
  Qed.

  Lemma each_system q s y : each_borehole c -> construct c = Some (q, s) -> make_system link uw c q s = Some y ->
    y_n y = n_sources (boreholes_of c) (segments_of c) (ratios_of c) /\ y_H y = segment_length (boreholes_of c) (segments_of c) (ratios_of c).
  Proof.
    intros Ea K Y. destruct (construct_parts _ _ _ K) as (A & B & C & D & _). specialize (D Ea).
    unfold make_system in Y. rewrite D in Y. destruct Ea as [E|E]; rewrite E in Y; cbn in Y; injection Y as <-; cbn; rewrite A, B, C; auto.
  Qed.
End Calls.

(** lengths of the segments *)
Lemma segment_lengths bs ns rs i u : segmented bs ns rs -> (i < List.length bs)%nat -> (u < nth i ns O)%nat ->
  segment_length bs ns rs (first ns i + u)%nat = bH (nth i bs no_bore) * nth u (nth i rs []) 0.
Proof.
  intros Sg Hi Hu. destruct (segments_all _ _ _ Sg) as [_ S]. destruct Sg as [_ [_ Lr]]. unfold segment_length, bore_segments.
  change (Bore 0 0 0 0 0 0 0) with no_bore. rewrite S by auto.
  rewrite <- (Lr i Hi) in Hu. pose proof (Bore_Proofs.segments_nth (nth i bs no_bore) (nth i ns O) (Some (nth i rs [])) u Hu) as E.
  rewrite (nth_indep _ no_bore Bore_Spec.b0) by (rewrite Bore_Proofs.segments_length; exact Hu).
  rewrite E. cbn. ring.
Qed.

Lemma sources_sum bs ns rs : segmented bs ns rs -> n_sources bs ns rs = list_sum ns.
Proof. intros Sg. unfold n_sources, bore_segments. now destruct (segments_all _ _ _ Sg). Qed.
