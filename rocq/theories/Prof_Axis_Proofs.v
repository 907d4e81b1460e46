(** Time axes and depths of the figures. *)
From Coq Require Import String.
From Verif Require Import Base LinAlg FLS_Model.
From Verif Require Import Bore_Model Bore_Proofs Net_Model Net_Spec Solve_Model Detailed_Model Detailed_Spec Detailed_Proofs Sim_Model Eq_Model Eq_Spec GFun_Model GFun_Spec GFun_Eval_Proofs
  Prof_Model Prof_Spec Prof_Proofs Prof_Call_Proofs Prof_Main_Proofs Prof_Field_Proofs Prof_Fig_Proofs Prof_Depth_Proofs Prof_Shape_Proofs Prof_Last_Proofs.
Local Open Scope string_scope.
Local Open Scope R_scope.

Lemma fst_combine (x y : list R) : List.length x = List.length y -> map fst (combine x y) = x.
Proof. revert y. induction x as [|a x IH]; intros [|b y] L; cbn in *; auto; try discriminate L. f_equal. apply IH. lia. Qed.

Lemma axis_log V bs : b_alpha V <> 0 -> Rsum (map bH bs) <> 0 -> log_times V bs = axis (map bH bs) (b_alpha V) (b_time V).
Proof.
  intros A H. unfold log_times, axis. rewrite map_length. apply map_ext. intros t. f_equal.
  assert (L : INR (List.length bs) <> 0) by (destruct bs; [cbn in H; lra|apply not_0_INR; cbn; lia]).
  set (S := Rsum (map bH bs)) in *. set (n := INR (List.length bs)) in *. clearbody S n. field. repeat split; auto.
Qed.

Section Calls.
  Variables (link : list R -> tree) (uw : list (R * R)) (c : call).
  Hypothesis A0 : c_alpha c <> 0.

  Lemma curve_axis h V iB n f i cv : evaluated link uw c = Some V -> Rsum (map bH (b_bores V)) <> 0 -> fig_t link uw c h iB n = Some f -> In (i, cv) f ->
    map fst cv = axis (map bH (b_bores V)) (c_alpha c) (b_time V).
  Proof.
    intros E Hs F I. rewrite (fig_t_on _ _ _ h V _ _ E) in F. apply time_figure_curves in F. destruct F as [_ F]. destruct (F i cv I) as [_ (rows & y & _ & _ & L & ->)].
    rewrite fst_combine by (rewrite log_length; auto). destruct (evaluated_parts _ _ _ _ E) as (q & s & y' & g' & r & _ & _ & _ & _ & _ & _ & _ & _ & _ & Al & _).
    rewrite axis_log; auto; rewrite Al; auto.
  Qed.

  Lemma each_axis h iB n t f i cv : each_borehole c -> has_times c t -> Rsum (map bH (boreholes_of c)) <> 0 -> fig_t link uw c h iB n = Some f -> In (i, cv) f ->
    map fst cv = axis (map bH (boreholes_of c)) (c_alpha c) t.
  Proof.
    intros Ea Ht Hs F I. destruct (fig_t_eval _ _ _ _ _ _ _ F) as [V E]. destruct (each_parts _ _ _ _ E Ea) as (B & _).
    destruct (evaluated_parts _ _ _ _ E) as (q & s & y & g' & r & _ & _ & _ & T & _). unfold has_times in Ht. rewrite Ht in T. injection T as ->.
    rewrite <- B in *. eapply curve_axis; eauto.
  Qed.

  Lemma grouped_axis h iB n t f i cv E : grouped link c E -> has_times c t -> Rsum (map eH E) <> 0 -> fig_t link uw c h iB n = Some f -> In (i, cv) f ->
    map fst cv = axis (map eH E) (c_alpha c) t.
  Proof.
    intros [[q0 [s0 [K0 Em]]] EE] Ht Hs F I. destruct (fig_t_eval _ _ _ _ _ _ _ F) as [V Ev].
    destruct (evaluated_parts _ _ _ _ Ev) as (q & s & y & g' & r & K & _ & _ & T & _ & _ & Sb & _). unfold has_times in Ht. rewrite Ht in T. injection T as ->.
    rewrite K in K0. injection K0 as <- <-. destruct (construct_parts _ _ _ K) as (A1 & _).
    unfold solver_boreholes in Sb. rewrite Em, A1, EE in Sb. change (String.eqb (lower "equivalent") "equivalent") with true in Sb. cbv iota in Sb. cbn [option_map] in Sb. injection Sb as B1 _ _.
    assert (M : map bH (b_bores V) = map eH E) by (rewrite <- B1, map_map; apply map_ext; intros e; reflexivity).
    rewrite <- M in *. eapply curve_axis; eauto.
  Qed.

  Lemma g_axis i j t cv : has_times c t -> Rsum (map bH (boreholes_of c)) <> 0 -> g_figure link uw c i j = Some cv -> map fst cv = axis (map bH (boreholes_of c)) (c_alpha c) t.
  Proof.
    intros Ht Hs G. unfold g_figure in G. destruct (gfunction link uw c) as [g|]; [|discriminate G]. destruct (construct c) as [[q s]|] eqn:K; [|discriminate G].
    unfold has_times in Ht. rewrite Ht in G. destruct (construct_parts _ _ _ K) as (A1 & _). rewrite A1 in G.
    set (W := mkobject (boreholes_of c) [] [] 0 0 t (Uniform []) (c_alpha c)) in *.
    assert (X : log_times W (boreholes_of c) = axis (map bH (boreholes_of c)) (c_alpha c) t) by (rewrite axis_log; auto).
    destruct g as [l|k v]; [|destruct (_ && _)%bool; [|discriminate G]]; apply plot_some in G; destruct G as [L ->]; rewrite fst_combine by auto; exact X.
  Qed.

  (** the curve of the g-function is there, and has its values *)
  Lemma g_some g t : gfunction link uw c = Some (G1 g) -> has_times c t -> List.length g = List.length t -> exists cv, g_figure link uw c 0 0 = Some cv /\ map snd cv = g.
  Proof.
    intros G Ht L. unfold g_figure. rewrite G. unfold gfunction in G. destruct (construct c) as [[q s]|]; [|discriminate G]. unfold has_times in Ht. rewrite Ht.
    unfold plot. rewrite log_length. cbn [b_time]. rewrite L, Nat.eqb_refl. eexists. split; [reflexivity|].
    assert (X : forall x y : list R, List.length x = List.length y -> map snd (combine x y) = y) by (clear; induction x as [|a x IH]; intros [|b y] L; cbn in *; auto; try discriminate L; f_equal; apply IH; lia).
    apply X. rewrite log_length. cbn [b_time]. auto.
  Qed.
End Calls.

Section More.
  Variables (link : list R -> tree) (uw : list (R * R)) (c : call).

  (** a uniform heat extraction rate *)
  Lemma uniform_profile t iB n f i pr : boundary c = "UHTR" -> each_borehole c -> heat_profile_figure link uw true c t iB n = Some f -> In (i, pr) f ->
    let b := nth i (boreholes_of c) no_bore in pr = [(1, bD b); (1, bD b + bH b)].
  Proof.
    intros B Ea F I. change (heat_profile_figure link uw true c t iB n) with (fig_d link uw c true t iB n) in F. destruct (fig_d_eval _ _ _ _ _ _ _ _ F) as [V E].
    rewrite (fig_d_on _ _ _ true V _ _ _ E) in F. pose proof (stored_kind _ _ _ V E) as K. rewrite B in K. destruct (b_stored V) eqn:D; try discriminate K.
    destruct (each_parts _ _ _ _ E Ea) as (B1 & _). rewrite <- B1. apply depth_figure_curves in F. destruct F as [_ F]. destruct (F i pr I) as [Hi (x & rows & y & Y1 & Y2 & Y3 & ->)].
    unfold over_depth, heat_profile in Y1. rewrite D in Y1. destruct (Nat.eqb _ _); [|discriminate Y1]. unfold there in Y1. rewrite (proj2 (Nat.ltb_lt _ _) Hi) in Y1. injection Y1 as <- <-.
    destruct n as [|n]; [|destruct n; discriminate Y2]. injection Y2 as <-. unfold ends, bore_at. rewrite (nth_indep _ (Bore 0 0 0 0 0 0 0) no_bore) by auto. reflexivity.
  Qed.
End More.

(** the depth of vertical boreholes *)
Lemma vertical_shown b r pr v : btilt b = 0 -> (0 < List.length r)%nat -> shows b r pr v -> at_depths b r pr.
Proof.
  intros T L [S1 S2]. unfold at_depths, true_depth. rewrite T, cos_0. destruct (Nat.eqb_spec (List.length r) 1) as [E|E].
  - rewrite (S1 E). cbn [map snd]. f_equal; [ring|f_equal; ring].
  - destruct (S2 ltac:(lia)) as (Lp & _ & S3). apply nth_ext with (d := 0) (d' := 0); [rewrite !map_length, seq_length; auto|]. intros u Hu. rewrite map_length, Lp in Hu.
    rewrite (nth_map _ _ _ (0, 0)) by lia. rewrite (nth_map _ _ _ O) by (rewrite seq_length; auto). rewrite seq_nth by auto. rewrite S3 by auto. cbn [plus]. ring.
Qed.

Section Depths.
  Variables (link : list R -> tree) (uw : list (R * R)) (c : call).

  Lemma over_depth_axis h V t i x rows : rows_of h V <> None -> (i < List.length (b_bores V))%nat -> over_depth h V t i = Some (x, rows) -> x = if Nat.ltb 1 (nth i (b_n V) O) then mid_depths V i else ends V i.
  Proof.
    intros N Hi E. assert (P : exists rw, profile V i rw = (x, rows)).
    { unfold over_depth, heat_profile, temperature_profile, rows_of in *. destruct h, (b_stored V), t as [t|]; try (exfalso; apply N; reflexivity);
        repeat match goal with
        | H : (if ?b then _ else _) = Some _ |- _ => destruct b; try discriminate H
        | H : option_map _ ?o = Some _ |- _ => destruct o; [cbn [option_map] in H|discriminate H]
        end; injection E as E; eauto. }
    destruct P as [rw P]. unfold profile in P. destruct (Nat.ltb _ _); injection P as <- _; auto.
  Qed.

  Lemma vertical_depths h t iB n fp i pr : each_borehole c -> segmented (boreholes_of c) (segments_of c) (ratios_of c) -> good_ratios (ratios_of c) -> boundary c <> excluded h ->
    fig_d link uw c h t iB n = Some fp -> In (i, pr) fp -> btilt (nth i (boreholes_of c) no_bore) = 0 -> at_depths (nth i (boreholes_of c) no_bore) (nth i (ratios_of c) []) pr.
  Proof.
    intros Ea Sg Gr Nb F I Ti. destruct (fig_d_eval _ _ _ _ _ _ _ _ F) as [V E]. destruct (each_parts _ _ _ _ E Ea) as (B1 & B2 & B3 & _).
    destruct (call_rows _ _ _ h V E Nb) as [rows0 [Er _]]. rewrite <- B1, <- ?B2, <- B3 in *. rewrite (fig_d_on _ _ _ h V _ _ _ E) in F. apply depth_figure_curves in F. destruct F as [_ F].
    destruct (F i pr I) as [Hi (x & rows & y & X1 & X2 & L & ->)]. pose proof (over_depth_axis h V t i x rows ltac:(rewrite Er; discriminate) Hi X1) as X.
    unfold at_depths. assert (Y : forall x y : list R, List.length x = List.length y -> map snd (combine y x) = x) by (clear; induction x as [|a x IH]; intros [|b y] L; cbn in *; auto; try discriminate L; f_equal; apply IH; lia).
    rewrite Y by auto. destruct (ratios_one V Sg Gr i Hi) as [P _]. assert (Ln : List.length (nth i (b_r V) []) = nth i (b_n V) O) by (apply Sg; auto).
    rewrite Ln. unfold true_depth. rewrite Ti, cos_0. destruct (Nat.eqb_spec (nth i (b_n V) O) 1) as [E1|E1].
    - rewrite (proj2 (Nat.ltb_ge _ _)) in X by lia. rewrite X. unfold ends, bore_at. rewrite (nth_indep _ (Bore 0 0 0 0 0 0 0) no_bore) by auto. f_equal; [ring|f_equal; ring].
    - rewrite (proj2 (Nat.ltb_lt _ _)) in X by lia. rewrite X. apply nth_ext with (d := 0) (d' := 0); [rewrite (mid_depths_length V Sg i Hi), map_length, seq_length; auto|].
      intros u Hu. rewrite (mid_depths_length V Sg i Hi) in Hu. rewrite (mid_depths_nth V Sg) by auto. rewrite (nth_map _ _ _ O) by (rewrite seq_length; auto). rewrite seq_nth by auto. cbn [plus]. ring.
  Qed.
End Depths.
