From Coq Require Import String.
From Verif Require Import Base LinAlg FLS_Model.
From Verif Require Import Bore_Model Bore_Proofs Net_Model Net_Spec Solve_Model Solve_Spec Solve_Rec_Proofs Detailed_Model Detailed_Spec Detailed_Proofs Sim_Model Eq_Model Eq_Spec Eq_Cluster_Proofs GFun_Model GFun_Spec GFun_Eval_Proofs
  Prof_Model Prof_Spec Prof_Proofs Prof_Call_Proofs Prof_Main_Proofs Prof_Field_Proofs Prof_Fig_Proofs Prof_Depth_Proofs Prof_Shape_Proofs Prof_Last_Proofs.
Local Open Scope string_scope.
Local Open Scope R_scope.

Lemma data_none V data n : (0 < List.length (b_bores V))%nat -> data O = None -> depth_figure V data None n = None.
Proof. intros Nb E. unfold depth_figure. rewrite (all_some_none data _ O); auto. cbn [requested]. apply in_seq. lia. Qed.

Section Calls.
  Variables (link : list R -> tree) (uw : list (R * R)) (c : call).

  (** times out of the range of the object *)
  Lemma outside h g t z : boundary c <> excluded h -> each_borehole c -> gfunction link uw c = Some (G1 g) -> plain c \/ fluid c -> has_times c t -> z < hd 0 t \/ last t 0 < z ->
    forall n, fig_d link uw c h (Some z) None n = None.
  Proof.
    intros Nb Ea G Ok Ht Hz n. destruct (evaluated_some _ _ _ _ G) as [V E]. pose proof (lmax_bores _ _ _ V E) as Nx. destruct (each_parts _ _ _ _ E Ea) as (B1 & _). rewrite <- B1 in Nx.
    rewrite (fig_d_on _ _ _ h V _ _ _ E). apply data_none; auto. destruct (call_rows _ _ _ h V E Nb) as [rows [Er Lr]].
    pose proof (flow_rows _ _ _ _ _ O E G Ok eq_refl) as Fr.
    destruct (evaluated_parts _ _ _ _ E) as (q & s & y & g' & r & _ & _ & _ & T & _). unfold has_times in Ht. rewrite Ht in T. injection T as ->.
    destruct (over_depth h V (Some z) 0) as [w|] eqn:D; auto. exfalso.
    assert (K : b_k V = O).
    { destruct (figures_some link uw c _ V None O G Ok eq_refl E) as [[f1 F1] _]; [intros l j X; discriminate X|].
      apply (one_flow link uw c V g O E G). left. unfold heat_figure, on in F1. rewrite E in F1. unfold time_figure in F1. destruct (Net_Model.all_some _) as [d|] eqn:Dd; [|discriminate F1].
      apply all_some_F2 in Dd. cbn [requested] in Dd. destruct (F2_data _ _ _ O O Dd) as [b [_ B]]; [|eauto]. rewrite (nth_error_nth' _ O) by (rewrite seq_length; auto). now rewrite seq_nth. }
    destruct (at_rows V h rows Er _ _ _ K D) as [vs [Ev _]].
    assert (Nr : (0 < List.length rows)%nat).
    { unfold rows_of in Er. destruct h, (b_stored V); try discriminate Er; injection Er as <-; cbn; try lia; tauto. }
    rewrite (all_some_none _ rows (nth 0 rows [])) in Ev; [discriminate Ev|apply nth_In; auto|].
    unfold values_at, interp1d. replace (Rltb z (hd 0 (b_time V)) || Rltb (last (b_time V) 0) z)%bool with true; auto.
    symmetry. apply orb_true_iff. destruct Hz as [Hz|Hz]; [left|right]; apply Rltb_true; auto.
  Qed.

  (** several flows *)
  Lemma several_mixed V k g : evaluated link uw c = Some V -> gfunction link uw c = Some (G3 k g) -> (exists Q T, b_stored V = Mixed Q T) /\ b_k V = k /\ k <> O.
  Proof.
    intros E G. destruct (evaluated_parts _ _ _ _ E) as (q & s & y & g' & r & K & G' & Ee & Et & El & Ey & _ & Ek & _ & _ & St).
    rewrite G in G'. injection G' as <-. unfold evaluate in Ee. rewrite Et, El, Ey in Ee. unfold solve in Ee. unfold solve_stored in St. destruct (defined_at _ _); [|discriminate Ee].
    destruct (String.eqb _ "UHTR"); [discriminate Ee|]. destruct (String.eqb _ "UBWT"); [destruct (solve_ubwt _ _ _ _ _); discriminate Ee|].
    destruct (v_rows s) as [|r0 rs]; [discriminate Ee|]. destruct (Net_Model.all_some _) as [Fs|]; [|discriminate St]. cbv beta zeta in Ee, St.
    destruct (solve_mift _ _ _ _ _ _ _ _) as [[[g0 Q] T]|]; [|discriminate St]. injection St as <-.
    split; [eauto|]. destruct (Nat.eqb_spec (v_k s) 0); [discriminate Ee|]. injection Ee as <- _. rewrite Ek. auto.
  Qed.

  Lemma double_length (l : list R) : List.length (flat_map (fun v => [v; v]) l) = (2 * List.length l)%nat.
  Proof. induction l; cbn [flat_map app List.length]; lia. Qed.

  Lemma several_none h k g z n : each_borehole c -> segmented (boreholes_of c) (segments_of c) (ratios_of c) -> good_ratios (ratios_of c) -> (2 <= List.length (boreholes_of c))%nat ->
    gfunction link uw c = Some (G3 k g) -> fig_d link uw c h (Some z) None n = None.
  Proof.
    intros Ea Sg Gr Nb G. destruct (evaluated_some _ _ _ _ G) as [V E]. destruct (each_parts _ _ _ _ E Ea) as (B1 & B2 & B3 & _). destruct (several_mixed V k g E G) as [[Q [T D]] [Ek Nk]].
    assert (Ks : b_sources V = list_sum (b_n V)).
    { destruct (evaluated_parts _ _ _ _ E) as (q & s & y & g' & r & K & _ & _ & _ & _ & Y & _ & _ & Es & _). destruct (each_system link uw c q s y Ea K Y) as [Y1 _]. rewrite Es, Y1, B2. apply sources_sum; auto. }
    rewrite <- B1 in Sg, Nb. rewrite <- B2, <- B3 in Sg. rewrite <- B3 in Gr.
    rewrite (fig_d_on _ _ _ h V _ _ _ E). unfold depth_figure. destruct (Net_Model.all_some _) as [d|] eqn:Dd; auto. apply all_some_F2 in Dd. cbn [requested] in *.
    destruct (F2_data _ _ _ O O Dd) as [[x rw] [_ F]]; [rewrite (nth_error_nth' _ O) by (rewrite seq_length; lia); rewrite seq_nth by lia; auto|].
    apply (draw_none _ _ (over_depth h V (Some z)) _ _ _ O x rw Dd); auto; [lia|apply in_seq; lia|].
    assert (X : exists RR, profile V O RR = (x, rw) /\ forall v, In v RR -> List.length v = b_sources V).
    { assert (W : forall M vs, flows_at V z O M = Some vs -> forall v, In v vs -> List.length v = b_sources V).
      { intros M vs Ev v I. unfold flows_at in Ev. apply all_some_F2 in Ev. destruct (F2_in_r _ _ _ _ Ev I) as [a [_ A]]. unfold values_at in A. destruct (interp1d _ _); [|discriminate A]. injection A as <-. now rewrite map_length, seq_length. }
      assert (L0 : Nat.ltb 0 (List.length (b_bores V)) = true) by (apply Nat.ltb_lt; lia). pose proof (proj2 (Nat.eqb_neq k 0) Nk) as K0.
      destruct h; unfold over_depth in F; [unfold heat_profile in F|unfold temperature_profile in F]; rewrite D, Ek, L0, K0 in F.
      - destruct (flows_at V z O Q) as [vs|] eqn:Ev in F; [|discriminate F]. injection F as F. exists vs. split; eauto.
      - destruct (Nat.eqb _ _); [|discriminate F]. destruct (flows_at V z O T) as [vs|] eqn:Ev in F; [|discriminate F]. injection F as F. exists vs. split; eauto. }
    destruct X as [RR [P W]]. destruct (ratios_one V Sg Gr O ltac:(lia)) as [P0 _]. destruct (ratios_one V Sg Gr 1%nat ltac:(lia)) as [P1 _].
    assert (Big : (nth 0 (b_n V) O + nth 1 (b_n V) O <= b_sources V)%nat).
    { rewrite Ks. destruct Sg as [Ln _]. destruct (b_n V) as [|a [|b l]]; cbn [List.length nth] in *; try lia. unfold list_sum. cbn [fold_right]. lia. }
    intros y Ny. unfold profile in P. destruct (Nat.ltb_spec 1 (nth 0 (b_n V) O)) as [L|L]; injection P as <- <-.
    - rewrite (mid_depths_length V Sg O) by lia. rewrite (W y (nth_error_In _ _ Ny)). lia.
    - rewrite nth_error_map in Ny. destruct (nth_error RR n) as [v|] eqn:Nv; [|discriminate Ny]. cbn in Ny. injection Ny as <-. rewrite double_length, (W v (nth_error_In _ _ Nv)). cbn. lia.
  Qed.

  (** a uniform wall temperature *)
  Lemma wall_profile_none t n : agglomerative link -> boundary c = "UBWT" -> fig_d link uw c false t None n = None.
  Proof.
    intros Ag B. destruct (fig_d link uw c false t None n) as [f|] eqn:F; auto. destruct (fig_d_eval _ _ _ _ _ _ _ _ F) as [V E]. rewrite <- F. rewrite (fig_d_on _ _ _ false V _ _ _ E).
    pose proof (stored_kind _ _ _ V E) as K. rewrite B in K. destruct (b_stored V) eqn:D; try discriminate K.
    destruct (Nat.eq_dec (List.length (b_bores V)) 0) as [Z|Z]; [|apply data_none; [lia|]; unfold over_depth, temperature_profile; rewrite D; auto].
    exfalso. destruct (evaluated_parts _ _ _ _ E) as (q & s & y & g' & r & Kc & _ & _ & _ & Lm & Y & Sb & _). unfold solver_boreholes in Sb.
    destruct (String.eqb (lower (q_method q)) "equivalent") eqn:Em.
    - destruct (equivalent_boreholes _ _ _ _) as [EE|] eqn:Ee; [|discriminate Sb]. injection Sb as B1 _ _. rewrite <- B1, map_length in Z. destruct EE; [|discriminate Z].
      destruct (partition_main link (o_k (c_options c)) (o_tol (c_options c)) Ag (q_bs q)) as (ls & E1 & X1 & (X2 & X3 & _) & _); [destruct (q_bs q); [discriminate Lm|cbn; lia]|].
      rewrite Ee in X1. injection X1 as <-. specialize (X3 O). cbn in X3. assert (0 < List.length (q_bs q))%nat by (destruct (q_bs q); [discriminate Lm|cbn; lia]). specialize (X3 H). lia.
    - injection Sb as B1 _ _. rewrite <- B1 in Z. destruct (q_bs q); [discriminate Lm|discriminate Z].
  Qed.
End Calls.
