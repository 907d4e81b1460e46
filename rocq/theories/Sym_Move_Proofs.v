(** The g-function of a moved field. *)
From Coq Require Import String FunctionalExtensionality.
From Verif Require Import Base LinAlg FLS_Model.
From Verif Require Import Bore_Model Bore_Spec Bore_Proofs Net_Model Solve_Model Detailed_Model Detailed_Spec Sim_Model Eq_Model GFun_Model GFun_Spec GFun_Eval_Proofs GFun_Methods_Proofs Sym_Spec Sym_Geo_Proofs Sym_Det_Proofs Sym_Sim_Proofs Sym_Incl_Proofs Sym_Eq_Proofs.
Local Open Scope R_scope.

Lemma check_some c q : check c q = true -> (0 < List.length (q_bs q))%nat /\ find_duplicates (q_bs q) = Some [].
Proof.
  unfold check. intros K. repeat (apply andb_true_iff in K as [K ?]). split.
  - destruct (q_bs q); cbn in *; [discriminate|lia].
  - destruct (find_duplicates (q_bs q)) as [[|x l]|]; auto; discriminate.
Qed.

Lemma heads_apart bs a b : find_duplicates bs = Some [] -> (forall x, In x bs -> 0 < br x) -> (a < List.length bs)%nat -> (b < List.length bs)%nat -> a <> b ->
  planar (nth a bs no_bore) (nth b bs no_bore) <> 0.
Proof.
  intros D Rx Ha Hb Nab E0. destruct (lmax (map br bs)) as [r|] eqn:Er. 2: { unfold find_duplicates in D. rewrite Er in D. discriminate. }
  apply lmax_radius in Er. destruct (find_duplicates_spec bs r Er) as (ps & E & _ & K). rewrite D in E. injection E as <-. destruct Er as [(b1 & Ib & Eb) _]. pose proof (Rx b1 Ib).
  assert (Sy : forall x y, planar x y = planar y x) by (intros x y; unfold planar; f_equal; ring).
  destruct (Nat.lt_ge_cases a b) as [L|L].
  - apply (proj2 (K a b)). split; [lia|]. unfold planar, no_bore in E0. unfold plane_dist, b0. rewrite E0. lra.
  - apply (proj2 (K b a)). split; [lia|]. rewrite Sy in E0. unfold planar, no_bore in E0. unfold plane_dist, b0. rewrite E0. lra.
Qed.

Section Move.
  Variable m : motion.
  Local Notation mv := (moved m).

  Definition moved_request (q : request) : request :=
    mkrequest (map mv (q_bs q)) (option_map (moved_network m) (q_net q)) (q_method q) (q_bc q) (q_mb q) (q_mn q) (q_cp q).
  Definition moved_solver (s : solver) : solver := mksolver (v_n s) (v_r s) (v_k s) (v_rows s) (option_map (moved_network m) (v_net s)).

  Lemma moved_resolve c : resolve (moved_call m c) = option_map moved_request (resolve c).
  Proof.
    unfold resolve. destruct c as [src alpha t me bc mb mn cp o]. cbn [moved_call c_source c_bc c_mb c_mn c_cp c_method]. destruct src as [bs|w]; cbn [moved_source].
    - destruct (_ && _); auto.
    - cbn [moved_network w_m w_cp w_b]. unfold parallel, same_pipes. cbn [moved_network w_Rd w_c].
      repeat match goal with |- context [if ?b then _ else _] => destruct b | |- context [match ?x with _ => _ end] => destruct x end; auto.
  Qed.

  Lemma moved_check c q : check (moved_call m c) (moved_request q) = check c q.
  Proof.
    unfold check. destruct c as [src alpha t me bc mb mn cp o]. cbn [moved_call c_time moved_request q_bs q_net q_bc q_mb q_mn q_cp q_method]. rewrite map_length, mv_duplicates.
    destruct (q_net q) as [w|]; cbn [option_map]; auto.
  Qed.

  Lemma moved_equivalent_network q : equivalent_network (moved_request q) = option_map (option_map (moved_network m)) (equivalent_network q).
  Proof.
    unfold equivalent_network. cbn [moved_request q_bc q_net q_mb]. destruct (String.eqb (q_bc q) "MIFT"); auto. destruct (q_net q) as [w|]; cbn [option_map]; auto.
    change (parallel (moved_network m w)) with (parallel w). destruct (parallel w && is_none (q_mb q)); auto. change (same_pipes (moved_network m w)) with (same_pipes w).
    destruct (same_pipes w) as [[|]|]; auto. cbn [option_map]. unfold moved_network. cbn [w_b w_p w_ks w_Rd w_c w_m w_cp]. rewrite map_length. auto.
  Qed.

  Lemma moved_make o q : make_solver o (moved_request q) = option_map moved_solver (make_solver o q).
  Proof.
    unfold make_solver. rewrite moved_equivalent_network. unfold check_flows, equivalent_checks. cbn [moved_request q_bs q_net q_bc q_mb q_mn q_cp q_method]. rewrite map_length. cbv zeta.
    destruct (solver_flows _ _) as [[k rows]|]; auto.
    assert (S1 : forall ns rs, check_segments (map mv (q_bs q)) ns rs = check_segments (q_bs q) ns rs) by (intros ns rs; unfold check_segments; rewrite map_length; auto).
    assert (S2 : forallb (fun b => negb (tilted (btilt b))) (map mv (q_bs q)) = forallb (fun b => negb (tilted (btilt b))) (q_bs q)).
    { clear S1. generalize (q_bs q). intros l. induction l as [|b l IH]; cbn [map forallb]; auto. rewrite IH. reflexivity. }
    rewrite S1, S2.
    assert (S3 : match q_mb q, option_map (moved_network m) (q_net q) with
       | VNone, _ => true
       | _, Some w => Nat.eqb (List.length (hd [] rows)) (nInlets (w_c w))
       | _, None => false
       end = match q_mb q, q_net q with
       | VNone, _ => true
       | _, Some w => Nat.eqb (List.length (hd [] rows)) (nInlets (w_c w))
       | _, None => false
       end) by (destruct (q_mb q), (q_net q); auto).
    rewrite S3. destruct (_ && check_segments _ _ _); auto. destruct (String.eqb (lower (q_method q)) "detailed"); auto.
    destruct (String.eqb (lower (q_method q)) "similarities"). { destruct (_ && _); auto. }
    destruct (String.eqb (lower (q_method q)) "equivalent"); auto. destruct (_ && _ && _ && _ && _); auto. destruct (equivalent_network q); auto.
  Qed.

  Lemma moved_construct c : construct (moved_call m c) = option_map (fun qs => (moved_request (fst qs), moved_solver (snd qs))) (construct c).
  Proof.
    unfold construct. rewrite moved_resolve. destruct (resolve c) as [q|]; cbn [option_map]; auto. rewrite moved_check. destruct (check c q); auto.
    change (c_options (moved_call m c)) with (c_options c). rewrite moved_make. destruct (make_solver _ q); cbn [option_map]; auto.
  Qed.

  Lemma moved_flow w ns rs cp : network_flow (moved_network m w) ns rs cp = network_flow w ns rs cp.
  Proof. unfold network_flow. cbn [moved_network w_c w_p w_b]. rewrite mv_lengths. reflexivity. Qed.

  Lemma moved_flows q ns rs cp :
    match q_net (moved_request q) with Some w => network_flow w ns rs cp | None => no_flow end = match q_net q with Some w => network_flow w ns rs cp | None => no_flow end.
  Proof. cbn [moved_request q_net]. destruct (q_net q) as [w|]; cbn [option_map]; auto. apply moved_flow. Qed.

  Section Field.
    Variables (bs : list bore) (ns : list nat) (rs : list (list R)).
    Hypothesis P : plain_tilts bs.
    Local Notation B := (bore_segments bs ns rs).

    Lemma moved_B : bore_segments (map mv bs) ns rs = map mv B.
    Proof. unfold bore_segments. apply mv_borehole_segments. auto. Qed.

    Lemma moved_sources : n_sources (map mv bs) ns rs = n_sources bs ns rs.
    Proof. unfold n_sources. rewrite moved_B, map_length. auto. Qed.

    Lemma moved_segment_length : segment_length (map mv bs) ns rs = segment_length bs ns rs.
    Proof.
      unfold segment_length. rewrite moved_B. apply functional_extensionality. intros k. destruct (Nat.lt_ge_cases k (length B)) as [Hk|Hk].
      - rewrite (nth_indep (map mv B) _ (mv (Bore 0 0 0 0 0 0 0))) by (rewrite map_length; auto). rewrite map_nth. auto.
      - rewrite !nth_overflow by (rewrite ?map_length; auto). auto.
    Qed.

    Lemma moved_detailed alpha t uw i j : (i < n_sources bs ns rs)%nat -> (j < n_sources bs ns rs)%nat ->
      detailed_matrix (line_kernel alpha t uw) (map mv bs) ns rs i j = detailed_matrix (line_kernel alpha t uw) bs ns rs i j.
    Proof.
      unfold n_sources. intros Hi Hj. symmetry.
      assert (S : forall k, (k < length B)%nat -> nth k (bore_segments (map mv bs) ns rs) no_bore = mv (nth k B no_bore)).
      { intros k Hk. rewrite moved_B. rewrite (nth_indep (map mv B) _ (mv no_bore)) by (rewrite map_length; auto). apply map_nth. }
      apply detailed_agree; auto.
      - rewrite map_length. auto.
      - rewrite map_map. apply map_ext. intros b. symmetry. apply mv_vertical.
      - rewrite moved_B, map_length. auto.
      - rewrite moved_B, map_map. apply map_ext. intros b. symmetry. apply mv_vertical.
      - intros v a b Ha Hb. rewrite !S by auto. symmetry. apply mv_line_kernel; apply (borehole_segments_plain bs P ns rs); apply nth_In; auto.
      - intros a b Ha Hb. rewrite !S by auto. auto.
    Qed.

    Lemma segs_dir i e : (i < length bs)%nat -> In e (segments (nth i bs no_bore) (nth i ns 0%nat) (Some (nth i rs []))) ->
      plain e /\ btilt e = btilt (nth i bs no_bore) /\ bori e = (if tilted (btilt (nth i bs no_bore)) then bori (nth i bs no_bore) else 0).
    Proof.
      intros Hi He. split. { apply (segments_plain (nth i bs no_bore) (nth i ns 0%nat) (Some (nth i rs []))); auto. apply P. apply nth_In. auto. }
      unfold segments in He. apply in_map_iff in He as [[z x] [<- _]]. auto.
    Qed.

    Lemma moved_similar tol disTol alpha t uw : (0 < length bs)%nat -> (forall a b, (a < length bs)%nat -> (b < length bs)%nat -> a <> b -> (forall x, In x bs -> 0 < br x) -> planar (nth a bs no_bore) (nth b bs no_bore) <> 0) ->
      displacement m \/ all_vertical bs \/ clear_plan disTol bs ns rs ->
      sim_matrix tol disTol (map mv bs) ns rs (kernel_v alpha t) (kernel_i alpha t uw) = sim_matrix tol disTol bs ns rs (kernel_v alpha t) (kernel_i alpha t uw).
    Proof.
      intros NE Ap St. apply (image_matrix mv); auto.
      - intros a b. apply mv_planar.
      - intros b n o Hb. apply mv_segments. apply P. auto.
      - intros i j p1 p2 Hi Hj H1 H2. destruct p1 as [e1 r1], p2 as [e2 r2]. apply in_prod_iff in H1 as [He1 Hr1]. apply in_prod_iff in H2 as [He2 Hr2].
        destruct (segs_dir i e1 Hi He1) as [A1 [A2 A3]], (segs_dir i e2 Hi He2) as [B1 [B2 B3]], (segs_dir j r1 Hj Hr1) as [C1 [C2 C3]], (segs_dir j r2 Hj Hr2) as [D1 [D2 D3]].
        destruct St as [St|[St|St]].
        + apply compare_still; auto.
        + apply compare_upright; cbn [fst snd]; rewrite ?A2, ?B2, ?C2, ?D2; apply St; apply nth_In; auto.
        + destruct St as [St1 [St2 St3]]. apply compare_clear; cbn [fst snd]; auto; try congruence; unfold pdis; cbn [fst snd]; [apply (St3 i j e1 r1)|apply (St3 i j e2 r2)]; auto.
      - intros i j a b Hi Hj Ha Hb Nij Nab.
        assert (Q : forall k, (k < length bs)%nat -> plain (nth k bs no_bore)) by (intros k Hk; apply P; apply nth_In; auto).
        destruct St as [St|[St|St]].
        + apply (compare_still m tol disTol (nth i bs no_bore, nth j bs no_bore) (nth a bs no_bore, nth b bs no_bore)); cbn [fst snd]; auto.
        + apply (compare_upright m tol disTol (nth i bs no_bore, nth j bs no_bore) (nth a bs no_bore, nth b bs no_bore)); cbn [fst snd]; apply St; apply nth_In; auto.
        + destruct St as [_ [St2 _]]. apply (compare_apart m tol disTol (nth i bs no_bore, nth j bs no_bore) (nth a bs no_bore, nth b bs no_bore)); cbn [fst snd]; auto; apply Ap; auto.
      - intros i j p Hi Hj Hp. destruct p as [e r]. apply in_prod_iff in Hp as [He Hr]. apply mv_kernel_i; cbn [fst snd]. + apply (segs_dir i); auto. + apply (segs_dir j); auto.
    Qed.
  End Field.

  Variables (link : list R -> tree) (uw : list (R * R)).

  Lemma moved_gfunction c : plain_tilts (boreholes_of c) -> (lower (c_method c) <> "detailed"%string -> settled m c) ->
    gfunction link uw (moved_call m c) = gfunction link uw c.
  Proof.
    intros P St. unfold gfunction. rewrite moved_construct. change (c_time (moved_call m c)) with (c_time c). destruct (construct c) as [[q s]|] eqn:Ec; cbn [option_map fst snd]; auto.
    assert (Ev : forall t, evaluate link uw (moved_call m c) (moved_request q, moved_solver s) t = evaluate link uw c (q, s) t).
    2: { destruct (c_time c); auto. }
    intros t. pose proof (construct_boreholes c q s Ec) as Eb. destruct (make_segments c q s Ec) as [En Er].
    unfold evaluate. cbn [moved_request q_bs q_bc q_net]. rewrite mv_radii. destruct (times t) as [tl|]; auto. destruct (lmax (map br (q_bs q))) as [rb|]; auto.
    change (c_alpha (moved_call m c)) with (c_alpha c). change (c_options (moved_call m c)) with (c_options c).
    replace (match option_map (moved_network m) (q_net q) with Some w => nth 0 (w_ks w) 0 | None => 0 end) with (match q_net q with Some w => nth 0 (w_ks w) 0 | None => 0 end) by (destruct (q_net q); auto).
    assert (Pq : plain_tilts (q_bs q)) by (rewrite Eb; auto).
    unfold make_system. cbn [moved_request q_cp q_method].
    destruct (String.eqb_spec (lower (q_method q)) "detailed") as [Md|Md].
    { change (v_k (moved_solver s)) with (v_k s). change (v_rows (moved_solver s)) with (v_rows s). apply solve_same.
      - cbn [detailed_system y_n moved_request q_bs]. apply moved_sources. auto.
      - cbn [detailed_system y_H moved_request q_bs]. apply moved_segment_length. auto.
      - cbn [detailed_system y_Hi moved_request q_bs]. apply moved_segment_length. auto.
      - unfold detailed_system. cbn [y_flow]. apply moved_flows.
      - intros t0. unfold detailed_system. cbn [y_h y_n moved_request q_bs moved_solver v_n v_r]. eexists. eexists. split; [reflexivity|]. split; [reflexivity|].
        intros i j Hi Hj. change (c_alpha (moved_call m c)) with (c_alpha c). rewrite moved_sources in Hi, Hj by auto. apply moved_detailed; auto. }
    assert (Mc : lower (c_method c) <> "detailed"%string).
    { intros K. apply Md. unfold construct in Ec. destruct (resolve c) as [q0|] eqn:Er0; [|discriminate]. destruct (check c q0); [|discriminate]. destruct (make_solver _ q0); [|discriminate]. injection Ec as -> _.
      unfold resolve in Er0. rewrite K in Er0. change (String.eqb "detailed" "equivalent") with false in Er0. rewrite andb_false_r in Er0. injection Er0 as <-. auto. }
    specialize (St Mc). change (v_k (moved_solver s)) with (v_k s). change (v_rows (moved_solver s)) with (v_rows s).
    destruct (String.eqb_spec (lower (q_method q)) "similarities") as [Ms|Ms].
    { f_equal. unfold similarities_system. cbn [moved_request q_bs moved_solver v_n v_r]. f_equal.
      - apply moved_sources. auto.
      - apply moved_segment_length. auto.
      - apply moved_segment_length. auto.
      - apply functional_extensionality. intros t0. change (c_alpha (moved_call m c)) with (c_alpha c). change (c_options (moved_call m c)) with (c_options c).
        apply moved_similar; auto.
        + unfold construct in Ec. destruct (resolve c) as [q0|]; [|discriminate]. destruct (check c q0) eqn:Ck; [|discriminate]. destruct (make_solver _ q0); [|discriminate]. injection Ec as -> _.
          apply check_some in Ck. apply Ck.
        + unfold construct in Ec. destruct (resolve c) as [q0|]; [|discriminate]. destruct (check c q0) eqn:Ck; [|discriminate]. destruct (make_solver _ q0); [|discriminate]. injection Ec as -> _.
          apply check_some in Ck. intros a b Ha Hb Nab Rx. apply heads_apart; auto. apply Ck.
        + rewrite Eb, En, Er. exact St.
      - apply moved_flows. }
    unfold equivalent_system. cbn [moved_request q_bs moved_solver v_n v_r q_bc q_net]. change (c_alpha (moved_call m c)) with (c_alpha c). change (c_options (moved_call m c)) with (c_options c).
    pose proof (mv_equivalent m link (o_k (c_options c)) (o_tol (c_options c)) (o_disTol (c_options c)) (c_alpha c) (q_bs q) (hd O (v_n s)) (hd [] (v_r s))) as K.
    destruct (equivalent link _ _ _ _ (q_bs q) _ _) as [[[E H] h]|], (equivalent link _ _ _ _ (map mv (q_bs q)) _ _) as [[[E' H'] h']|]; try contradiction; auto.
    destruct K as [K1 [K2 K3]]. subst H'. apply functional_extensionality in K3. subst h'. rewrite <- (shape_length _ _ K1).
    rewrite <- (shape_Hi _ _ _ _ K1), <- (shape_counts _ _ K1), <- (shape_total _ _ K1). rewrite mv_clusters.
    destruct (String.eqb (q_bc q) "MIFT"); auto. destruct (q_net q) as [w|]; cbn [option_map]; auto.
  Qed.
End Move.
