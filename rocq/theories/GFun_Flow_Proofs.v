(** Flows of the whole network and flows of each borehole. *)
From Coq Require Import String.
From Verif Require Import Base LinAlg FLS_Model.
From Verif Require Import Bore_Model Net_Model Net_Spec Net_Proofs Net_Coef_Proofs Net_Cache_Proofs Net_Heat_Proofs Net_Equiv_Proofs Net_More_Proofs Net_Extra_Proofs Solve_Model Detailed_Model Detailed_Spec Sim_Model Sim_Spec Eq_Model Eq_Spec
  GFun_Model GFun_Spec GFun_Eval_Proofs.
Local Open Scope R_scope.

Lemma forallb_repeat {A} (f : A -> bool) x k : (0 < k)%nat -> forallb f (repeat x k) = f x.
Proof.
  induction k as [|k IH]; intros H; [lia|]. cbn [repeat forallb]. destruct k as [|k]; [apply andb_true_r|]. rewrite IH by lia. apply andb_diag.
Qed.

Lemma Rsum_repeat x k : Rsum (repeat x k) = INR k * x.
Proof. induction k as [|k IH]; [cbn; lra|]. rewrite S_INR. change (x + Rsum (repeat x k) = (INR k + 1) * x). rewrite IH. lra. Qed.

Lemma map_same {A B} (f : A -> B) x k : map f (repeat x k) = repeat (f x) k.
Proof. induction k; cbn; f_equal; auto. Qed.

Section Shared.
  Variables (w : network) (ns : list nat) (rs : list (list R)) (cp m : R).
  Hypothesis Cw : connected w.
  Hypothesis Ln : List.length ns = List.length (w_b w).
  Hypothesis Lr : List.length rs = List.length (w_b w).
  Local Notation K := (nInlets (w_c w)).

  Lemma inlets_pos : (0 < K)%nat.
  Proof.
    clear - Cw. destruct Cw as [_ [conn B]]. destruct (build_wf _ _ _ B) as [W En]. destruct W as (_ & _ & _ & _ & P).
    destruct (Nat.eq_dec (nB (w_c w)) 0) as [Z|Z].
    - exfalso. destruct (build_some _ _ _ B) as [c0 [C _]]. rewrite En in Z. rewrite Z in C. revert C. unfold chains. intros. intuition lia.
    - destruct (P O ltac:(lia)) as [Q _]. lia.
  Qed.

  Lemma shared_format s r : format_inputs (w_c w) (mkargs [m * INR K] [cp] s r) = format_inputs (w_c w) (mkargs (repeat m K) [cp] s r).
  Proof.
    pose proof inlets_pos as Pk. assert (Pi : 0 < INR K) by (apply lt_0_INR; auto).
    assert (E1 : format_flow (w_c w) [m * INR K] = format_flow (w_c w) (repeat m K)).
    { cbn [format_flow]. replace (m * INR K / INR K) with m by (field; lra). unfold format_flow. destruct K as [|[|k]] eqn:E; [lia| |].
      - cbn [repeat INR]. replace (m / 1) with m by field. auto.
      - cbn [repeat]. cbn [List.length]. rewrite repeat_length, Nat.eqb_refl. auto. }
    assert (E2 : format_dir [m * INR K] = format_dir (repeat m K)).
    { unfold format_dir. rewrite !forallb_repeat by auto. cbn [forallb]. rewrite !andb_true_r.
      assert (A : Rleb 0 (m * INR K) = Rleb 0 m).
      { destruct (Rleb 0 m) eqn:E; [apply Rleb_true in E; apply Rleb_true; nra|apply Rleb_false in E; apply Rleb_false; nra]. }
      assert (B : Rleb (m * INR K) 0 = Rleb m 0).
      { destruct (Rleb m 0) eqn:E; [apply Rleb_true in E; apply Rleb_true; nra|apply Rleb_false in E; apply Rleb_false; nra]. }
      rewrite A, B. auto. }
    unfold format_inputs. cbn [g_m g_cp g_n g_r]. rewrite E1, E2. auto.
  Qed.

  Lemma shared_capacity : total_capacity [m * INR K] [cp] = total_capacity (repeat m K) [cp].
  Proof.
    pose proof inlets_pos as Pk. assert (Pi : 0 < INR K) by (apply lt_0_INR; auto). unfold total_capacity, bcast. cbn [List.length Nat.eqb combine map]. rewrite repeat_length.
    destruct (Nat.eqb_spec K 1) as [E|E].
    - rewrite E. cbn. f_equal. rewrite Rmult_1_r. auto.
    - destruct K as [|[|k]] eqn:EK; [lia|lia|]. cbn [repeat]. rewrite <- EK in *. change (m :: m :: repeat m k) with (repeat m (S (S k))). rewrite <- EK.
      cbn [option_map]. f_equal. rewrite map_same, Rsum_repeat. unfold Rsum. cbn. rewrite Rabs_mult, (Rabs_pos_eq (INR K)) by lra. ring.
  Qed.

  Lemma shared_fresh k s r F : format_inputs (w_c w) (mkargs [m * INR K] [cp] s r) = Some F -> List.length (f_rat F) = List.length (w_b w) ->
    fresh (w_c w) (w_p w) k (mkargs [m * INR K] [cp] s r) = fresh (w_c w) (w_p w) k (mkargs (repeat m K) [cp] s r).
  Proof.
    intros E L. destruct Cw as [Lp [conn B]]. destruct (build_wf _ _ _ B) as [W En].
    rewrite (fresh_direct (w_c w) (w_p w) k _ F W), (fresh_direct (w_c w) (w_p w) k (mkargs (repeat m K) [cp] s r) F W); auto.
    - split; [rewrite <- shared_format; auto|]. rewrite En. auto.
    - split; auto. rewrite En. auto.
  Qed.

  Lemma shared_some s r : (s = SegL ns \/ s = SegN 1) -> (r = Net_Model.RList rs \/ r = Net_Model.RNone) -> format_dir [m * INR K] <> None ->
    exists F, format_inputs (w_c w) (mkargs [m * INR K] [cp] s r) = Some F /\ List.length (f_rat F) = List.length (w_b w).
  Proof.
    intros S0 R0 D. destruct Cw as [Lp [conn B]]. destruct (build_wf _ _ _ B) as [W En]. unfold format_inputs. cbn [g_m g_cp g_n g_r format_flow format_cp].
    destruct (format_dir _) as [d|]; [|contradiction].
    assert (Q : exists l, format_seg (w_c w) s = Some l).
    { destruct S0 as [-> | ->]; [|eexists; reflexivity]. unfold format_seg. destruct ns as [|a [|b l]]; eauto; rewrite En, Ln, Nat.eqb_refl; eauto. }
    destruct Q as [l ->]. eexists. split; [reflexivity|]. cbn [f_rat]. destruct R0 as [-> | ->]; cbn [format_rat]; [rewrite map_length; auto|rewrite repeat_length; auto].
  Qed.

  Lemma shared_dir x : format_dir [x] <> None.
  Proof.
    unfold format_dir. cbn [forallb]. rewrite !andb_true_r. destruct (Rleb 0 x) eqn:E; [discriminate|]. apply Rleb_false in E.
    destruct (Rleb x 0) eqn:E'; [discriminate|]. apply Rleb_false in E'. lra.
  Qed.

  Lemma shared_flow : network_flow w ns rs [cp] [m * INR K] = network_flow w ns rs [cp] (repeat m K).
  Proof.
    destruct Cw as [Lp [conn B]]. destruct (build_wf _ _ _ B) as [W En].
    destruct (shared_some (SegL ns) (Net_Model.RList rs)) as (F & EF & LF); auto using shared_dir.
    destruct (shared_some (SegN 1) Net_Model.RNone) as (F1 & E1 & L1); auto using shared_dir.
    unfold network_flow. rewrite !(shared_fresh _ _ _ F EF LF), shared_capacity.
    assert (Q : network_thermal_resistance (w_c w) (w_p w) (Rsum (map bH (w_b w))) [m * INR K] [cp] = network_thermal_resistance (w_c w) (w_p w) (Rsum (map bH (w_b w))) (repeat m K) [cp]).
    { assert (Ga : good_args (w_c w) (w_p w) (mkargs [m * INR K] [cp] (SegN 1) Net_Model.RNone) F1) by (split; auto; rewrite En; auto).
      assert (Gb : good_args (w_c w) (w_p w) (mkargs (repeat m K) [cp] (SegN 1) Net_Model.RNone) F1) by (split; [rewrite <- shared_format; auto|]; rewrite En; auto).
      destruct (fresh_some_all _ _ _ F1 W Ga) as (a & o & qb & qf & h & no & _ & _ & _ & _ & Hh & Hn).
      rewrite (resistance_unfold _ _ _ _ _ F1 no h W Ga Hn Hh). rewrite (shared_fresh _ _ _ F1 E1 L1) in Hh. rewrite (shared_fresh _ _ _ F1 E1 L1) in Hn. rewrite (resistance_unfold _ _ _ _ _ F1 no h W Gb Hn Hh). auto. }
    rewrite Q. auto.
  Qed.
End Shared.

Section Objects.
  Variables (link : list R -> tree) (uw : list (R * R)).

  (** A flow of the network is shared equally by its circuits. *)
  Lemma shared_gfunction c w m x : c_source c = Piped w -> connected w -> c_bc c = Some "MIFT"%string -> lower (c_method c) <> "equivalent"%string ->
    List.length (segments_of c) = List.length (w_b w) -> List.length (ratios_of c) = List.length (w_b w) ->
    gfunction link uw (with_flow c VNone (VFloat (m * INR (nInlets (w_c w)))) (VFloat x))
    = gfunction link uw (with_flow c (VArr (repeat m (nInlets (w_c w)))) VNone (VFloat x)).
  Proof.
    intros Es Cw Eb Em Ln Lr. pose proof (inlets_pos w Cw) as Pk. set (K := nInlets (w_c w)) in *.
    assert (M : String.eqb (lower (c_method c)) "equivalent" = false) by (apply String.eqb_neq; auto).
    unfold gfunction, construct. cbn [with_flow c_time].
    assert (R1 : resolve (with_flow c VNone (VFloat (m * INR K)) (VFloat x)) = Some (mkrequest (w_b w) (Some w) (c_method c) "MIFT" VNone (VFloat (m * INR K)) (VFloat x))).
    { unfold resolve. cbn [with_flow c_source c_bc c_method c_mb c_mn c_cp]. rewrite Es, Eb, M, andb_false_r. reflexivity. }
    assert (R2 : resolve (with_flow c (VArr (repeat m K)) VNone (VFloat x)) = Some (mkrequest (w_b w) (Some w) (c_method c) "MIFT" (VArr (repeat m K)) VNone (VFloat x))).
    { unfold resolve. cbn [with_flow c_source c_bc c_method c_mb c_mn c_cp]. rewrite Es, Eb, M, andb_false_r. reflexivity. }
    rewrite R1, R2.
    assert (Ck : check (with_flow c VNone (VFloat (m * INR K)) (VFloat x)) (mkrequest (w_b w) (Some w) (c_method c) "MIFT" VNone (VFloat (m * INR K)) (VFloat x))
      = check (with_flow c (VArr (repeat m K)) VNone (VFloat x)) (mkrequest (w_b w) (Some w) (c_method c) "MIFT" (VArr (repeat m K)) VNone (VFloat x))) by reflexivity.
    rewrite Ck. destruct (check _ _); [|reflexivity].
    unfold make_solver. cbn [q_bs q_net q_method q_bc q_mb q_mn q_cp solver_flows c_options with_flow].
    unfold check_flows. cbn [q_bs q_net q_method q_bc q_mb q_mn q_cp is_none negb andb]. change (String.eqb "MIFT" "MIFT") with true. cbv iota. cbn [hd]. rewrite repeat_length.
    fold K. rewrite Nat.eqb_refl. cbn [andb]. rewrite M.
    set (ns := format_segments _ _). set (rs := format_ratios _ _ _). 
    assert (Ens : ns = segments_of c) by (unfold segments_of, boreholes_of; rewrite Es; auto).
    assert (Ers : rs = ratios_of c) by (unfold ratios_of, segments_of, boreholes_of; rewrite Es; auto).
    assert (SF : network_flow w ns rs [x] [m * INR K] = network_flow w ns rs [x] (repeat m K)) by (apply shared_flow; auto; congruence).
    destruct (check_segments _ _ _); [|reflexivity].
    assert (Ev : forall sv t, String.eqb (lower (c_method c)) "detailed" || String.eqb (lower (c_method c)) "similarities" = true ->
      evaluate link uw (with_flow c VNone (VFloat (m * INR K)) (VFloat x)) (mkrequest (w_b w) (Some w) (c_method c) "MIFT" VNone (VFloat (m * INR K)) (VFloat x), mksolver ns rs 0 [[m * INR K]] sv) t
      = evaluate link uw (with_flow c (VArr (repeat m K)) VNone (VFloat x)) (mkrequest (w_b w) (Some w) (c_method c) "MIFT" (VArr (repeat m K)) VNone (VFloat x), mksolver ns rs 0 [repeat m K] sv) t).
    { intros sv t Ho. unfold evaluate. cbn [q_bs q_net q_method q_bc q_mb q_mn q_cp v_k v_rows]. destruct (times t) as [tl|]; auto. destruct (lmax _) as [rb|]; auto.
      unfold make_system. cbn [q_bs q_net q_method q_bc q_mb q_mn q_cp numbers].
      destruct (String.eqb (lower (c_method c)) "detailed").
      - unfold solve, detailed_system. cbn [y_n y_H y_h y_flow y_Hi v_n v_r q_net q_bs map]. rewrite SF. reflexivity.
      - cbn [orb] in Ho. rewrite Ho. unfold solve, similarities_system. cbn [y_n y_H y_h y_flow y_Hi v_n v_r q_net q_bs map]. rewrite SF. reflexivity. }
    destruct (String.eqb (lower (c_method c)) "detailed") eqn:Ed; [destruct (c_time c); auto; apply Ev; auto|].
    destruct (String.eqb (lower (c_method c)) "similarities") eqn:E2; [|reflexivity].
    destruct (Rltb 0 _ && Rltb 0 _); [|reflexivity]. destruct (c_time c); auto; apply Ev; auto.
  Qed.
End Objects.
