(** Several mass flow rates at once. *)
From Coq Require Import String.
From Verif Require Import Base LinAlg FLS_Model.
From Verif Require Import Bore_Model Net_Model Net_Spec Net_Proofs Net_Coef_Proofs Net_Cache_Proofs Net_Heat_Proofs Net_Equiv_Proofs Net_More_Proofs Net_Extra_Proofs
  Solve_Model Solve_Spec Solve_Loop_Proofs Solve_Rec_Proofs Solve_Eq_Proofs Solve_Sol_Proofs Solve_Extra_Proofs Detailed_Model Detailed_Spec Detailed_Proofs Detailed_Sol_Proofs Sim_Model Sim_Spec Eq_Model Eq_Spec
  GFun_Model GFun_Spec GFun_Causal_Proofs GFun_Eval_Proofs GFun_Uniform_Proofs GFun_Methods_Proofs GFun_Mift_Proofs GFun_Two_Proofs.
Local Open Scope R_scope.

Section Solvers.
  Variables (n : nat) (H : vec) (resp : nat -> nat -> R -> R) (k_s : R) (Hi : vec).
  Local Notation trf := (Solve_Spec.on_grid resp).

  Lemma mift_each Fs time g Q T i : positive time -> solve_mift n H trf k_s Hi Fs time 0 = Some (g, Q, T) -> (i < List.length Fs)%nat ->
    exists g' Q' T', solve_mift n H trf k_s Hi [nth i Fs flow0] time 0 = Some (g', Q', T') /\ forall p, g' O O p = g i i p.
  Proof.
    intros P E Hi0. rewrite mift_zero in E by auto. destruct (runs_of n H trf k_s Hi Fs time) as [rs|] eqn:Er; [|discriminate]. cbv zeta in E. injection E as <- _ _.
    destruct (runs_nth _ _ _ _ _ _ _ _ i Er Hi0) as [L Rn]. rewrite mift_zero by auto.
    assert (R1 : runs_of n H trf k_s Hi [nth i Fs flow0] time = Some [nth i rs ([], [])]).
    { unfold runs_of. cbn [map Net_Model.all_some]. rewrite Rn. auto. }
    rewrite R1. cbv zeta. do 3 eexists. split; [reflexivity|]. intros p. unfold g_runs. rewrite !Nat.eqb_refl. cbn [map nth]. rewrite pad_nth by lia. reflexivity.
  Qed.

  Lemma mift_twins Fs time g Q T i j p : (0 < n)%nat -> grid time -> solve_mift n H trf k_s Hi Fs time 0 = Some (g, Q, T) ->
    (i < List.length Fs)%nat -> (j < List.length Fs)%nat -> (p < List.length time)%nat -> nth i Fs flow0 = nth j Fs flow0 ->
    k_s <> 0 -> (forall i, (i < n)%nat -> Hi i = H i /\ H i <> 0) -> consistent_flow n (nth i Fs flow0) ->
    g i j p = g j j p.
  Proof.
    intros Hn G E Li Lj Lp EF Hk HH (C1 & C2 & C3). destruct (Nat.eq_dec i j) as [->|Nij]; auto.
    destruct (mift_superposed n H resp k_s Hi Fs time g Q T j p Hn G E Lj Lp) as [_ [[Tin [Eg W]] X]]. rewrite (X i Li Nij), Eg, EF. symmetry. rewrite EF in C1, C2, C3.
    eapply cross_diagonal; eauto. apply (mift_normal n H trf k_s Hi Fs time 0 g Q T j p E Lj Lp).
  Qed.
End Solvers.

Lemma fresh_unformatted N ps g : format_inputs N g = None -> fresh N ps BoreHeat g = None.
Proof. intros E. unfold fresh. cbn [Net_Model.call]. unfold m_qb, cached. cbn [init_state s_store repeat nth check_coefficients]. rewrite E. destruct (check_coefficients _ _) as [[|]|]; reflexivity. Qed.

(** The flow of the network is the sum of those of the segments *)
Lemma owner_pos_total ns : seg_total ns = list_sum ns.
Proof. induction ns as [|a ns IH]; auto. rewrite seg_total_cons, IH. auto. Qed.

Lemma network_consistent w ns rs cp row F : connected w -> List.length ns = List.length (w_b w) -> List.length rs = List.length (w_b w) -> balanced_pipes w ns rs cp row ->
  (exists f, format_inputs (w_c w) (mkargs row cp (SegL ns) (Net_Model.RList rs)) = Some f) ->
  network_flow w ns rs cp row = Some F -> f_net_in F = sumn (list_sum ns) (f_in F) /\ forall k, (k < list_sum ns)%nat -> f_net_b F k = sumn (list_sum ns) (fun i => f_b F i k).
Proof.
  intros [Lp [conn B]] Ln Lr Bal [f Ef] EF. destruct (build_wf _ _ _ B) as [W En].
  assert (Sg : f_seg f = ns /\ f_rat f = map Some rs).
  { unfold format_inputs in Ef. cbn [g_m g_cp g_n g_r] in Ef. destruct (format_flow _ _); [|discriminate]. destruct (format_dir _); [|discriminate]. destruct (format_cp _ _); [|discriminate].
    destruct (format_seg _ _) as [s|] eqn:Es; [|discriminate]. injection Ef as <-. cbn [f_seg f_rat]. split; auto. unfold format_seg in Es. rewrite En in Es.
    destruct ns as [|a [|a2 ns]]; [rewrite <- Ln in Es; cbn in Es; congruence| |rewrite Ln, Nat.eqb_refl in Es; congruence]. rewrite <- Ln in Es. cbn in Es. congruence. }
  destruct Sg as [Sg Rg].
  assert (G : good_args (w_c w) (w_p w) (mkargs row cp (SegL ns) (Net_Model.RList rs)) f) by (split; auto; rewrite Rg, map_length, En; auto).
  assert (HP : every_pipe pipe_balanced (w_c w) (w_p w) f).
  { unfold balanced_pipes, the_fmt in Bal. rewrite Ef in Bal. exact Bal. }
  unfold network_flow in EF. destruct (fresh _ _ BoreHeat _) as [qb|] eqn:Eb; [|discriminate]. destruct (fresh _ _ NetHeat _) as [h|] eqn:Eh; [|discriminate].
  destruct (network_thermal_resistance _ _ _ _ _); [|discriminate]. destruct (total_capacity _ _); [|discriminate]. injection EF as <-. cbn [f_net_in f_in f_net_b f_b].
  assert (X := fun t Tb => heat_sum_segments (w_c w) (w_p w) _ f t Tb h qb W G HP Eh Eb). cbv zeta in X. rewrite Sg, owner_pos_total in X. split.
  - specialize (X 1 (fun _ => 0)). rewrite coef_in in X. rewrite X. apply sumn_ext. intros i _. apply coef_in.
  - intros k Hk. specialize (X 0 (unit_at k)). rewrite coef_b in X by auto. rewrite X. apply sumn_ext. intros i _. apply coef_b. auto.
Qed.

Section Objects.
  Variables (link : list R -> tree) (uw : list (R * R)).

  Lemma solve_each bc k_s k rows y time thr v i : positive time -> (forall t, In t time -> thr < t) -> 0 <= thr -> bc <> "UHTR"%string -> bc <> "UBWT"%string -> List.length rows = k ->
    solve bc k_s k rows y time thr = Some (G3 k v) -> (i < k)%nat ->
    solve bc k_s 0 [nth i rows []] y time thr = Some (G1 (map (v i i) (seq 0 (List.length time)))).
  Proof.
    intros P A T B1 B2 Lk E Hi. unfold solve in *. destruct (defined_at _ _); [|discriminate]. apply String.eqb_neq in B1, B2. rewrite B1, B2 in *.
    destruct rows as [|r rows]; [discriminate|]. destruct (Net_Model.all_some (map (y_flow y) (r :: rows))) as [Fs|] eqn:EF; [|discriminate].
    rewrite at_times_grid in *. rewrite mift_above in E by auto. destruct (solve_mift _ _ _ _ _ Fs time 0) as [[[g Q] T0]|] eqn:Es; [|discriminate].
    destruct (Nat.eqb_spec k 0); [discriminate|]. injection E as <-. destruct (all_some_nth _ _ flow0 EF) as [LF NF]. rewrite map_length in LF, NF.
    assert (E1 : y_flow y (nth i (r :: rows) []) = Some (nth i Fs flow0)).
    { rewrite <- NF by lia. symmetry. rewrite (nth_indep _ None (y_flow y [])) by (rewrite map_length; lia). apply map_nth. }
    cbn [map Net_Model.all_some]. rewrite E1. rewrite mift_above by auto.
    destruct (mift_each _ _ _ _ _ Fs time g Q T0 i P Es ltac:(lia)) as (g' & Q' & T' & Es' & V). rewrite Es'. cbn [Nat.eqb]. do 2 f_equal. apply map_ext. auto.
  Qed.

  Lemma solve_twins bc k_s k rows y time thr v i j p : grid time -> (forall t, In t time -> thr < t) -> 0 <= thr -> bc <> "UHTR"%string -> bc <> "UBWT"%string -> List.length rows = k ->
    (0 < y_n y)%nat -> k_s <> 0 -> (forall i, (i < y_n y)%nat -> y_Hi y i = y_H y i /\ y_H y i <> 0) ->
    solve bc k_s k rows y time thr = Some (G3 k v) -> (i < k)%nat -> (j < k)%nat -> (p < List.length time)%nat -> nth i rows [] = nth j rows [] ->
    (forall F, y_flow y (nth i rows []) = Some F -> consistent_flow (y_n y) F) -> v i j p = v j j p.
  Proof.
    intros G A T B1 B2 Lk Hn Hk HH E Hi Hj Hp Er Cf. unfold solve in *. destruct (defined_at _ _); [|discriminate]. apply String.eqb_neq in B1, B2. rewrite B1, B2 in *.
    destruct rows as [|r rows]; [discriminate|]. destruct (Net_Model.all_some (map (y_flow y) (r :: rows))) as [Fs|] eqn:EF; [|discriminate].
    rewrite at_times_grid in *. rewrite mift_above in E by auto. destruct (solve_mift _ _ _ _ _ Fs time 0) as [[[g Q] T0]|] eqn:Es; [|discriminate].
    destruct (Nat.eqb_spec k 0); [discriminate|]. injection E as <-. destruct (all_some_nth _ _ flow0 EF) as [LF NF]. rewrite map_length in LF, NF.
    assert (E1 : forall a, (a < k)%nat -> y_flow y (nth a (r :: rows) []) = Some (nth a Fs flow0)).
    { intros a Ha. rewrite <- NF by lia. symmetry. rewrite (nth_indep _ None (y_flow y [])) by (rewrite map_length; lia). apply map_nth. }
    eapply mift_twins; eauto; try lia. pose proof (E1 i Hi) as Ei. pose proof (E1 j Hj) as Ej. congruence.
  Qed.

  Section Network.
    Variables (c : call) (w : network) (x thr : R) (rows : list (list R)) (l : list R).
    Hypothesis Es : c_source c = Piped w.
    Hypothesis Eb : c_bc c = Some "MIFT"%string.
    Hypothesis Me : c_method c = "detailed"%string \/ c_method c = "similarities"%string.
    Hypothesis Th : threshold_of c thr.
    Hypothesis Tp : 0 <= thr.
    Hypothesis Ab : forall t, In t l -> thr < t.

    Local Notation M mb l := (with_time (with_flow c mb VNone (VFloat x)) (VArr l)).
    Definition mift_request (mb mn : pyval) : request := mkrequest (w_b w) (Some w) (c_method c) "MIFT" mb mn (VFloat x).

    Lemma rows_resolve mb mn l0 : (mb = VNone <-> mn <> VNone) -> resolve (with_time (with_flow c mb mn (VFloat x)) (VArr l0)) = Some (mift_request mb mn).
    Proof.
      intros N. unfold resolve. cbn [with_time with_flow c_source c_bc c_method c_mb c_mn c_cp]. rewrite Es, Eb.
      assert (E : String.eqb (lower (c_method c)) "equivalent" = false) by (destruct Me as [-> | ->]; reflexivity). rewrite E, andb_false_r.
      assert (F : is_none mb && is_none mn = false) by (destruct mb, mn; auto; destruct N as [N1 N2]; specialize (N1 eq_refl); contradiction). rewrite F. reflexivity.
    Qed.

    Lemma rows_construct mb mn q s : (mb = VNone <-> mn <> VNone) -> construct (with_time (with_flow c mb mn (VFloat x)) (VArr [])) = Some (q, s) ->
      q = mift_request mb mn /\ v_n s = segments_of c /\ v_r s = ratios_of c /\ solver_flows mb mn = Some (v_k s, v_rows s) /\ check_segments (w_b w) (segments_of c) (ratios_of c) = true.
    Proof.
      intros N E. unfold construct in E. rewrite rows_resolve in E by auto. destruct (check _ _); [|discriminate]. destruct (make_solver _ _) as [s0|] eqn:Em; [|discriminate]. injection E as <- <-.
      split; auto. unfold make_solver in Em. cbn [mift_request q_bs q_net q_method q_bc q_mb q_mn q_cp c_options with_time with_flow] in Em.
      destruct (solver_flows mb mn) as [[k0 r0]|]; [|discriminate].
      assert (X : format_segments (List.length (w_b w)) (o_n (c_options c)) = segments_of c) by (unfold segments_of, boreholes_of; rewrite Es; auto).
      assert (Y : format_ratios (List.length (w_b w)) (segments_of c) (o_r (c_options c)) = ratios_of c) by (unfold ratios_of, boreholes_of; rewrite Es; auto).
      rewrite X, Y in Em. destruct (check_flows _ _); [|discriminate]. destruct (check_segments _ _ _) eqn:Ec; [|discriminate]. cbn [andb] in Em.
      destruct Me as [Q|Q]; rewrite Q in Em; cbn [lower] in Em.
      - change (String.eqb (lower "detailed") "detailed") with true in Em. injection Em as <-. auto 10.
      - change (String.eqb (lower "similarities") "detailed") with false in Em. change (String.eqb (lower "similarities") "similarities") with true in Em. cbv iota in Em.
        destruct (_ && _); [|discriminate]. injection Em as <-. auto 10.
    Qed.

    (** The same request with another flow *)
    Lemma rows_system mb mn mb' mn' s s' : v_n s = v_n s' -> v_r s = v_r s' ->
      make_system link uw (with_flow c mb mn (VFloat x)) (mift_request mb mn) s = make_system link uw (with_flow c mb' mn' (VFloat x)) (mift_request mb' mn') s'.
    Proof.
      intros A B. unfold make_system. cbn [mift_request q_method q_cp]. destruct Me as [Q|Q]; rewrite Q.
      - change (String.eqb (lower "detailed") "detailed") with true. cbv iota. unfold detailed_system. cbn [mift_request q_bs q_net]. rewrite A, B. reflexivity.
      - change (String.eqb (lower "similarities") "detailed") with false. change (String.eqb (lower "similarities") "similarities") with true. cbv iota.
        unfold similarities_system. cbn [mift_request q_bs q_net]. rewrite A, B. reflexivity.
    Qed.

    Lemma above_positive t : times (VArr l) = Some t -> positive t /\ (forall a, In a t -> thr < a) /\ List.length t = List.length l.
    Proof.
      intros Et. destruct (times_some _ _ Et) as [Em _]. assert (A : forall a, In a t -> thr < a).
      { rewrite Em. intros a Ha. apply in_map_iff in Ha. destruct Ha as [y [<- Hy]]. specialize (Ab y Hy). unfold Rmax. destruct (Rle_dec y 0); lra. }
      split; [intros a Ha; specialize (A a Ha); lra|]. split; auto. rewrite Em, map_length. auto.
    Qed.

    Lemma rows_each k v i : (forall r, In r rows -> List.length r = nInlets (w_c w)) -> gfunction link uw (M (VArr2 rows) l) = Some (G3 k v) -> (i < k)%nat ->
      gfunction link uw (M (VArr (nth i rows [])) l) = Some (G1 (map (v i i) (seq 0 (List.length l)))).
    Proof.
      intros Rect E Hi. rewrite gfunction_arr in *. destruct (construct (M (VArr2 rows) [])) as [[q s]|] eqn:Ec; [|discriminate].
      assert (N1 : VArr2 rows = VNone <-> VNone <> VNone) by (split; intros Q; [discriminate|contradiction]).
      assert (N2 : VArr (nth i rows []) = VNone <-> VNone <> VNone) by (split; intros Q; [discriminate|contradiction]).
      destruct (rows_construct _ _ _ _ N1 Ec) as (-> & S1 & S2 & S3 & Cs). cbn in S3. injection S3 as Sk Sr.
      assert (Ek : k = List.length rows).
      { unfold evaluate in E. destruct (times _); [|discriminate]. destruct (lmax _); [|discriminate]. destruct (make_system _ _ _ _ _); [|discriminate]. cbn [mift_request q_bc] in E. unfold solve in E.
        destruct (defined_at _ _); [|discriminate]. change (String.eqb "MIFT" "UHTR") with false in E. change (String.eqb "MIFT" "UBWT") with false in E. cbv iota in E.
        destruct (v_rows s); [discriminate|]. destruct (Net_Model.all_some _); [|discriminate]. destruct (solve_mift _ _ _ _ _ _ _ _) as [[[? ?] ?]|]; [|discriminate].
        rewrite <- Sk in E. destruct (Nat.eqb _ 0); congruence. }
      assert (Er : In (nth i rows []) rows) by (apply nth_In; lia).
      assert (Ec' : construct (M (VArr (nth i rows [])) []) = Some (mift_request (VArr (nth i rows [])) VNone, mksolver (v_n s) (v_r s) 0 [nth i rows []] (v_net s))).
      { unfold construct in *. rewrite rows_resolve in * by auto.
        assert (Ck : check (M (VArr2 rows) []) (mift_request (VArr2 rows) VNone) = true) by (destruct (check _ _); [auto|discriminate]). rewrite Ck in Ec.
        assert (Ck' : check (M (VArr (nth i rows [])) []) (mift_request (VArr (nth i rows [])) VNone) = true).
        { revert Ck. unfold check. cbn [mift_request q_bs q_net q_method q_bc q_mb q_mn q_cp is_none negb andb c_time with_time with_flow]. rewrite !andb_true_iff. tauto. }
        rewrite Ck'. destruct (make_solver _ (mift_request (VArr2 rows) VNone)) as [s0|] eqn:Em; [|discriminate]. injection Ec as <-.
        unfold make_solver in *. cbn [mift_request q_bs q_net q_method q_bc q_mb q_mn q_cp solver_flows c_options with_time with_flow] in *.
        assert (CF : check_flows (mift_request (VArr (nth i rows [])) VNone) [nth i rows []] = true).
        { unfold check_flows. cbn [mift_request q_bc q_mn q_mb q_cp q_net is_none negb andb hd]. change (String.eqb "MIFT" "MIFT") with true. cbv iota. apply Nat.eqb_eq. auto. }
        rewrite CF. destruct (check_flows _ rows); [|discriminate]. cbn [andb] in *.
        destruct (check_segments _ _ _); [|discriminate]. destruct Me as [Q|Q]; rewrite Q in *.
        - change (String.eqb (lower "detailed") "detailed") with true in *. injection Em as <-. reflexivity.
        - change (String.eqb (lower "similarities") "detailed") with false in *. change (String.eqb (lower "similarities") "similarities") with true in *. cbv iota in *.
          destruct (_ && _); [|discriminate]. injection Em as <-. reflexivity. }
      rewrite Ec'. unfold evaluate in *. cbn [q_bs mift_request] in *. destruct (times (VArr l)) as [t|] eqn:Et; [|discriminate]. destruct (lmax _) as [rb|] eqn:Erb; [|discriminate].
      rewrite (rows_system (VArr (nth i rows [])) VNone (VArr2 rows) VNone _ s) by reflexivity. destruct (make_system _ _ _ _ s) as [y|] eqn:Ey; [|discriminate].
      cbn [q_net q_bc v_k v_rows c_alpha c_options with_flow] in *. destruct (above_positive t Et) as (P & A & L).
      assert (ET : time_threshold rb (c_alpha c) (o_thr (c_options c)) = thr).
      { destruct Th as [r [R1 R2]]. unfold boreholes_of in R1. rewrite Es in R1. congruence. }
      rewrite ET in *. rewrite <- L. rewrite <- Sk, <- Sr, <- Ek in E. cbn [mift_request q_net q_bc] in *. apply (solve_each "MIFT" (nth 0 (w_ks w) 0) k rows y t thr v i); auto; discriminate.
    Qed.

    Hypothesis Cw : connected w.
    Hypothesis Sg : segmented (w_b w) (segments_of c) (ratios_of c).
    Hypothesis Vf : vertical_field (w_b w).
    Hypothesis Gr : good_ratios (ratios_of c).
    Hypothesis Ks : nth 0 (w_ks w) 0 <> 0.

    Lemma rows_twins k v i j p : (forall r, In r rows -> List.length r = nInlets (w_c w)) -> gfunction link uw (M (VArr2 rows) l) = Some (G3 k v) -> (i < k)%nat -> (j < k)%nat -> (p < List.length l)%nat ->
      no_repeats thr l -> 0 < thr -> balanced_pipes w (segments_of c) (ratios_of c) [x] (nth i rows []) ->
      nth i rows [] = nth j rows [] -> (forall F, network_flow w (segments_of c) (ratios_of c) [x] (nth i rows []) = Some F -> f_net_in F <> 0) ->
      v i j p = v j j p.
    Proof.
      intros Rect E Hi Hj Hp Nr Tpp Bp Eij Nz. rewrite gfunction_arr in *. destruct (construct (M (VArr2 rows) [])) as [[q s]|] eqn:Ec; [|discriminate].
      assert (N1 : VArr2 rows = VNone <-> VNone <> VNone) by (split; intros Q; [discriminate|contradiction]).
      destruct (rows_construct _ _ _ _ N1 Ec) as (-> & S1 & S2 & S3 & Cs). cbn in S3. injection S3 as Sk Sr.
      unfold evaluate in *. cbn [q_bs mift_request] in *. destruct (times (VArr l)) as [t|] eqn:Et; [|discriminate]. destruct (lmax _) as [rb|] eqn:Erb; [|discriminate].
      destruct (make_system _ _ _ _ s) as [y|] eqn:Ey; [|discriminate]. cbn [q_net q_bc v_k v_rows c_alpha c_options with_flow] in *. destruct (above_positive t Et) as (P & A & L).
      assert (ET : time_threshold rb (c_alpha c) (o_thr (c_options c)) = thr).
      { destruct Th as [r [R1 R2]]. unfold boreholes_of in R1. rewrite Es in R1. congruence. }
      rewrite ET in *. rewrite <- Sk, <- Sr in E.
      assert (Ek : k = List.length rows).
      { clear - E. cbn [mift_request q_bc q_net] in E. unfold solve in E. destruct (defined_at _ _); [|discriminate]. change (String.eqb "MIFT" "UHTR") with false in E. change (String.eqb "MIFT" "UBWT") with false in E. cbv iota in E.
        revert E. generalize (List.length rows) as e. intros e E. destruct rows; [discriminate|]. destruct (Net_Model.all_some _); [|discriminate]. destruct (solve_mift _ _ _ _ _ _ _ _) as [[[? ?] ?]|]; [|discriminate].
        destruct (Nat.eqb e 0); congruence. }
      rewrite <- Ek in E.
      destruct (times_some _ _ Et) as [Em [Nl [So Po]]].
      assert (Nr' : no_repeats thr t) by (rewrite Em; apply clamp_repeats; auto).
      assert (Ne : t <> []) by (rewrite Em; destruct l; [contradiction|discriminate]).
      pose proof (long_grid t thr Ne Tpp So Nr') as Gt. destruct (long_none t thr A) as [Lt _]. rewrite Lt in Gt.
      assert (Yf : y_n y = n_sources (w_b w) (segments_of c) (ratios_of c) /\ y_H y = segment_length (w_b w) (segments_of c) (ratios_of c) /\ y_Hi y = y_H y /\
        y_flow y = network_flow w (segments_of c) (ratios_of c) [x]).
      { unfold make_system in Ey. cbn [mift_request q_method q_cp numbers] in Ey. destruct Me as [Q|Q]; rewrite Q in Ey.
        - change (String.eqb (lower "detailed") "detailed") with true in Ey. injection Ey as <-. unfold detailed_system. cbn [y_n y_H y_Hi y_flow q_bs q_net mift_request]. rewrite S1, S2. auto.
        - change (String.eqb (lower "similarities") "detailed") with false in Ey. change (String.eqb (lower "similarities") "similarities") with true in Ey. injection Ey as <-.
          unfold similarities_system. cbn [y_n y_H y_Hi y_flow q_bs q_net mift_request]. rewrite S1, S2. auto. }
      destruct Yf as (Y1 & Y2 & Y3 & Y4). pose proof (proj1 (segments_all _ _ _ Sg)) as NS.
      assert (NS' : y_n y = list_sum (segments_of c)) by (rewrite Y1; exact NS).
      assert (Pos : forall k, In k (segments_of c) -> (0 < k)%nat).
      { unfold check_segments in Cs. rewrite !andb_true_iff in Cs. destruct Cs as [[_ C4] _]. rewrite forallb_forall in C4. intros k0 Hk0. specialize (C4 k0 Hk0). apply Nat.leb_le in C4. lia. }
      assert (Hn : (0 < y_n y)%nat).
      { rewrite NS'. unfold check_segments in Cs. rewrite !andb_true_iff in Cs. destruct Cs as [[[_ C3] _] _]. apply Nat.ltb_lt in C3. destruct (segments_of c) as [|a ns]; [simpl in C3; lia|].
        pose proof (Pos a (or_introl eq_refl)). simpl. lia. }
      eapply (solve_twins "MIFT" (nth 0 (w_ks w) 0) k rows y t thr v i j p); eauto; try discriminate; try lia.
      - intros a Ha. rewrite Y3, Y2. split; auto. rewrite Y1 in Ha. apply Rgt_not_eq. unfold segment_length.
        apply (seg_props (w_b w) (segments_of c) (ratios_of c) Vf Gr). apply nth_In. exact Ha.
      - rewrite Y4, NS'. intros F EF. split; [apply Nz; auto|]. destruct Sg as (G1' & G2' & _).
        apply (network_consistent w (segments_of c) (ratios_of c) [x] (nth i rows []) F Cw G1' G2' Bp); auto.
        assert (Er : List.length (nth i rows []) = nInlets (w_c w)) by (apply Rect, nth_In; lia).
        destruct (format_inputs (w_c w) (mkargs (nth i rows []) [x] (SegL (segments_of c)) (Net_Model.RList (ratios_of c)))) as [f|] eqn:Ef; eauto.
        exfalso. unfold network_flow in EF. rewrite (fresh_unformatted _ _ _ Ef) in EF. discriminate.
    Qed.
  End Network.
End Objects.
