(** Total flows, the objects with the equivalent solver, and existence. *)
From Coq Require Import String.
From Verif Require Import Base LinAlg FLS_Model.
From Verif Require Import Bore_Model Net_Model Net_Spec Net_Proofs Net_Coef_Proofs Net_Cache_Proofs Net_Heat_Proofs Net_Equiv_Proofs Net_More_Proofs Net_Extra_Proofs
  Solve_Model Solve_Spec Solve_Loop_Proofs Solve_Rec_Proofs Solve_Eq_Proofs Solve_Sol_Proofs Solve_Extra_Proofs Detailed_Model Detailed_Spec Detailed_Proofs Detailed_Sol_Proofs Sim_Model Sim_Spec Eq_Model Eq_Spec
  GFun_Model GFun_Spec GFun_Causal_Proofs GFun_Eval_Proofs GFun_Dispatch_Proofs GFun_Field_Proofs GFun_Uniform_Proofs GFun_Methods_Proofs GFun_Pair_Proofs GFun_Two_Proofs GFun_Exist_Proofs GFun_Mift_Proofs GFun_Flow_Proofs GFun_Rows_Proofs.
Local Open Scope R_scope.
Local Open Scope string_scope.

Definition set_mn (q : request) (mn : pyval) : request := mkrequest (q_bs q) (q_net q) (q_method q) (q_bc q) (q_mb q) mn (q_cp q).

Section Totals.
  Variables (link : list R -> tree) (uw : list (R * R)).

  Lemma total_resolve c mn mn' cp : mn <> VNone -> mn' <> VNone ->
    resolve (with_flow c VNone mn' cp) = option_map (fun q => set_mn q mn') (resolve (with_flow c VNone mn cp)).
  Proof.
    intros N N'. assert (F : is_none mn = false) by (destruct mn; auto; contradiction). assert (F' : is_none mn' = false) by (destruct mn'; auto; contradiction).
    unfold resolve. cbn [with_flow c_source c_bc c_method c_mb c_mn c_cp is_none andb]. rewrite F, F'. destruct (c_source c) as [bs|w]; cbn [negb equal_flows].
    - destruct (_ && _); reflexivity.
    - destruct (_ && _); [|reflexivity]. destruct (negb (parallel w)); [reflexivity|]. destruct (same_pipes w) as [[|]|]; reflexivity.
  Qed.

  Lemma total_bc c mn cp q : mn <> VNone -> resolve (with_flow c VNone mn cp) = Some q -> q_mb q = VNone /\ q_mn q = mn /\ (c_bc c = Some "MIFT" -> q_bc q = "MIFT").
  Proof.
    intros N. assert (F : is_none mn = false) by (destruct mn; auto; contradiction). unfold resolve. cbn [with_flow c_source c_bc c_method c_mb c_mn c_cp is_none andb]. rewrite F.
    destruct (c_source c) as [bs|w]; cbn [negb equal_flows].
    - destruct (_ && _); [discriminate|]. intros E. injection E as <-. cbn. repeat split; auto. intros ->. auto.
    - destruct (_ && _); [destruct (negb (parallel w)); [|destruct (same_pipes w) as [[|]|]]|]; intros E; try discriminate; injection E as <-; cbn; repeat split; auto; intros ->; auto.
  Qed.

  Lemma total_check c mn mn' q : is_none mn = false -> is_none mn' = false -> q_mn q = mn -> forall c', c_time c = c_time c' -> check c' (set_mn q mn') = check c q.
  Proof. intros F F' E c' T. unfold check. cbn [set_mn q_bs q_net q_method q_bc q_mb q_mn q_cp]. rewrite E, F, F', T. reflexivity. Qed.

  Lemma total_solver o q mn mn' k rows k' rows' : q_mb q = VNone -> q_mn q = mn -> is_none mn = false -> is_none mn' = false ->
    solver_flows VNone mn = Some (k, rows) -> solver_flows VNone mn' = Some (k', rows') ->
    make_solver o (set_mn q mn') = option_map (fun s => mksolver (v_n s) (v_r s) k' rows' (v_net s)) (make_solver o q).
  Proof.
    intros B M F F' S1 S2. unfold make_solver. cbn [set_mn q_bs q_net q_method q_bc q_mb q_mn q_cp]. rewrite B, M, S1, S2.
    assert (C : check_flows (set_mn q mn') rows' = check_flows q rows).
    { unfold check_flows. cbn [set_mn q_bs q_net q_method q_bc q_mb q_mn q_cp]. rewrite B, M, F, F'. reflexivity. }
    rewrite C. destruct (_ && _); [|reflexivity]. destruct (String.eqb (lower (q_method q)) "detailed"); [reflexivity|]. destruct (String.eqb (lower (q_method q)) "similarities").
    - destruct (_ && _); reflexivity.
    - destruct (String.eqb (lower (q_method q)) "equivalent"); [|reflexivity]. destruct (equivalent_checks _ _ _ _); [|reflexivity].
      change (equivalent_network (set_mn q mn')) with (equivalent_network q). destruct (equivalent_network q); reflexivity.
  Qed.

  (** The g-function of one of several total flows *)
  Lemma totals_each c cp ms l k v thr i : c_bc c = Some "MIFT" -> threshold_of c thr -> 0 <= thr -> (forall t, In t l -> thr < t) ->
    gfunction link uw (with_time (with_flow c VNone (VArr ms) cp) (VArr l)) = Some (G3 k v) -> (i < k)%nat ->
    gfunction link uw (with_time (with_flow c VNone (VFloat (nth i ms 0)) cp) (VArr l)) = Some (G1 (map (v i i) (seq 0 (List.length l)))).
  Proof.
    intros Bc Th Tp Ab E Hi. rewrite gfunction_arr in *. unfold construct in *.
    change (resolve (with_time (with_flow c VNone (VFloat (nth i ms 0)) cp) (VArr []))) with (resolve (with_flow c VNone (VFloat (nth i ms 0)) cp)).
    change (resolve (with_time (with_flow c VNone (VArr ms) cp) (VArr []))) with (resolve (with_flow c VNone (VArr ms) cp)) in E.
    rewrite (total_resolve c (VArr ms) (VFloat (nth i ms 0)) cp) by discriminate.
    destruct (resolve (with_flow c VNone (VArr ms) cp)) as [q|] eqn:Er; [|discriminate]. cbn [option_map]. assert (NV : VArr ms <> VNone) by discriminate. destruct (total_bc _ _ _ _ NV Er) as (B1 & B2 & B3). specialize (B3 Bc).
    rewrite (total_check (with_time (with_flow c VNone (VArr ms) cp) (VArr [])) (VArr ms) (VFloat (nth i ms 0)) q) by auto.
    destruct (check _ q); [|discriminate].
    rewrite (total_solver _ q (VArr ms) (VFloat (nth i ms 0)) (List.length ms) (map (fun x => [x]) ms) 0 [[nth i ms 0]]) by auto.
    change (c_options (with_time (with_flow c VNone (VFloat (nth i ms 0)) cp) (VArr []))) with (c_options (with_time (with_flow c VNone (VArr ms) cp) (VArr []))).
    destruct (make_solver _ q) as [s|] eqn:Em; [|discriminate]. cbn [option_map].
    assert (SR : v_k s = List.length ms /\ v_rows s = map (fun x => [x]) ms).
    { unfold make_solver in Em. rewrite B1, B2 in Em. cbn [solver_flows] in Em. destruct (_ && _); [|discriminate]. destruct (String.eqb _ "detailed"); [injection Em as <-; auto|].
      destruct (String.eqb _ "similarities"); [destruct (_ && _); [|discriminate]; injection Em as <-; auto|]. destruct (String.eqb _ "equivalent"); [|discriminate].
      destruct (equivalent_checks _ _ _ _); [|discriminate]. destruct (equivalent_network q); [|discriminate]. injection Em as <-. auto. }
    destruct SR as [Sk Sr]. unfold evaluate in *. cbn [set_mn q_bs q_net q_bc v_k v_rows] in *. destruct (times (VArr l)) as [t|] eqn:Et; [|discriminate]. destruct (lmax _) as [rb|] eqn:Erb; [|discriminate].
    assert (Ey : make_system link uw (with_flow c VNone (VFloat (nth i ms 0)) cp) (set_mn q (VFloat (nth i ms 0))) (mksolver (v_n s) (v_r s) 0 [[nth i ms 0]] (v_net s)) = make_system link uw (with_flow c VNone (VArr ms) cp) q s) by reflexivity.
    rewrite Ey. destruct (make_system _ _ _ q s) as [y|]; [|discriminate]. cbn [c_alpha c_options with_flow] in *.
    assert (Eb : q_bs q = boreholes_of c).
    { clear - Er. unfold resolve in Er. cbn [with_flow c_source c_bc c_method c_mb c_mn c_cp is_none andb] in Er. unfold boreholes_of. destruct (c_source c) as [bs|w]; cbn [negb equal_flows] in Er.
      - destruct (_ && _); [discriminate|]. injection Er as <-. auto.
      - destruct (_ && _); [destruct (negb (parallel w)); [|destruct (same_pipes w) as [[|]|]]|]; try discriminate; injection Er as <-; auto. }
    assert (ET : time_threshold rb (c_alpha c) (o_thr (c_options c)) = thr).
    { destruct Th as [r [R1 R2]]. rewrite Eb in Erb. congruence. }
    rewrite ET in *. destruct (times_some _ _ Et) as [Emm _].
    assert (A : forall a, In a t -> thr < a).
    { rewrite Emm. intros a Ha. apply in_map_iff in Ha. destruct Ha as [z [<- Hz]]. specialize (Ab z Hz). unfold Rmax. destruct (Rle_dec z 0); lra. }
    assert (P : positive t) by (intros a Ha; specialize (A a Ha); lra). rewrite <- (map_length (fun x => Rmax x 0) l), <- Emm. rewrite Sk, Sr, B3 in *.
    assert (Ek : k = List.length ms).
    { clear - E. unfold solve in E. destruct (defined_at _ _); [|discriminate]. change (String.eqb "MIFT" "UHTR") with false in E. change (String.eqb "MIFT" "UBWT") with false in E. cbv iota in E.
      revert E. generalize (List.length ms) as e. intros e E. destruct (map _ ms); [discriminate|]. destruct (Net_Model.all_some _); [|discriminate]. destruct (solve_mift _ _ _ _ _ _ _ _) as [[[? ?] ?]|]; [|discriminate].
      destruct (Nat.eqb e 0); congruence. }
    rewrite <- Ek in E. replace [nth i ms 0] with (nth i (map (fun x => [x]) ms) []) by (rewrite (nth_map _ _ _ 0) by lia; auto).
    apply (solve_each "MIFT" _ k (map (fun x => [x]) ms) y t thr v i); auto; try discriminate. rewrite map_length. auto.
  Qed.
End Totals.

(** Flows of the boreholes with the equivalent solver *)
Lemma equivalent_raises link uw c w mb mn cp : c_source c = Piped w -> c_bc c = None \/ c_bc c = Some "MIFT" -> mb <> VNone ->
  parallel w = true -> equal_flows mb = Some true -> same_pipes w = Some true -> gfunction link uw (with_method (with_flow c mb mn cp) "equivalent") = None.
Proof.
  intros Es Eb N P Ef Sp. unfold gfunction, construct, resolve. cbn [with_method with_flow c_source c_bc c_method c_mb c_mn c_cp]. rewrite Es.
  assert (B : match c_bc c with Some s => s | None => "MIFT" end = "MIFT") by (destruct Eb as [-> | ->]; auto). rewrite B.
  change (String.eqb "MIFT" "MIFT") with true. change (String.eqb (lower "equivalent") "equivalent") with true. cbn [andb]. rewrite P. cbn [negb].
  assert (F : is_none mb = false) by (destruct mb; auto; contradiction). rewrite F. cbn [andb]. rewrite Ef, Sp.
  destruct (check _ _); [|reflexivity]. unfold make_solver. cbn [q_bs q_net q_method q_bc q_mb q_mn q_cp]. destruct (solver_flows mb mn) as [[k rows]|]; [|reflexivity].
  destruct (_ && _); [|reflexivity]. change (String.eqb (lower "equivalent") "detailed") with false. change (String.eqb (lower "equivalent") "similarities") with false. change (String.eqb (lower "equivalent") "equivalent") with true. cbv iota.
  destruct (equivalent_checks _ _ _ _); [|reflexivity]. unfold equivalent_network. cbn [q_bs q_net q_method q_bc q_mb q_mn q_cp]. change (String.eqb "MIFT" "MIFT") with true. cbv iota. rewrite F, andb_false_r. reflexivity.
Qed.

(** Different flows or pipes: the solver of the similarities *)
Lemma unequal_similarities link uw c w mb mn cp : c_source c = Piped w -> c_bc c = None \/ c_bc c = Some "MIFT" -> mb <> VNone ->
  (equal_flows mb = Some false \/ equal_flows mb = Some true /\ same_pipes w = Some false) ->
  gfunction link uw (with_method (with_flow c mb mn cp) "equivalent") = gfunction link uw (with_method (with_flow c mb mn cp) "similarities").
Proof.
  intros Es Eb N D. apply same_request; try reflexivity. unfold resolve. cbn [with_method with_flow c_source c_bc c_method c_mb c_mn c_cp]. rewrite Es.
  assert (B : match c_bc c with Some s => s | None => "MIFT" end = "MIFT") by (destruct Eb as [-> | ->]; auto). rewrite B.
  change (String.eqb "MIFT" "MIFT") with true. change (String.eqb (lower "equivalent") "equivalent") with true. change (String.eqb (lower "similarities") "equivalent") with false. cbn [andb].
  destruct (negb (parallel w)); [reflexivity|]. assert (F : is_none mb = false) by (destruct mb; auto; contradiction). rewrite F. cbn [andb].
  destruct D as [-> | [-> ->]]; reflexivity.
Qed.

(** The network after the construction *)
Lemma network_kept c w q s : c_source c = Piped w -> construct c = Some (q, s) ->
  lower (c_method c) <> "equivalent" \/ match w_m w with VArr _ => False | _ => True end -> v_net s = Some w.
Proof.
  intros Es E D. unfold construct in E. destruct (resolve c) as [q0|] eqn:Er; [|discriminate]. destruct (check c q0); [|discriminate]. destruct (make_solver _ q0) as [s0|] eqn:Em; [|discriminate].
  injection E as <- <-. assert (Q : q_net q0 = Some w /\ (q_method q0 = c_method c \/ q_method q0 = "similarities")).
  { unfold resolve in Er. rewrite Es in Er. cbv zeta in Er. destruct (_ && _).
    - destruct (negb (parallel w)); [injection Er as <-; auto|]. destruct (equal_flows _) as [[|]|]; try discriminate; [|injection Er as <-; auto]. destruct (same_pipes w) as [[|]|]; try discriminate; injection Er as <-; auto.
    - injection Er as <-. auto. }
  destruct Q as [Qn Qm]. unfold make_solver in Em. destruct (solver_flows _ _) as [[k rows]|]; [|discriminate]. destruct (_ && _); [|discriminate].
  destruct (String.eqb (lower (q_method q0)) "detailed"); [injection Em as <-; auto|]. destruct (String.eqb (lower (q_method q0)) "similarities"); [destruct (_ && _); [|discriminate]; injection Em as <-; auto|].
  destruct (String.eqb_spec (lower (q_method q0)) "equivalent") as [Ee|]; [|discriminate]. destruct (equivalent_checks _ _ _ _); [|discriminate].
  destruct D as [D|D]; [exfalso; destruct Qm as [Qm|Qm]; rewrite Qm in Ee; [auto|discriminate]|].
  unfold equivalent_network in Em. rewrite Qn in Em. destruct (String.eqb (q_bc q0) "MIFT"); [|injection Em as <-; auto]. destruct (_ && _); [|discriminate]. destruct (same_pipes w) as [[|]|]; try discriminate.
  injection Em as <-. cbn [v_net]. f_equal. destruct w as [b p ks Rd cc m cp]. cbn in *. destruct m; auto. contradiction.
Qed.

(** A g-function exists *)
Section Exists.
  Variables (link : list R -> tree) (uw : list (R * R)) (c : call) (w : network) (x thr : R).
  Hypothesis Es : c_source c = Piped w.
  Hypothesis Eb : c_bc c = Some "MIFT".
  Hypothesis Me : c_method c = "detailed".
  Hypothesis Th : threshold_of c thr.
  Hypothesis Tp : 0 < thr.
  Hypothesis Sg : segmented (w_b w) (segments_of c) (ratios_of c).
  Hypothesis Vf : vertical_field (w_b w).
  Hypothesis Gr : good_ratios (ratios_of c).
  Hypothesis Ks : 0 < nth 0 (w_ks w) 0.
  Hypothesis Df : forall t, 0 < t -> definite (n_sources (w_b w) (segments_of c) (ratios_of c)) (segment_length (w_b w) (segments_of c) (ratios_of c))
                                       (detailed_matrix (line_kernel (c_alpha c) t uw) (w_b w) (segments_of c) (ratios_of c)).

  Lemma mift_object mb mn row F l : (mb = VNone <-> mn <> VNone) -> solver_flows mb mn = Some (0%nat, [row]) ->
    construct (with_time (with_flow c mb mn (VFloat x)) (VArr [])) <> None ->
    network_flow w (segments_of c) (ratios_of c) [x] row = Some F -> passive (list_sum (segments_of c)) F -> circulates (list_sum (segments_of c)) F ->
    times (VArr l) <> None -> no_repeats thr l ->
    exists g, gfunction link uw (with_time (with_flow c mb mn (VFloat x)) (VArr l)) = Some (G1 g) /\ List.length g = List.length l.
  Proof.
    intros N SF C EF PF CF Nt Nr. pose proof (proj1 (segments_all _ _ _ Sg)) as NS. change (n_sources (w_b w) (segments_of c) (ratios_of c) = list_sum (segments_of c)) in NS.
    rewrite gfunction_arr. destruct (construct _) as [[q s]|] eqn:Ec; [|contradiction].
    destruct (rows_construct c w x Es Eb (or_introl Me) mb mn q s N Ec) as (-> & S1 & S2 & S3 & Cs). rewrite SF in S3. injection S3 as Sk Sr.
    unfold evaluate. cbn [q_bs q_net q_bc mift_request]. destruct (times (VArr l)) as [t|] eqn:Et; [|contradiction]. destruct Th as [rb [Erb ET]]. unfold boreholes_of in Erb. rewrite Es in Erb. rewrite Erb.
    cbn [c_alpha c_options with_flow]. rewrite <- ET.
    unfold make_system. cbn [q_method mift_request q_cp numbers]. rewrite Me. change (String.eqb (lower "detailed") "detailed") with true. cbv iota.
    unfold solve, detailed_system. cbn [y_n y_H y_h y_flow y_Hi q_bs q_net mift_request c_alpha with_flow]. rewrite S1, S2, <- Sr, <- Sk.
    assert (D : forall h l, defined_at (fun t => Some (h t)) l = true) by (intros h l0; apply forallb_forall; auto). rewrite D.
    change (String.eqb "MIFT" "UHTR") with false. change (String.eqb "MIFT" "UBWT") with false. cbv iota. cbn [map Net_Model.all_some]. rewrite EF.
    destruct (times_some _ _ Et) as [Em [Nl [So Po]]].
    assert (Nr' : no_repeats thr t) by (rewrite Em; apply clamp_repeats; auto).
    assert (Ne : t <> []) by (rewrite Em; destruct l; [contradiction|discriminate]).
    pose proof (long_grid t thr Ne Tp So Nr') as Gt.
    set (resp := fun i j t => detailed_matrix (line_kernel (c_alpha c) t uw) (w_b w) (segments_of c) (ratios_of c) i j).
    set (n := n_sources (w_b w) (segments_of c) (ratios_of c)) in *. set (H := segment_length (w_b w) (segments_of c) (ratios_of c)) in *.
    assert (Hn : (0 < n)%nat).
    { rewrite NS. unfold check_segments in Cs. rewrite !andb_true_iff in Cs. destruct Cs as [[[_ C3] C4] _]. apply Nat.ltb_lt in C3. rewrite forallb_forall in C4. destruct (segments_of c) as [|a ns]; [simpl in C3; lia|].
      specialize (C4 a (or_introl eq_refl)). apply Nat.leb_le in C4. simpl. lia. }
    assert (HH : forall i, (i < n)%nat -> 0 < H i).
    { intros i Hi. unfold H, segment_length. apply (seg_props (w_b w) (segments_of c) (ratios_of c) Vf Gr). apply nth_In. exact Hi. }
    rewrite <- NS in PF, CF.
    destruct (mift_run_some n H (nth 0 (w_ks w) 0) Hn HH Ks resp F (time_long t thr) Gt) as [[a b] E]; auto.
    { intros z Hz. exact (Df z (long_positive t thr Tp So z Hz)). }
    destruct (mift_one_some n H resp (nth 0 (w_ks w) 0) H F t thr a b E) as (g & Q & T & Eg & _).
    change (at_times (fun t => Some (detailed_matrix (line_kernel (c_alpha c) t uw) (w_b w) (segments_of c) (ratios_of c)))) with (Solve_Spec.on_grid resp). rewrite Eg. cbn [Nat.eqb].
    eexists. split; [reflexivity|]. rewrite map_length, seq_length, Em, map_length. reflexivity.
  Qed.
End Exists.
