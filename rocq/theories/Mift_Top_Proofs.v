(** The mixed inlet temperature with equivalent boreholes. *)
From Coq Require Import String Permutation.
From Verif Require Import Base TimeGrid_Spec LinAlg FLS_Model.
From Verif Require Import Bore_Model Bore_Spec Net_Model Net_Spec Net_Proofs Net_Equiv_Proofs Net_Props Solve_Model Solve_Spec Solve_Loop_Proofs Solve_Eq_Proofs Solve_Sol_Proofs
  Detailed_Model Detailed_Spec Detailed_Proofs Detailed_Sol_Proofs Sim_Model Sim_Spec Sim_Cells_Proofs Eq_Model Eq_Spec Eq_Group_Proofs Eq_Cluster_Proofs Eq_Block_Proofs Eq_Main_Proofs Eq_Heat_Proofs Eq_Lump_Proofs Eq_Sym_Proofs
  Eq_Final_Proofs Eq_Props GFun_Model GFun_Spec GFun_Causal_Proofs GFun_Eval_Proofs GFun_Methods_Proofs GFun_Field_Proofs GFun_Uniform_Proofs Mift_Spec Mift_Lump_Proofs Mift_Net_Proofs.
Local Open Scope R_scope.
Local Open Scope list_scope.
Local Notation no_eb := (EBore 0 0 0 [] [] 0 []).

(** the equivalent boreholes gather those of the labels of the clusters *)
Lemma clusters_gather link kC tol bs E : agglomerative link -> (0 < List.length bs)%nat -> equivalent_boreholes link kC tol bs = Some E ->
  gathers bs (fst (clusters link kC tol bs)) E.
Proof.
  intros Ag H. destruct (clusters_spec link kC tol Ag bs H) as [ls [n [Ec [[L0 [L1 L2]] Q]]]]. unfold equivalent_boreholes. rewrite Ec. cbn [fst].
  set (ks i := filter (fun k => Nat.eqb (nth k ls O) i) (seq 0 (List.length bs))).
  assert (Nk : forall i, (i < n)%nat -> ks i <> []).
  { intros i Hi Ek. destruct (In_nth ls i O (L2 i Hi)) as [k [Hk Ei]]. assert (I : In k (ks i)) by (apply filter_In; split; [apply in_seq; lia|apply Nat.eqb_eq; auto]).
    rewrite Ek in I. destruct I. }
  set (eb i := let b := nth (hd O (ks i)) bs no_bore in let l := map (fun k => nth k bs no_bore) (ks i) in EBore (bH b) (bD b) (br b) (map bx l) (map by_ l) (btilt b) (map bori l)).
  assert (S : Eq_Model.all_some (map (fun i => eb_of_bores (members bs ls i)) (seq 0 n)) = Some (map eb (seq 0 n))).
  { apply Eq_Cluster_Proofs.all_some_map. intros i Hi. apply in_seq in Hi. rewrite members_are by auto. fold (ks i). specialize (Nk i ltac:(lia)). unfold eb. destruct (ks i) as [|k r]; [congruence|reflexivity]. }
  rewrite S. intros EE. injection EE as <-.
  assert (Ln : List.length (map eb (seq 0 n)) = n) by (rewrite map_length, seq_length; auto).
  split; [auto|]. rewrite Ln. split; [intros k Hk; apply L1, nth_In; lia|]. intros i Hi. cbv zeta. rewrite nth_map_seq by auto.
  fold (ks i). split; [auto|]. unfold eb. cbn [ex ey eori eH eD er etilt]. rewrite !map_map. repeat split; reflexivity.
Qed.

Section MiftEq.
  Variables (tol disTol u M : R) (bs : list bore) (ls : list nat) (E : list ebore) (n : nat) (r : list R) (alpha : R).
  Local Notation nB := (List.length bs).
  Local Notation nE := (List.length E).
  Local Notation b_ k := (nth k bs no_bore).
  Local Notation ks i := (owners ls nB i).
  Local Notation ns := (repeat n nB).
  Local Notation rs := (repeat r nB).
  Hypothesis Ga : gathers bs ls E.
  Hypothesis Sd : forall p q, (p < nB)%nat -> (q < nB)%nat -> nth p ls O = nth q ls O -> same_dims (b_ p) (b_ q).
  Hypothesis Rf : regular_field tol disTol u M bs n r.
  Hypothesis Ap : distances_apart disTol bs.
  Hypothesis Ha : 0 < alpha.
  Hypothesis Eqt : equitable ls bs.
  Variable dis : list R.
  Hypothesis Ed : field_distances disTol bs = Some dis.

  Definition own_lengths (k : nat) : R := nth k (flat_map (fun e => map eH (eb_segments e n (Some r))) E) 0.

  Lemma own_length y b : (y < nB)%nat -> (b < n)%nat -> segment_length bs ns rs (n * y + b)%nat = own_lengths (n * nth y ls O + b)%nat.
  Proof.
    intros Hy Hb. destruct Rf as [Nb [Vf [Lr [Gr [Og [Rd [Lev [Bl [Hd Sp]]]]]]]]].
    unfold segment_length. change (bore_segments bs ns rs) with (borehole_segments bs ns rs). change (Bore 0 0 0 0 0 0 0) with no_bore. rewrite (seg_at bs n r Lr Nb) by auto.
    pose proof (proj1 (proj2 Ga) y Hy) as Hl.
    unfold own_lengths. rewrite Nat.mul_comm, (nth_flat _ n E (nth y ls O) b no_eb 0); auto.
    - rewrite (nth_map _ _ _ no_eb) by (rewrite eb_seg_length; lia).
      destruct (es_sg bs ls E n r Ga Sd Vf Lr Nb (nth y ls O) b y Hl Hb) as [<- _]; [apply (in_owner bs ls n r Lr Nb); auto|]. unfold es, dims. reflexivity.
    - intros x _. rewrite map_length, eb_seg_length; auto.
  Qed.

  Lemma mift_equivalent uw time thr k_s Fs Fs' g Q T : 0 < thr -> positive (time_long time thr) -> grid (time_long time thr) -> Forall2 (lumped (n * nB) (n * nE) (class ls n)) Fs Fs' ->
    solve_mift (n_sources bs ns rs) (segment_length bs ns rs) (detailed_trf alpha uw bs ns rs) k_s (segment_length bs ns rs) Fs time thr = Some (g, Q, T) ->
    exists g' Q' T', solve_mift (n * nE) (eq_lengths E n r) (factors (fun t => eq_matrix tol E n r dis (kernel_e alpha t) (kernel_v alpha t))) k_s own_lengths Fs' time thr = Some (g', Q', T') /\
      forall i j k, (i < List.length Fs)%nat -> (j < List.length Fs)%nat -> (k < List.length time)%nat -> g i j k = g' i j k.
  Proof.
    intros Tp Pt Gt Fl Es. destruct Rf as [Nb [Vf [Lr [Gr [Og [Rd [Lev [Bl [Hd Sp]]]]]]]]].
    pose proof (segmented_all bs n r Lr) as W. assert (Pn : (0 < n)%nat) by (apply (n_pos tol u M bs n r Lr Gr Og Nb)).
    assert (NS : n_sources bs ns rs = (n * nB)%nat). { unfold n_sources. change (bore_segments bs ns rs) with (borehole_segments bs ns rs). rewrite (proj1 (segments_all bs ns rs W)), (sum_all bs n r Lr Nb). auto. }
    rewrite NS in Es. change (detailed_trf alpha uw bs ns rs) with (Solve_Spec.on_grid (dresp bs n r alpha uw)) in Es.
    apply (lump_mift (n * nB) (n * nE) (class ls n) (segment_length bs ns rs) (eq_lengths E n r) (segment_length bs ns rs) own_lengths (dresp bs n r alpha uw) (eresp tol E n r alpha dis) k_s Fs Fs' time thr g Q T); auto.
    - intros x Hx. destruct (index_split n x nB Hx) as [y [b [Hy [Hb ->]]]]. rewrite class_is by auto. pose proof (proj1 (proj2 Ga) y Hy). nia.
    - intros i Hi. destruct (index_split n i nE Hi) as [j [b [Hj [Hb ->]]]]. destruct (e_head bs ls E n r Ga Sd Vf Lr Nb j Hj) as [y Iy]. apply (in_owner bs ls n r Lr Nb) in Iy. destruct Iy as [Y1 Y2].
      exists (n * y + b)%nat. split; [nia|]. rewrite class_is by auto. congruence.
    - intros t y i It Hy Hi. apply (resp_cls tol disTol u M bs ls E n r alpha Ga Sd Vf Lr Gr Og Rd Lev Nb Hd Sp Ap Ha Eqt dis Ed uw t y i); auto.
    - intros i Hi. apply (lengths_cls tol u M bs ls E n r Ga Sd Vf Lr Gr Og Nb); auto.
    - intros x Hx. destruct (index_split n x nB Hx) as [y [b [Hy [Hb ->]]]]. rewrite class_is by auto. apply own_length; auto.
    - nia.
  Qed.

  (** numbers of boreholes of the groups *)
  Lemma weights_are : map (fun e => INR (Eq_Model.count e)) E = map (fun j => INR (count_occ Nat.eq_dec (map (fun i => nth i ls O) (seq 0 nB)) j)) (seq 0 nE).
  Proof.
    destruct Rf as [Nb [Vf [Lr _]]]. apply (list_eq_nth 0); [rewrite !map_length, seq_length; auto|]. intros k Hk. rewrite map_length in Hk. rewrite (nth_map _ _ _ no_eb) by auto. rewrite nth_map_seq by auto. f_equal.
    unfold Eq_Model.count. rewrite (e_count bs ls E n r Ga Sd Vf Lr Nb k Hk). unfold owners. generalize (seq 0 nB) as l. induction l as [|i l IH]; cbn [filter map count_occ]; auto.
    destruct (Nat.eq_dec (nth i ls O) k) as [Q|Q]; destruct (Nat.eqb_spec (nth i ls O) k); try contradiction; cbn [List.length]; auto.
  Qed.

  (** the pipes of the groups *)
  Lemma pipes_are (ps : list pipe) : List.length ps = nB ->
    (forall p q, (p < nB)%nat -> (q < nB)%nat -> same_dims (b_ p) (b_ q) -> nth p ps no_pipe = nth q ps no_pipe) ->
    exists ps', first_pipes ps ls nE = Some ps' /\ List.length ps' = nE /\ forall i, (i < nB)%nat -> (nth i ls O < nE)%nat /\ nth i ps no_pipe = nth (nth i ls O) ps' no_pipe.
  Proof.
    intros Lp Al. destruct Rf as [Nb [Vf [Lr _]]]. unfold first_pipes.
    assert (First : forall j, (j < nE)%nat -> exists k, index_of ls (Z.of_nat j) = Some k /\ (k < nB)%nat /\ nth k ls O = j).
    { intros j Hj. destruct (e_head bs ls E n r Ga Sd Vf Lr Nb j Hj) as [y Iy]. apply (in_owner bs ls n r Lr Nb) in Iy. destruct Iy as [Y1 Y2].
      destruct (index_of_in ls j) as [k Ek]; [rewrite <- Y2; apply nth_In; rewrite (proj1 Ga); auto|]. exists k. split; auto. destruct (index_of_some _ _ _ Ek) as [K1 K2]. rewrite (proj1 Ga) in K1. split; auto. lia. }
    set (f i := match index_of ls (Z.of_nat i) with Some k => nth_error ps k | None => None end).
    assert (Ex : exists ps', Net_Model.all_some (map f (seq 0 nE)) = Some ps').
    { apply all_some_def. intros o Io. apply in_map_iff in Io. destruct Io as [j [<- Ij]]. apply in_seq in Ij. destruct (First j ltac:(lia)) as [k [Ek [Hk _]]]. unfold f. rewrite Ek. apply nth_error_Some. lia. }
    destruct Ex as [ps' Ep]. exists ps'. split; auto. destruct (all_some_nth _ _ no_pipe Ep) as [Lp' Np]. rewrite map_length, seq_length in Lp', Np. split; auto.
    intros i Hi. pose proof (proj1 (proj2 Ga) i Hi) as Hl. split; auto. specialize (Np _ Hl). rewrite (nth_map _ _ _ O) in Np by (rewrite seq_length; auto). rewrite seq_nth in Np by auto. cbn [plus] in Np.
    destruct (First _ Hl) as [k [Ek [Hk Kl]]]. unfold f in Np. rewrite Ek in Np. apply (nth_error_nth _ _ no_pipe) in Np. rewrite <- Np. apply Al; auto.
  Qed.
End MiftEq.

Section MiftTop.
  Variables (link : list R -> tree) (uw : list (R * R)) (c : call) (w : network) (thr u M : R) (n : nat) (r ms : list R).
  Hypothesis Alpha : 0 < c_alpha c.
  Hypothesis Th : threshold_of c thr.
  Hypothesis Tp : 0 < thr.
  Hypothesis Ag : agglomerative link.
  Hypothesis Sw : c_source c = Piped w.
  Hypothesis Bc : c_bc c = None \/ c_bc c = Some "MIFT"%string.
  Hypothesis Pw : parallel_alike w.
  Hypothesis Rw : same_pipes w = Some true.
  Hypothesis Fw : network_flows c ms.
  Hypothesis Sh : sharp_equivalent c u M n r.
  Hypothesis Ef : equitable_field link c.
  Local Notation W m l := (with_time (with_method c m) (VArr l)).

  Definition flow_rows : nat * list (list R) := match c_mn c with VFloat _ => (O, map (fun x => [x]) ms) | _ => (List.length ms, map (fun x => [x]) ms) end.

  Lemma mift_request m q s : m = "detailed"%string \/ m = "equivalent"%string -> construct (W m []) = Some (q, s) ->
    q_method q = m /\ q_bs q = boreholes_of c /\ v_n s = segments_of c /\ v_r s = ratios_of c /\ q_bc q = "MIFT"%string /\ q_net q = Some w /\ q_cp q = c_cp c /\ (v_k s, v_rows s) = flow_rows.
  Proof.
    intros Hm Ec. pose proof (construct_boreholes _ _ _ Ec) as Eb. destruct (make_segments _ _ _ Ec) as [En Er]. unfold construct in Ec.
    destruct (resolve (W m [])) as [q0|] eqn:Eq; [|discriminate]. destruct (check (W m []) q0); [|discriminate]. destruct (make_solver _ q0) as [s0|] eqn:Es; [|discriminate]. injection Ec as -> ->.
    assert (Pl : parallel w = true).
    { destruct Pw as [P1 _]. unfold build_net in P1. destruct (verify_bore_connectivity _ _); [|discriminate]. destruct (circuits _); [|discriminate]. destruct (Nat.eqb _ _); [|discriminate].
      injection P1 as P1. unfold parallel. rewrite <- P1. cbn [n_c]. apply forallb_forall. intros z I. apply repeat_spec in I. subst z. auto. }
    destruct Fw as [F1 [[cp F2] [F3 _]]].
    assert (Eq' : q = mkrequest (w_b w) (Some w) m "MIFT" VNone (c_mn c) (c_cp c)).
    { unfold resolve in Eq. cbn [with_time with_method c_source c_bc c_mb c_mn c_cp c_method] in Eq. rewrite Sw, F1, F2 in Eq. cbv zeta in Eq.
      assert (Nn : is_none (c_mn c) = false) by (destruct F3 as [->|[x [-> _]]]; auto). rewrite Nn in Eq. cbn [is_none andb] in Eq.
      assert (Eb' : match c_bc c with Some s0 => s0 | None => "MIFT"%string end = "MIFT"%string) by (destruct Bc as [->| ->]; auto). rewrite Eb' in Eq.
      rewrite Pl, Rw in Eq. cbn [negb equal_flows] in Eq. rewrite F2. destruct Hm as [->| ->]; cbn in Eq; injection Eq as <-; auto. }
    rewrite Eq' in *. cbn [q_method q_bs q_bc q_net q_cp] in *. repeat split; auto.
    unfold make_solver in Es. cbn [q_mb q_mn] in Es. unfold solver_flows in Es.
    assert (Em : v_k s = fst flow_rows /\ v_rows s = snd flow_rows); [|destruct Em as [-> ->]; rewrite <- surjective_pairing; reflexivity].
    assert (Eflow : match c_mn c with VNone => Some (O, []) | VFloat x | VNpFloat x => Some (O, [[x]]) | VArr l | VList l => Some (List.length l, map (fun x => [x]) l) | VArr2 l => Some (List.length l, l) | VInt _ => None end = Some flow_rows).
    { unfold flow_rows. destruct F3 as [->|[x [-> ->]]]; auto. }
    cbv zeta in Es. rewrite Eflow in Es. destruct flow_rows as [k0 rows0]. destruct (check_flows _ _ && check_segments _ _ _); [|discriminate]. cbn [q_method] in Es.
    destruct Hm as [->| ->].
    - change (String.eqb (lower "detailed") "detailed") with true in Es. injection Es as <-; auto.
    - change (String.eqb (lower "equivalent") "detailed") with false in Es. change (String.eqb (lower "equivalent") "similarities") with false in Es. change (String.eqb (lower "equivalent") "equivalent") with true in Es.
      cbv iota in Es. destruct (equivalent_checks _ _ _ _); [|discriminate]. destruct (equivalent_network _); [|discriminate]. injection Es as <-; auto.
  Qed.

  Lemma mift_equivalent_object l G : construct (W "equivalent" []) <> None -> no_repeats thr l ->
    gfunction link uw (W "detailed" l) = Some G -> exists G', gfunction link uw (W "equivalent" l) = Some G' /\ same_result (List.length l) G G'.
  Proof.
    intros Nc Nr. rewrite !gfunction_arr. destruct (construct (W "detailed" [])) as [[q s]|] eqn:Ec; [|discriminate].
    destruct (construct (W "equivalent" [])) as [[q' s']|] eqn:Ec'; [|contradiction].
    destruct (mift_request _ q s (or_introl eq_refl) Ec) as [Mq [Bq [Nq [Rq [Cq [Wq [Pq Kq]]]]]]]. destruct (mift_request _ q' s' (or_intror eq_refl) Ec') as [Mq' [Bq' [Nq' [Rq' [Cq' [Wq' [Pq' Kq']]]]]]].
    destruct Sh as [S1 [S2 [S3 S4]]].
    destruct (regular_some link (o_k (c_options c)) (o_tol (c_options c)) (o_disTol (c_options c)) u M (c_alpha c) (boreholes_of c) n r Ag S3) as [ls [E [dis [Ee [Ga [Sd Ed]]]]]].
    destruct Ef as [ls' [E2 [B2 [Ga' Eq2]]]].
    assert (E2 = E). { unfold equivalent in Ee. rewrite B2 in Ee. destruct (field_distances _ _); [|discriminate]. congruence. }
    subst E2. pose proof S3 as S3'. destruct S3' as [Nb [Vf [Lr _]]]. rewrite (labels_unique _ ls' ls E Vf Ga' Ga) in *.
    assert (El : fst (clusters link (o_k (c_options c)) (o_tol (c_options c)) (boreholes_of c)) = ls) by (apply (labels_unique (boreholes_of c) _ ls E Vf); auto; apply clusters_gather; auto).
    assert (Hn : hd O (v_n s') = n /\ hd [] (v_r s') = r).
    { rewrite Nq', Rq', S1, S2. destruct (List.length (boreholes_of c)); [lia|]. auto. }
    destruct Hn as [Hn Hr]. unfold evaluate. destruct (times (VArr l)) as [t|] eqn:Et; [|discriminate].
    destruct (times_some _ _ Et) as [Em [Nl [So Po]]].
    destruct Th as [rm [Er Eth]]. rewrite Bq, Bq', Er.
    assert (Wb : boreholes_of c = w_b w) by (unfold boreholes_of; rewrite Sw; auto).
    destruct Pw as [P1 [P2 P3]]. rewrite <- Wb in P1, P2, P3.
    destruct (pipes_are (o_tol (c_options c)) (o_disTol (c_options c)) u M (boreholes_of c) ls E n r Ga Sd S3 (w_p w) P2 P3) as [ps [Ep [Lps Ips]]].
    pose proof (weights_are (o_tol (c_options c)) (o_disTol (c_options c)) u M (boreholes_of c) ls E n r Ga Sd S3) as Ew.
    assert (HE : (0 < List.length E)%nat) by (pose proof (proj1 (proj2 Ga) O Nb); lia).
    destruct (proj2 (C20_default (List.length E)) HE) as [N EN].
    destruct Fw as [F1 [[cp F2] [F3 F4]]].
    unfold make_system. rewrite Mq, Mq'. change (String.eqb (lower "detailed") "detailed") with true.
    change (String.eqb (lower "equivalent") "detailed") with false. change (String.eqb (lower "equivalent") "similarities") with false. cbv iota.
    unfold equivalent_system. cbn [with_method c_alpha c_options]. rewrite Hn, Hr, Bq', Ee, Cq'. cbv zeta. rewrite <- Eth.
    change (String.eqb "MIFT" "MIFT") with true. cbv iota. rewrite Wq, Wq', EN, El, Ep. rewrite Pq, Pq', F2. cbn [numbers].
    unfold solve. rewrite Cq. change (String.eqb "MIFT" "UHTR") with false. change (String.eqb "MIFT" "UBWT") with false. cbv iota.
    unfold detailed_system. cbn [y_n y_H y_Hi y_h y_flow]. rewrite Bq, Nq, Rq, S1, S2, Wq. cbn [with_method c_alpha].
    assert (Nt : no_repeats thr t) by (rewrite Em; apply clamp_repeats; auto).
    assert (Nte : t <> []) by (rewrite Em; destruct l; [contradiction|discriminate]).
    pose proof (long_grid t thr Nte Tp So Nt) as Gt. pose proof (long_positive t thr Tp So) as Pt.
    match goal with |- context [if ?b then _ else _] => destruct b end; [|discriminate].
    assert (D : defined_at (fun t0 => eq_matrix (o_tol (c_options c)) E n r dis (kernel_e (c_alpha c) t0) (kernel_v (c_alpha c) t0)) (time_long t thr) = true).
    { apply forallb_forall. intros x Hx. destruct S3 as [_ [_ [_ [Gr [Og [Rd [Lev [Bl [Hd Sp]]]]]]]]].
      destruct (matrix_exact _ _ u M (boreholes_of c) ls E n r (c_alpha c) x Ga Sd Vf Lr Gr Og Rd Lev Nb Hd Sp Alpha (Pt x Hx) dis uw Ed S4) as [m [-> _]]; auto. }
    rewrite D.
    assert (Krows : v_k s = v_k s' /\ v_rows s = map (fun x => [x]) ms /\ v_rows s' = map (fun x => [x]) ms /\ (v_k s = O \/ v_k s = List.length ms)).
    { assert (Kf : flow_rows = (O, map (fun x => [x]) ms) \/ flow_rows = (List.length ms, map (fun x => [x]) ms)) by (unfold flow_rows; destruct (c_mn c); auto).
      destruct Kf as [Kf|Kf]; rewrite Kf in Kq, Kq'; injection Kq as Ka Kb; injection Kq' as Kc Kd; rewrite Ka, Kb, Kc, Kd; repeat split; auto. }
    destruct Krows as [Kk [Rr [Rr' Kc]]]. rewrite Rr, Rr', <- Kk.
    set (fd := network_flow w (repeat n (List.length (boreholes_of c))) (repeat r (List.length (boreholes_of c))) [cp]).
    set (fe := equivalent_flow N ps (map (fun e => INR (Eq_Model.count e)) E) (Rsum (map (fun e => eH e * INR (Eq_Model.count e)) E)) (repeat n (List.length E)) (repeat r (List.length E)) [cp]).
    assert (Fls : forall Fs, Net_Model.all_some (map fd (map (fun x => [x]) ms)) = Some Fs ->
       exists Fs', Net_Model.all_some (map fe (map (fun x => [x]) ms)) = Some Fs' /\ Forall2 (lumped (n * List.length (boreholes_of c)) (n * List.length E) (class ls n)) Fs Fs' /\ List.length Fs = List.length ms).
    { assert (Ht : Rsum (map bH (w_b w)) = Rsum (map (fun e => eH e * INR (Eq_Model.count e)) E)).
      { rewrite <- Wb. symmetry. apply (length_conserved (boreholes_of c) ls E Ga Sd). }
      clear - F4 P1 EN P2 Lps Ips Ew Ht. induction ms as [|x l0 IH]; intros Fs; cbn [map Net_Model.all_some].
      - intros EF. injection EF as <-. exists []. auto.
      - destruct (fd [x]) as [Fx|] eqn:E1; [|discriminate]. destruct (Net_Model.all_some (map fd (map (fun x => [x]) l0))) as [Fr|] eqn:E2; [|discriminate]. intros EF. injection EF as <-.
        inversion F4 as [|? ? F5 F6]; subst. destruct (IH F6 Fr eq_refl) as [Fr' [E3 [Q1 Q2]]].
        destruct (flow_lumped (List.length (boreholes_of c)) (List.length E) (w_c w) N (w_p w) ps ls _ x cp P1 EN P2 Lps Ips Ew F5 w n r _ Fx eq_refl eq_refl Ht E1) as [Fx' [E4 Q3]].
        fold fe in E4. rewrite E4, E3. exists (Fx' :: Fr'). split; auto. split; [constructor; auto|cbn; auto]. }
    destruct (map (fun x => [x]) ms) as [|row rows] eqn:Ems; [discriminate|].
    destruct (Net_Model.all_some (map fd (row :: rows))) as [Fs|] eqn:EF; [|discriminate]. destruct (Fls Fs eq_refl) as [Fs' [EF' [FF LF]]]. rewrite EF'.
    match goal with |- match ?a with _ => _ end = _ -> _ => destruct a as [[[g Q] T]|] eqn:Es; [|discriminate] end.
    intros EG. injection EG as <-.
    destruct (mift_equivalent (o_tol (c_options c)) (o_disTol (c_options c)) u M (boreholes_of c) ls E n r (c_alpha c) Ga Sd S3 S4 Alpha Eq2 dis Ed uw t thr _ Fs Fs' g Q T Tp Pt Gt FF Es) as [g' [Q' [T' [E' V]]]].
    match goal with |- context [solve_mift ?a ?b ?f ?k ?h ?F ?x ?y] => change (solve_mift a b f k h F x y) with (solve_mift (n * List.length E) (eq_lengths E n r) (factors (fun t => eq_matrix (o_tol (c_options c)) E n r dis (kernel_e (c_alpha c) t) (kernel_v (c_alpha c) t))) k (own_lengths E n r) Fs' t thr) end.
    rewrite E'. eexists. split; [reflexivity|]. assert (Lt : List.length t = List.length l) by (rewrite Em; apply map_length).
    assert (Lms : (0 < List.length ms)%nat) by (rewrite <- (map_length (fun x => [x]) ms), Ems; cbn; lia).
    destruct (Nat.eqb_spec (v_k s) 0) as [K0|K0]; cbn [same_result].
    - apply map_ext_in. intros k Ik. apply in_seq in Ik. apply V; lia.
    - split; auto. intros i j p Hi Hj Hp. apply V; lia.
  Qed.
End MiftTop.
