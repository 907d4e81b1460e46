(* Inversion of the heat rate, thermal resistance, histories of scalar flows,
   counterexamples. *)
From Coq Require Import Reals Lra Lia List ZArith Bool FunctionalExtensionality.
From Verif Require Import Base LinAlg Net_Model Net_Spec Net_Proofs Net_Coef_Proofs Net_Heat_Proofs Net_Cache_Proofs Net_More_Proofs Net_Equiv_Proofs.
Import ListNotations.
Local Open Scope R_scope.

(* ------------------------------------------------------------------ *)
(* Inlet temperature for a heat rate                                   *)

Lemma net_inlet_inverts N ps g F a h K Q Tb : wf N -> good_args N ps g F ->
  fresh N ps NetInlet g = Some a -> fresh N ps NetHeat g = Some h ->
  apply_coefs K h (apply_coefs K a Q Tb O) Tb O = Q.
Proof.
  intros W G Ha Hh. rewrite (fresh_direct N ps _ g F W G) in Ha; rewrite (fresh_direct N ps _ g F W G) in Hh.
  cbn [direct] in Ha, Hh. rewrite Hh in Ha. unfold coef_net_inlet in Ha.
  destruct (Reqb (fst h O) 0) eqn:E; [discriminate|]. apply Reqb_false in E. injection Ha as <-.
  unfold apply_coefs. cbn [fst snd].
  assert (S : sumn K (fun k => - / fst h O * snd h O k * Tb k) = - / fst h O * sumn K (fun k => snd h O k * Tb k)).
  { rewrite <- sumn_scal. apply sumn_ext. intros; lra. }
  rewrite S. field. auto.
Qed.

Lemma net_inlet_defined N ps g F h : wf N -> good_args N ps g F -> fresh N ps NetHeat g = Some h ->
  (exists a, fresh N ps NetInlet g = Some a) <-> fst h O <> 0.
Proof.
  intros W G Hh. rewrite (fresh_direct N ps NetHeat g F W G) in Hh. rewrite (fresh_direct N ps NetInlet g F W G).
  cbn [direct] in *. rewrite Hh. unfold coef_net_inlet.
  destruct (Reqb (fst h O) 0) eqn:E.
  - apply Reqb_true in E. split; [intros [a Q]; discriminate|congruence].
  - apply Reqb_false in E. split; auto. intros _. eexists; reflexivity.
Qed.

(* ------------------------------------------------------------------ *)
(* Thermal resistance                                                  *)

Lemma resistance_unfold N ps Htot m cp F a q : wf N ->
  good_args N ps (mkargs m cp (SegN 1) RNone) F ->
  fresh N ps NetOutlet (mkargs m cp (SegN 1) RNone) = Some a ->
  fresh N ps NetHeat (mkargs m cp (SegN 1) RNone) = Some q ->
  network_thermal_resistance N ps Htot m cp = Some (- (1/2) * Htot * (1 + fst a O) / fst q O).
Proof.
  intros W G Ha Hq. unfold network_thermal_resistance. set (g := mkargs m cp (SegN 1) RNone) in *.
  assert (Q := history_same N ps [(NetOutlet, g)] NetHeat g W (ex_intro _ F G)).
  cbn [calls call] in Q. rewrite Hq in Q.
  unfold fresh in Ha. cbn [call] in Ha.
  destruct (m_net_outlet N ps g init_state) as [s1 o1]. cbn [snd fst] in *. subst o1.
  rewrite Q; auto. intros h [<-|[]]; auto.
Qed.

Lemma resistance_exists N ps Htot m cp F : wf N -> good_args N ps (mkargs m cp (SegN 1) RNone) F ->
  exists Rf, network_thermal_resistance N ps Htot m cp = Some Rf.
Proof.
  intros W G. destruct (fresh_some_all N ps _ F W G) as (a & o & qb & qf & h & no & _ & _ & _ & _ & Hh & Hn).
  eexists. eapply resistance_unfold; eauto.
Qed.

(* Mean fluid temperature minus wall temperature is resistance times heat
   injected per metre. *)
Lemma resistance_meaning N ps Htot m cp F a q Rf t T : wf N ->
  good_args N ps (mkargs m cp (SegN 1) RNone) F -> every_pipe pipe_neutral N ps F -> total_flow N F <> 0 ->
  Htot <> 0 ->
  fresh N ps NetOutlet (mkargs m cp (SegN 1) RNone) = Some a ->
  fresh N ps NetHeat (mkargs m cp (SegN 1) RNone) = Some q -> fst q O <> 0 ->
  network_thermal_resistance N ps Htot m cp = Some Rf ->
  let K := seg_total (f_seg F) in
  let U := fun _ : nat => T in
  (t + apply_coefs K a t U O) / 2 - T = Rf * (- apply_coefs K q t U O / Htot).
Proof.
  intros W G HP HT HH Ha Hq Hq0 HR K U.
  rewrite (resistance_unfold N ps Htot m cp F a q W G Ha Hq) in HR. injection HR as <-.
  destruct (fresh_some_all N ps _ F W G) as (i & o & qb & qf & h & no & Hi & Ho & Hb & Hf & Hh & Hn).
  destruct (equilibrium N ps _ F 1 i o qb qf q a W G HP Hi Ho Hb Hf Hq Ha) as [_ [_ [E1 E2]]].
  specialize (E2 HT). fold K in E1, E2. unfold apply_coefs in E1, E2 |- *. unfold U.
  rewrite !sumn_scal_r. rewrite !sumn_scal_r in E1, E2.
  set (sa := sumn K (fun k => snd a O k)) in *. set (sq := sumn K (fun k => snd q O k)) in *.
  assert (sa = 1 - fst a O) by lra. assert (sq = - fst q O) by lra. rewrite H, H0. field. auto.
Qed.

Lemma apply_zero K (a : coefs) i : apply_coefs K a 1 (fun _ => 0) i = fst a i.
Proof. unfold apply_coefs. rewrite sumn_zero; [lra|]. intros; lra. Qed.

(* One borehole *)
Lemma resistance_single N p H m cp : build_net 1 None = Some N -> m <> 0 ->
  pipe_balanced p m cp 1 None ->
  network_thermal_resistance N [p] H [m] [cp] = Some (effective_resistance p H m cp).
Proof.
  intros B Hm HB. destruct (parallel_facts 1 N B) as [W [En [_ [Ii [Io [Ni [Nf Hc]]]]]]].
  set (g := mkargs [m] [cp] (SegN 1) RNone).
  assert (EF : exists F, good_args N [p] g F /\ f_m F = [m] /\ f_mb F = [m] /\ f_cpb F = [cp] /\ f_seg F = [1%nat] /\ f_rat F = [None]).
  { assert (Lc : n_circ N = [O]).
    { destruct W as [_ [_ [_ [L _]]]]. rewrite En in L. destruct (n_circ N) as [|c [|]] eqn:E; try discriminate.
      f_equal. specialize (Hc O). simpl in Hc. apply Hc. lia. }
    assert (exists r, format_dir [m] = Some r) as [rv Hr].
    { unfold format_dir. simpl. destruct (Rleb 0 m) eqn:E1; [eexists; reflexivity|].
      apply Rleb_false in E1. assert (Rleb m 0 = true) by (apply Rleb_true; lra). rewrite H0. eexists; reflexivity. }
    exists (mkfmt [m] rv [m] [cp] [1%nat] [None]). unfold good_args, format_inputs, g.
    cbn [g_m g_cp g_n g_r format_flow format_cp format_seg format_rat]. rewrite Hr, Ni, En, Lc. simpl.
    replace (m / 1) with m by field. auto 10. }
  destruct EF as (F & G & E1 & E2 & E3 & E4 & E5).
  destruct (fresh_some_all N [p] g F W G) as (i & o & qb & qf & h & no & Hi & Ho & Hb & Hf & Hh & Hn).
  rewrite (resistance_unfold N [p] H [m] [cp] F no h W G Hn Hh). unfold effective_resistance. do 2 f_equal.
  - f_equal. f_equal. rewrite <- (apply_zero (seg_total (f_seg F)) no O).
    rewrite (outlet_listed N [p] g F 1 (fun _ => 0) no o W G Hn Ho). unfold total_flow. rewrite Ni.
    rewrite (fresh_direct N [p] _ g F W G) in Ho. cbn [direct] in Ho.
    assert (S : sized 1 [p] F) by (unfold sized; rewrite E2, E3, E4, E5; auto).
    assert (EI : iOutlets N (f_rev F) = [O]) by (unfold iOutlets; destruct (f_rev F); auto). rewrite EI.
    assert (X := parallel_outlet 1 N [p] F o 1 (fun _ => 0) O B S Ho). rewrite E1. cbn [sumn nth]. rewrite X by lia.
    unfold bore_outlet. rewrite E2, E3, E4, E5. cbn [nth sumn]. field. apply Rabs_no_R0; auto.
  - rewrite <- (apply_zero (seg_total (f_seg F)) h O).
    assert (HP : every_pipe pipe_balanced N [p] F).
    { intros j q Hj. destruct j as [|[|j]]; simpl in Hj; try discriminate. injection Hj as <-. rewrite E2, E3, E4, E5. auto. }
    rewrite (heat_sum_segments N [p] g F 1 (fun _ => 0) h qb W G HP Hh Hb).
    rewrite (fresh_direct N [p] _ g F W G) in Hb. cbn [direct] in Hb.
    rewrite (fresh_direct N [p] _ g F W G) in Hi. cbn [direct] in Hi. rewrite Hi in Hb. injection Hb as <-.
    assert (X := qb_apply N [p] g F i 1 (fun _ => 0) O O W G). cbv zeta in X. rewrite E2, E3, E4, E5 in X.
    rewrite E4. cbn [nth seg_off Nat.add] in X. change (seg_total [1%nat]) with 1%nat in *. cbn [sumn] in X |- *.
    rewrite X by lia. rewrite (parallel_inlet 1 N [p] F i 1 1 (fun _ => 0) O B Hi) by lia. lra.
Qed.

(* ------------------------------------------------------------------ *)
(* Histories of scalar flows                                           *)

Lemma scalar_good N ps cp x : length ps = nB N -> 0 < fst x -> good_call N ps (scalar_call cp x).
Proof.
  intros L Hx. destruct x as [x s]. cbn [fst] in Hx.
  assert (Er : format_dir [x] = Some false).
  { unfold format_dir. simpl. assert (Q : Rleb 0 x = true) by (apply Rleb_true; lra). rewrite Q. auto. }
  unfold good_call, good_args, scalar_call, format_inputs. cbn [g_m g_cp g_n g_r format_flow format_cp format_seg fst snd].
  rewrite Er. eexists. split; [reflexivity|]. split; auto. simpl. apply repeat_length.
Qed.

Lemma scalar_apart cp x y : cp <> 0 -> well_apart (fst x) (fst y) -> told_apart (scalar_call cp x) (scalar_call cp y).
Proof.
  intros Hc HA mcp Hm v H. destruct x as [x s], y as [y s']. unfold scalar_call in *. cbn [fst snd g_m g_cp g_n g_r] in *.
  simpl in Hm. injection Hm as <-. unfold check_coefficients in H. cbn [g_m g_cp g_n g_r e_rat e_mcp e_seg] in H.
  simpl bcast in H. unfold near_val in H. simpl in H. rewrite !andb_true_r in H.
  destruct (Rltb (Rabs (x * cp - y * cp)) (Rabs (y * cp) * tol)) eqn:E.
  - apply Rltb_true in E. assert (x = y).
    { destruct HA as [|HA]; auto. exfalso. replace (x * cp - y * cp) with ((x - y) * cp) in E by lra.
      rewrite !Rabs_mult in E. assert (0 < Rabs cp) by (apply Rabs_pos_lt; auto). unfold tol in E. nra. }
    subst y. destruct (Nat.eqb_spec s s'); [subst; auto|].
    rewrite andb_false_r in H. discriminate.
  - assert (Q : Reqb 0 1 = false) by (apply Reqb_false; lra). rewrite Q in H. simpl in H. discriminate.
Qed.

Lemma history_scalar N ps cp l k x : wf N -> length ps = nB N -> cp <> 0 ->
  (forall y, In y (x :: map snd l) -> 0 < fst y) ->
  (forall y z, In y (x :: map snd l) -> In z (x :: map snd l) -> well_apart (fst y) (fst z)) ->
  snd (call N ps k (scalar_call cp x) (calls N ps (map (fun c => (fst c, scalar_call cp (snd c))) l) init_state))
  = fresh N ps k (scalar_call cp x).
Proof.
  intros W L Hc Hp Ha.
  assert (I : forall h, In h (scalar_call cp x :: map snd (map (fun c => (fst c, scalar_call cp (snd c))) l)) ->
     exists y, In y (x :: map snd l) /\ h = scalar_call cp y).
  { intros h [<-|H]; [exists x; split; [left|]; auto|]. rewrite map_map in H. apply in_map_iff in H.
    destruct H as [c [<- Hi]]. exists (snd c). split; auto. right. apply in_map. auto. }
  apply history_gen; auto.
  - intros h Hh. destruct (I h Hh) as [y [Hy ->]]. apply scalar_good; auto.
  - intros h1 h2 H1 H2. destruct (I h1 H1) as [y [Hy ->]], (I h2 H2) as [z [Hz ->]]. apply scalar_apart; auto.
  - intros _ h1 h2 H1 H2. destruct (I h1 H1) as [y [Hy ->]], (I h2 H2) as [z [Hz ->]].
    assert (M : forall y, In y (x :: map snd l) ->
       mixing (iOutlets N (f_rev (the_fmt N (scalar_call cp y)))) (f_m (the_fmt N (scalar_call cp y)))
       = mixing (n_out N) (repeat 1 (nInlets N))).
    { intros [u s] Hu. specialize (Hp _ Hu). cbn [fst] in Hp. rewrite <- (scalar_mixing N u W Hp).
      unfold the_fmt, format_inputs, scalar_call. cbn [g_m g_cp g_n g_r format_flow format_cp format_seg fst snd].
      assert (Er : format_dir [u] = Some false).
      { unfold format_dir. simpl. assert (Q : Rleb 0 u = true) by (apply Rleb_true; lra). rewrite Q. auto. }
      rewrite Er. reflexivity. }
    rewrite !M; auto.
Qed.

(* ------------------------------------------------------------------ *)
(* Counterexamples                                                     *)

(* A borehole that brings the fluid to the temperature of its first segment *)
Definition perfect : pipe :=
  mkpipe (fun _ _ _ _ => (0, fun k => if Nat.eqb k 0 then 1 else 0))
         (fun m cp _ _ => (fun k => if Nat.eqb k 0 then - (Rabs m * cp) else 0,
                           fun k l => if Nat.eqb k 0 && Nat.eqb l 0 then Rabs m * cp else 0)).
(* A borehole whose effect depends on its flow *)
Definition flowing : pipe :=
  mkpipe (fun m _ _ _ => (m, fun k => if Nat.eqb k 0 then 1 - m else 0))
         (fun m cp _ _ => (fun k => if Nat.eqb k 0 then - (Rabs m * cp) * (1 - m) else 0,
                           fun k l => if Nat.eqb k 0 && Nat.eqb l 0 then Rabs m * cp * (1 - m) else 0)).

Lemma head_sum n (x : R) : (0 < n)%nat -> sumn n (fun k => if Nat.eqb k 0 then x else 0) = x.
Proof.
  intro H. rewrite (sumn_single n O); auto. intros i Hi Hn. destruct (Nat.eqb_spec i 0); [contradiction|auto].
Qed.

Lemma flowing_ok m cp n r : (0 < n)%nat -> pipe_neutral flowing m cp n r /\ pipe_balanced flowing m cp n r.
Proof.
  intro Hn. split; split; cbn [p_out p_qb p_qf flowing fst snd].
  - rewrite head_sum by auto. lra.
  - intros k Hk. destruct (Nat.eqb k 0); cbn [andb]; [rewrite head_sum by auto; lra|].
    rewrite sumn_zero; [lra|auto].
  - rewrite head_sum by auto. lra.
  - intros l Hl. destruct (Nat.eqb l 0).
    + transitivity (sumn n (fun k => if Nat.eqb k 0 then Rabs m * cp * (1 - m) else 0));
      [apply sumn_ext; intros; rewrite andb_true_r; auto|apply head_sum; auto].
    + rewrite sumn_zero; [lra|]. intros; rewrite andb_false_r; auto.
Qed.

Lemma perfect_ok m cp n r : (0 < n)%nat -> pipe_neutral perfect m cp n r /\ pipe_balanced perfect m cp n r.
Proof.
  intro Hn. split; split; cbn [p_out p_qb p_qf perfect fst snd].
  - rewrite head_sum by auto. lra.
  - intros k Hk. destruct (Nat.eqb k 0); cbn [andb]; [rewrite head_sum by auto; lra|].
    rewrite sumn_zero; [lra|auto].
  - rewrite head_sum by auto. lra.
  - intros l Hl. destruct (Nat.eqb l 0).
    + transitivity (sumn n (fun k => if Nat.eqb k 0 then Rabs m * cp else 0));
      [apply sumn_ext; intros; rewrite andb_true_r; auto|rewrite head_sum by auto; lra].
    + rewrite sumn_zero; [lra|]. intros; rewrite andb_false_r; auto.
Qed.

(* Boreholes 0 and 1 at the inlet, 1 feeds 2, 0 feeds 3 *)
Definition crossed : list Z := [-1; -1; 1; 0]%Z.
Definition crossed_net : net := mknet crossed [0; 1]%nat [2; 3]%nat [0; 1; 1; 0]%nat.
Definition crossed_args : args := mkargs [1; 2] [1] (SegN 1) RNone.
Definition crossed_fmt : fmt :=
  mkfmt [1; 2] false [1; 2; 2; 1] [1; 1; 1; 1] [1; 1; 1; 1]%nat [None; None; None; None].
Definition crossed_end (k : nat) : nat := (3 - k)%nat.

Lemma crossed_build : build_net 4 (Some crossed) = Some crossed_net.
Proof. reflexivity. Qed.

Lemma crossed_good ps : length ps = 4%nat -> good_args crossed_net ps crossed_args crossed_fmt.
Proof.
  intro L. split; [|auto]. unfold format_inputs, crossed_args. cbn [g_m g_cp g_n g_r].
  assert (D : format_dir [1; 2] = Some false).
  { unfold format_dir. cbn [forallb]. assert (A : Rleb 0 1 = true) by (apply Rleb_true; lra).
    assert (B : Rleb 0 2 = true) by (apply Rleb_true; lra). rewrite A, B. auto. }
  rewrite D. reflexivity.
Qed.

Lemma crossed_ends : ends crossed_net false crossed_end.
Proof.
  intros k Hk. assert (k = 0 \/ k = 1)%nat as [->| ->] by (unfold nInlets in Hk; simpl in Hk; lia).
  - split; [apply Nat.ltb_lt; reflexivity|]. split.
    + apply (root_up _ 3 0); [reflexivity|apply root_here; reflexivity].
    + intros j Hj. unfold feeds. simpl in Hj. do 4 (destruct j as [|j]; [discriminate|]). lia.
  - split; [apply Nat.ltb_lt; reflexivity|]. split.
    + apply (root_up _ 2 1); [reflexivity|apply root_here; reflexivity].
    + intros j Hj. unfold feeds. simpl in Hj. do 4 (destruct j as [|j]; [discriminate|]). lia.
Qed.

Lemma perfect_everywhere N F n : (forall i, (i < n)%nat -> nth i (f_seg F) O <> O) ->
  every_pipe pipe_neutral N (repeat perfect n) F /\ every_pipe pipe_balanced N (repeat perfect n) F.
Proof.
  intro H. split; intros i p Hi;
  (assert (Hl := nth_error_lt _ _ _ Hi); rewrite repeat_length in Hl; apply nth_error_In in Hi; apply repeat_spec in Hi; subst p;
   specialize (H i Hl); apply perfect_ok; lia).
Qed.

Lemma perfect_outlet N n g F o t Tb i : wf N -> nB N = n -> good_args N (repeat perfect n) g F ->
  fresh N (repeat perfect n) Outlet g = Some o -> (i < n)%nat -> nth i (f_seg F) O <> O ->
  apply_coefs (seg_total (f_seg F)) o t Tb i = Tb (seg_off (f_seg F) i).
Proof.
  intros W En G Ho Hi Hs. destruct (fresh_some_all _ _ _ _ W G) as (a & o' & _ & _ & _ & _ & Ha & Ho' & _).
  rewrite (fresh_direct _ _ _ g F W G) in Ha; rewrite (fresh_direct _ _ _ g F W G) in Ho. cbn [direct] in Ha, Ho.
  rewrite (in_out_consistent _ _ _ _ _ _ t Tb W G Ha Ho i) by lia.
  unfold bore_outlet. fold no_pipe. rewrite nth_repeat_lt by auto. cbn [p_out perfect fst snd].
  rewrite (sumn_single _ O); [rewrite Nat.eqb_refl, Nat.add_0_r; cbv iota; ring|lia|].
  intros k Hk Hn. destruct (Nat.eqb_spec k 0); [contradiction|lra].
Qed.

Lemma crossed_values :
  exists a o h, fresh crossed_net (repeat perfect 4) NetOutlet crossed_args = Some a
   /\ fresh crossed_net (repeat perfect 4) Outlet crossed_args = Some o
   /\ fresh crossed_net (repeat perfect 4) NetHeat crossed_args = Some h
   /\ apply_coefs 4 a 0 INR O = 8 / 3
   /\ apply_coefs 4 o 0 INR 3 = 3 /\ apply_coefs 4 o 0 INR 2 = 2
   /\ apply_coefs 4 h 0 INR O = 7 /\ total_flow crossed_net crossed_fmt = 3.
Proof.
  destruct (build_wf _ _ _ crossed_build) as [W En].
  assert (G := crossed_good (repeat perfect 4) eq_refl).
  destruct (fresh_some_all _ _ _ _ W G) as (i & o & qb & qf & h & a & Hi & Ho & Hb & Hf & Hh & Ha).
  exists a, o, h. split; auto. split; auto. split; auto.
  assert (O3 := perfect_outlet _ 4 _ _ o 0 INR 3 W En G Ho). assert (O2 := perfect_outlet _ 4 _ _ o 0 INR 2 W En G Ho).
  change (seg_total (f_seg crossed_fmt)) with 4%nat in *. simpl in O3, O2. 
  assert (V3 : apply_coefs 4 o 0 INR 3 = 3) by (rewrite O3 by (lia || discriminate); lra).
  assert (V2 : apply_coefs 4 o 0 INR 2 = 2) by (rewrite O2 by (lia || discriminate); lra).
  assert (A1 : Rabs 1 = 1) by apply Rabs_R1. assert (A2 : Rabs 2 = 2) by (apply Rabs_right; lra).
  assert (TF : total_flow crossed_net crossed_fmt = 3).
  { unfold total_flow. change (nInlets crossed_net) with 2%nat. cbn [sumn nth f_m crossed_fmt]. rewrite A1, A2. lra. }
  split; [|split; [auto|split; [auto|split; [|auto]]]].
  - assert (L := outlet_listed _ _ _ _ 0 INR a o W G Ha Ho). cbv zeta in L. rewrite TF in L.
    change (seg_total (f_seg crossed_fmt)) with 4%nat in L. rewrite L. change (nInlets crossed_net) with 2%nat.
    cbn [sumn nth f_m f_rev iOutlets crossed_fmt crossed_net n_out]. rewrite V2, V3, A1, A2. lra.
  - assert (L := heat_circuits _ _ _ _ crossed_end 0 INR 1 h o W G crossed_ends (or_introl eq_refl) Hh Ho). cbv zeta in L.
    change (seg_total (f_seg crossed_fmt)) with 4%nat in L. rewrite L. change (nInlets crossed_net) with 2%nat.
    cbn [sumn nth f_m crossed_fmt crossed_end Nat.sub]. rewrite V2, V3, A1, A2. lra.
Qed.

(* Two boreholes in parallel *)
Definition two : net := mknet [-1; -1]%Z [0; 1]%nat [0; 1]%nat [0; 1]%nat.
Lemma two_build : build_net 2 None = Some two.
Proof. reflexivity. Qed.

Definition two_args (x y : R) : args := mkargs [x; y] [1] (SegN 1) RNone.
Definition two_fmt (x y : R) : fmt := mkfmt [x; y] false [x; y] [1; 1] [1; 1]%nat [None; None].

Lemma two_good ps x y : length ps = 2%nat -> 0 < x -> 0 < y -> good_args two ps (two_args x y) (two_fmt x y).
Proof.
  intros L Hx Hy. split; [|auto]. unfold format_inputs, two_args. cbn [g_m g_cp g_n g_r].
  assert (D : format_dir [x; y] = Some false).
  { unfold format_dir. cbn [forallb]. assert (A : Rleb 0 x = true) by (apply Rleb_true; lra).
    assert (B : Rleb 0 y = true) by (apply Rleb_true; lra). rewrite A, B. auto. }
  rewrite D. reflexivity.
Qed.

Lemma two_check x y x' y' v :
  check_coefficients (two_args x y) (Some (mkentry [x' * 1; y' * 1] (SegN 1) RNone v))
  = Some (andb (Rltb (Rabs (x * 1 - x' * 1)) (Rabs (x' * 1) * tol)) (Rltb (Rabs (y * 1 - y' * 1)) (Rabs (y' * 1) * tol))).
Proof.
  unfold check_coefficients, two_args. cbn [g_m g_cp g_n g_r e_rat e_mcp e_seg]. unfold near_val. simpl.
  assert (Q1 : Reqb 1 1 = true) by (apply Reqb_true; auto). assert (Q0 : Reqb 0 1 = false) by (apply Reqb_false; lra).
  destruct (Rltb (Rabs (x * 1 - x' * 1)) (Rabs (x' * 1) * tol));
  destruct (Rltb (Rabs (y * 1 - y' * 1)) (Rabs (y' * 1) * tol)); rewrite ?Q1, ?Q0; reflexivity.
Qed.

Lemma self_near x : x <> 0 -> Rltb (Rabs (x * 1 - x * 1)) (Rabs (x * 1) * tol) = true.
Proof.
  intro H. apply Rltb_true. replace (x * 1 - x * 1) with 0 by lra. rewrite Rabs_R0, Rmult_1_r. unfold tol.
  assert (0 < Rabs x) by (apply Rabs_pos_lt; auto). lra.
Qed.

(* Outlet temperatures with flows (1, 1), inlet temperatures with flows (1, 3),
   then the network outlet temperature with flows (1, 1): mixed with (1, 3). *)
Lemma stale_mixing : exists a b,
  snd (call two (repeat perfect 2) NetOutlet (two_args 1 1)
        (calls two (repeat perfect 2) [(Outlet, two_args 1 1); (Inlet, two_args 1 3)] init_state)) = Some a
  /\ fresh two (repeat perfect 2) NetOutlet (two_args 1 1) = Some b
  /\ apply_coefs 2 a 0 INR O = 3 / 4 /\ apply_coefs 2 b 0 INR O = 1 / 2.
Proof.
  destruct (build_wf _ _ _ two_build) as [W En].
  assert (G := two_good (repeat perfect 2) 1 1 eq_refl ltac:(lra) ltac:(lra)).
  assert (G3 := two_good (repeat perfect 2) 1 3 eq_refl ltac:(lra) ltac:(lra)).
  destruct (fresh_some_all _ _ _ _ W G) as (i & o & qb & qf & h & b & Hi & Ho & Hb & Hf & Hh & Hn).
  assert (T0 := perfect_outlet _ 2 _ _ o 0 INR 0 W En G Ho). assert (T1 := perfect_outlet _ 2 _ _ o 0 INR 1 W En G Ho).
  change (seg_total (f_seg (two_fmt 1 1))) with 2%nat in *. simpl in T0, T1.
  assert (V0 : apply_coefs 2 o 0 INR 0 = 0) by (rewrite T0 by (lia || discriminate); auto).
  assert (V1 : apply_coefs 2 o 0 INR 1 = 1) by (rewrite T1 by (lia || discriminate); auto).
  assert (L := outlet_listed _ _ _ _ 0 INR b o W G Hn Ho). cbv zeta in L.
  change (seg_total (f_seg (two_fmt 1 1))) with 2%nat in L. unfold total_flow in L. change (nInlets two) with 2%nat in L.
  cbn [sumn nth f_m f_rev iOutlets two_fmt two n_out] in L. rewrite V0, V1, Rabs_R1 in L.
  exists (coef_net_outlet two (mixing (iOutlets two false) [1; 3]) o), b.
  split; [|split; [auto|split]].
  - rewrite (fresh_direct _ _ _ _ _ W G) in Ho. cbn [direct] in Ho.
    destruct (coef_inlet_some two (repeat perfect 2) (two_fmt 1 3) W) as [a3 Ha3].
    cbn [calls call].
    assert (S1 : m_outlet two (repeat perfect 2) (two_args 1 1) init_state
      = (set_entry (set_fmt init_state (two_fmt 1 1)) 1 (two_args 1 1) o, Some o)).
    { unfold m_outlet, cached. change (nth 1 (s_store init_state) None) with (@None entry). simpl check_coefficients. cbv iota beta.
      rewrite (proj1 G), Ho. auto. }
    rewrite S1. cbn [fst].
    assert (S2 : m_inlet two (repeat perfect 2) (two_args 1 3) (set_entry (set_fmt init_state (two_fmt 1 1)) 1 (two_args 1 1) o)
      = (set_entry (set_fmt (set_entry (set_fmt init_state (two_fmt 1 1)) 1 (two_args 1 1) o) (two_fmt 1 3)) 0 (two_args 1 3) a3, Some a3)).
    { unfold m_inlet, cached. change (nth 0 (s_store (set_entry (set_fmt init_state (two_fmt 1 1)) 1 (two_args 1 1) o)) None) with (@None entry).
      simpl check_coefficients. cbv iota beta. rewrite (proj1 G3), Ha3. auto. }
    rewrite S2. cbn [fst].
    set (s := set_entry _ 0 _ _).
    assert (E1 : nth 1 (s_store s) None = Some (mkentry [1 * 1; 1 * 1] (SegN 1) RNone o)) by reflexivity.
    assert (E3 : nth 3 (s_store s) None = None) by reflexivity.
    assert (EF : s_fmt s = Some (two_fmt 1 3)) by reflexivity.
    assert (EM : s_mix s = None) by reflexivity.
    unfold m_net_outlet, cached at 1. rewrite E3. simpl check_coefficients. cbv iota beta.
    assert (S3 : m_outlet two (repeat perfect 2) (two_args 1 1) s = (s, Some o)).
    { unfold m_outlet, cached. rewrite E1, two_check, self_near by lra. auto. }
    rewrite S3. unfold m_mixing. rewrite EM, EF. reflexivity.
  - rewrite net_outlet_apply. rewrite En.
    rewrite mixing_sum; [|repeat constructor; simpl; intuition lia|simpl; intuition lia].
    cbn [iOutlets two n_out length sumn nth map Rsum]. rewrite V0, V1, Rabs_R1. rewrite (Rabs_right 3) by lra. simpl. lra.
  - rewrite L. lra.
Qed.

(* The outlet temperatures for flows (1, 1) answer a query for the total flow 1,
   one half per borehole. *)
Lemma stale_scalar : exists a b,
  snd (call two (repeat flowing 2) Outlet (mkargs [1] [1] (SegN 1) RNone)
        (calls two (repeat flowing 2) [(Outlet, two_args 1 1)] init_state)) = Some a
  /\ fresh two (repeat flowing 2) Outlet (mkargs [1] [1] (SegN 1) RNone) = Some b
  /\ apply_coefs 2 a 1 (fun _ => 0) O = 1 /\ apply_coefs 2 b 1 (fun _ => 0) O = 1 / 2.
Proof.
  destruct (build_wf _ _ _ two_build) as [W En].
  assert (G := two_good (repeat flowing 2) 1 1 eq_refl ltac:(lra) ltac:(lra)).
  destruct (scalar_good two (repeat flowing 2) 1 (1, 1%nat) eq_refl ltac:(cbn; lra)) as [F1 G1].
  unfold scalar_call in G1. cbn [fst snd] in G1.
  destruct (coef_outlet_some two (repeat flowing 2) (two_fmt 1 1) W) as [o Ho].
  destruct (coef_outlet_some two (repeat flowing 2) F1 W) as [b Hb].
  assert (EF1 : f_mb F1 = [1/2; 1/2] /\ f_seg F1 = [1; 1]%nat /\ f_cpb F1 = [1; 1] /\ f_rat F1 = [None; None]).
  { destruct G1 as [Q _]. unfold format_inputs in Q. cbn [g_m g_cp g_n g_r format_flow format_cp format_seg] in Q.
    destruct (format_dir [1]); [|discriminate]. injection Q as <-. simpl. replace (1 + 1) with 2 by lra. auto. }
  destruct EF1 as [Em [Es [Ec Er]]].
  exists o, b. split; [|split; [|split]].
  - cbn [calls call].
    assert (S1 : m_outlet two (repeat flowing 2) (two_args 1 1) init_state
      = (set_entry (set_fmt init_state (two_fmt 1 1)) 1 (two_args 1 1) o, Some o)).
    { unfold m_outlet, cached. change (nth 1 (s_store init_state) None) with (@None entry). simpl check_coefficients. cbv iota beta.
      rewrite (proj1 G), Ho. auto. }
    rewrite S1. cbn [fst]. unfold m_outlet, cached.
    change (nth 1 (s_store (set_entry (set_fmt init_state (two_fmt 1 1)) 1 (two_args 1 1) o)) None)
      with (Some (mkentry [1 * 1; 1 * 1] (SegN 1) RNone o)).
    assert (C : check_coefficients (mkargs [1] [1] (SegN 1) RNone) (Some (mkentry [1 * 1; 1 * 1] (SegN 1) RNone o)) = Some true).
    { unfold check_coefficients. cbn [g_m g_cp g_n g_r e_rat e_mcp e_seg]. unfold near_val. simpl.
      rewrite self_near by lra. assert (Q1 : Reqb 1 1 = true) by (apply Reqb_true; auto). rewrite Q1. auto. }
    rewrite C. auto.
  - rewrite (fresh_direct _ _ _ _ _ W G1). auto.
  - assert (X := parallel_outlet 2 two (repeat flowing 2) (two_fmt 1 1) o 1 (fun _ => 0) 0 two_build).
    change (seg_total (f_seg (two_fmt 1 1))) with 2%nat in X. rewrite X; auto; [|unfold sized; auto 10].
    unfold bore_outlet. simpl. lra.
  - assert (X := parallel_outlet 2 two (repeat flowing 2) F1 b 1 (fun _ => 0) 0 two_build).
    rewrite Es in X. change (seg_total [1;1]%nat) with 2%nat in X. rewrite X; auto.
    + unfold bore_outlet. rewrite Em, Es, Ec, Er. simpl. lra.
    + unfold sized. rewrite Em, Es, Ec, Er. auto 10.
Qed.

(* ------------------------------------------------------------------ *)
(* Formatted inputs                                                    *)

Lemma format_parts N g F : format_inputs N g = Some F ->
  format_flow N (g_m g) = Some (f_m F) /\ format_dir (g_m g) = Some (f_rev F)
  /\ (exists cp, format_cp N (g_cp g) = Some cp) /\ format_seg N (g_n g) = Some (f_seg F)
  /\ f_rat F = format_rat N (g_r g).
Proof.
  unfold format_inputs. destruct (format_flow N (g_m g)); [|discriminate].
  destruct (format_dir (g_m g)); [|discriminate]. destruct (format_cp N (g_cp g)); [|discriminate].
  destruct (format_seg N (g_n g)); [|discriminate]. intro H. injection H as <-. cbn. eauto 10.
Qed.

Lemma format_segments N g F i : format_inputs N g = Some F -> (i < nB N)%nat ->
  (forall s, g_n g = SegN s \/ g_n g = SegL [s] -> nth i (f_seg F) O = s)
  /\ (forall l, g_n g = SegL l -> length l = nB N -> nth i (f_seg F) O = nth i l O).
Proof.
  intros H Hi. apply format_parts in H. destruct H as (_ & _ & _ & H & _). split.
  - intros s [E|E]; rewrite E in H; cbn [format_seg] in H; injection H as <-; apply nth_repeat_lt; auto.
  - intros l E L. rewrite E in H. destruct l as [|a [|b l]]; cbn [format_seg] in H.
    + cbn in L. lia.
    + injection H as <-. cbn in L. assert (i = O) by lia. subst i. rewrite <- L. reflexivity.
    + rewrite L, Nat.eqb_refl in H. injection H as <-. auto.
Qed.

Lemma format_ratios N g F i : format_inputs N g = Some F -> (i < nB N)%nat ->
  (g_r g = RNone -> nth i (f_rat F) None = None)
  /\ (forall a, g_r g = RArr a -> nth i (f_rat F) None = Some a)
  /\ (forall l, g_r g = RList l -> length l = nB N -> nth i (f_rat F) None = Some (nth i l [])).
Proof.
  intros H Hi. apply format_parts in H. destruct H as (_ & _ & _ & _ & H). rewrite H. split; [|split].
  - intros ->. apply nth_repeat_lt. auto.
  - intros a ->. apply nth_repeat_lt. auto.
  - intros l -> L. cbn [format_rat]. apply (nth_map Some l i []). lia.
Qed.

Lemma format_accepts N g : wf N ->
  (exists F, format_inputs N g = Some F) <->
  (length (g_m g) = 1%nat \/ length (g_m g) = nInlets N)
  /\ ((forall x, In x (g_m g) -> 0 <= x) \/ (forall x, In x (g_m g) -> x <= 0))
  /\ (length (g_cp g) = 1%nat \/ length (g_cp g) = nInlets N)
  /\ (forall x y, In x (g_cp g) -> In y (g_cp g) -> x = y)
  /\ match g_n g with SegN _ => True | SegL l => length l = 1%nat \/ length l = nB N end.
Proof.
  intro W.
  assert (Hn : (0 < nInlets N)%nat).
  { destruct W as [C [_ [_ [_ P]]]]. destruct C as [_ [C _]]. destruct (P O C) as [P1 _]. lia. }
  assert (FF : (exists m, format_flow N (g_m g) = Some m) <-> (length (g_m g) = 1%nat \/ length (g_m g) = nInlets N)).
  { unfold format_flow. destruct (g_m g) as [|a [|b l]]; cbn [length].
    - destruct (Nat.eqb_spec 0 (nInlets N)); [lia|]. split; [intros [m Q]; discriminate|lia].
    - split; [auto|]. intros _. eexists; reflexivity.
    - destruct (Nat.eqb_spec (S (S (length l))) (nInlets N)).
      + split; [auto|]. intros _. eexists; reflexivity.
      + split; [intros [m Q]; discriminate|lia]. }
  assert (FD : (exists r, format_dir (g_m g) = Some r) <-> ((forall x, In x (g_m g) -> 0 <= x) \/ (forall x, In x (g_m g) -> x <= 0))).
  { unfold format_dir. destruct (forallb (fun x => Rleb 0 x) (g_m g)) eqn:E1.
    - split; [|intros _; eexists; reflexivity]. intros _. left. intros x Hx. rewrite forallb_forall in E1. apply Rleb_true, E1; auto.
    - destruct (forallb (fun x => Rleb x 0) (g_m g)) eqn:E2.
      + split; [|intros _; eexists; reflexivity]. intros _. right. intros x Hx. rewrite forallb_forall in E2. apply Rleb_true, E2; auto.
      + split; [intros [m Q]; discriminate|]. intros [H|H]; exfalso.
        * assert (forallb (fun x => Rleb 0 x) (g_m g) = true) by (apply forallb_forall; intros; apply Rleb_true; auto). congruence.
        * assert (forallb (fun x => Rleb x 0) (g_m g) = true) by (apply forallb_forall; intros; apply Rleb_true; auto). congruence. }
  assert (FC : (exists c, format_cp N (g_cp g) = Some c) <-> (length (g_cp g) = 1%nat \/ length (g_cp g) = nInlets N)
     /\ (forall x y, In x (g_cp g) -> In y (g_cp g) -> x = y)).
  { unfold format_cp. destruct (g_cp g) as [|a [|b l]].
    - cbn [length]. destruct (Nat.eqb_spec 0 (nInlets N)); [lia|]. cbn [negb]. split; [intros [m Q]; discriminate|intros [[|] _]; lia].
    - split; [|intros _; eexists; reflexivity]. intros _. split; [auto|]. intros x y [<-|[]] [<-|[]]; auto.
    - set (L := a :: b :: l). destruct (Nat.eqb_spec (length L) (nInlets N)); cbn [negb].
      + destruct (forallb (fun x => Reqb x (nth 0 L 0)) L) eqn:E.
        * split; [|intros _; eexists; reflexivity]. intros _. split; [auto|]. rewrite forallb_forall in E.
          intros x y Hx Hy. apply E in Hx. apply E in Hy. apply Reqb_true in Hx. apply Reqb_true in Hy. congruence.
        * split; [intros [m Q]; discriminate|]. intros [_ H]. exfalso.
          assert (forallb (fun x => Reqb x (nth 0 L 0)) L = true).
          { apply forallb_forall. intros x Hx. apply Reqb_true. apply H; auto. left; auto. }
          congruence.
      + split; [intros [m Q]; discriminate|]. intros [[Q|Q] _]; [discriminate|contradiction]. }
  assert (FS : (exists s, format_seg N (g_n g) = Some s) <-> match g_n g with SegN _ => True | SegL l => length l = 1%nat \/ length l = nB N end).
  { unfold format_seg. destruct (g_n g) as [s|[|a [|b l]]].
    - split; auto. intros _. eexists; reflexivity.
    - destruct (Nat.eqb_spec (length (@nil nat)) (nB N)); split; intros H; auto; try (eexists; reflexivity).
      + destruct H; discriminate.
      + destruct H as [H|H]; [discriminate|contradiction].
    - split; auto. intros _. eexists; reflexivity.
    - destruct (Nat.eqb_spec (length (a :: b :: l)) (nB N)); split; intros H; auto; try (eexists; reflexivity).
      + destruct H; discriminate.
      + destruct H as [H|H]; [discriminate|contradiction]. }
  rewrite <- FF, <- FD, <- FS. split.
  - intros [F H]. apply format_parts in H. destruct H as (H1 & H2 & H3 & H4 & _).
    apply FC in H3. split; eauto. split; eauto. split; [apply H3|]. split; [apply H3|eauto].
  - intros ([m Hm] & [r Hr] & Hc1 & Hc2 & [s Hs]). destruct (proj2 FC (conj Hc1 Hc2)) as [c Hc].
    unfold format_inputs. rewrite Hm, Hr, Hc, Hs. eexists; reflexivity.
Qed.
