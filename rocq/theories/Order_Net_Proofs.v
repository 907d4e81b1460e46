(* Networks of boreholes in parallel: the coefficients of the field. *)
From Coq Require Import Reals Lra Lia List Bool Psatz.
From Verif Require Import Base LinAlg Bore_Model Net_Model Net_Spec Net_Proofs Net_Coef_Proofs Net_Cache_Proofs Net_Heat_Proofs Net_Equiv_Proofs Net_More_Proofs Net_Extra_Proofs
  Pipe_Model Multi_Model Multi_Net_Proofs Solve_Model GFun_Model GFun_Spec GFun_Rows_Proofs Mift_Net_Proofs Passive_Spec Passive_Pipe_Proofs Passive_Net_Proofs Passive_GFun_Proofs
  Recip_Proofs Recip_Props Order_Spec.
From Verif Require Import Detailed_Model Detailed_Spec Detailed_Sol_Proofs.
From Verif Require GFun_Two_Proofs Cross_Multi_Proofs Pipe_Spec Pipe_Main_Proofs Pipe_Flow_Proofs Multi_Spec.
Import ListNotations.
Local Open Scope R_scope.

(* The pipes *)
Lemma library_inlet p m cp k r k' r' : library_pipe p m cp k r -> fst (p_out p m cp k r) = fst (p_out p m cp k' r').
Proof.
  intros [(u & d & e & -> & _)|(eig & u & -> & _)]; [reflexivity|].
  cbn [multi_pipe p_out]. unfold m_outlet. destruct (prepare _ _ _) as [[g s]|]; [|reflexivity]. destruct (returns _ _ _) as [Y|]; reflexivity.
Qed.

Lemma library_neutral p m cp k r : library_pipe p m cp k r -> pipe_neutral p m cp k r.
Proof.
  intros [(u & d & e & -> & G & _)|(eig & u & -> & K & Us & Rm & P & HP & SS & EO)].
  - exact (Pipe_Flow_Proofs.utube_neutral u m cp k r d e G).
  - apply multi_neutral; auto.
Qed.

Lemma legs_reciprocal p m cp k r : balanced_legs p m cp k r -> reciprocal_pipe p m cp k r.
Proof.
  intros [_ [->|(u & d & e & -> & G & P & E)]] i j Hi Hj.
  - replace i with O by lia. replace j with O by lia. reflexivity.
  - exact (proj1 (C148_symmetric u m cp k r d e i j E G P Hi Hj)).
Qed.

Lemma sumn_unit_r n j (f : nat -> R) : (j < n)%nat -> sumn n (fun k => f k * unit_at j k) = f j.
Proof. exact (sumn_unit n j f). Qed.

Section Flow.
  Variables (w : network) (ns : list nat) (rs : list (list R)) (x : R) (row : list R) (f : fmt).
  Hypothesis (Pw : in_parallel w) (Ln : List.length ns = List.length (w_b w)) (Lr : List.length rs = List.length (w_b w))
    (Ef : format_inputs (w_c w) (flow_call x ns rs row) = Some f) (Xp : 0 < x).
  Hypothesis Le : every_pipe balanced_legs (w_c w) (w_p w) f.
  Hypothesis Tf : 0 < total_flow (w_c w) f.
  Local Notation N := (w_c w).
  Local Notation ps := (w_p w).
  Local Notation g := (flow_call x ns rs row).
  Local Notation B := (proj1 Pw).
  Local Notation K := (list_sum ns).

  Lemma par_connected : connected w.
  Proof. split; [exact (proj2 Pw)|]. exists None. exact B. Qed.
  Let Cw := par_connected.

  Lemma every_map (P Q : pipe -> R -> R -> nat -> option (list R) -> Prop) : (forall p m cp k r, P p m cp k r -> Q p m cp k r) ->
    every_pipe P N ps f -> every_pipe Q N ps f.
  Proof. intros I A i p E. apply I. exact (A i p E). Qed.

  Lemma legs_sound : every_pipe sound_pipe N ps f.
  Proof. apply (every_map balanced_legs); [|exact Le]. intros p m cp k r [L _]. apply library_sound. exact L. Qed.

  Lemma block qb a t Tb i s : coef_inlet N ps f = Some a -> qb = coef_qb N ps f a -> (i < List.length (w_b w))%nat -> (s < nth i ns O)%nat ->
    let ab := p_qb (nth i ps no_pipe) (nth i (f_mb f) 0) (nth i (f_cpb f) 0) (nth i ns O) (nth i (f_rat f) None) in
    apply_coefs K qb t Tb (seg_off ns i + s) = fst ab s * t + sumn (nth i ns O) (fun l => snd ab s l * Tb (seg_off ns i + l)%nat).
  Proof.
    intros Ea -> Hi Hs. destruct (flow_wf w Cw) as [W En]. destruct (flow_format w ns rs x row f Cw Ln Ef) as (S1 & S2 & S3).
    pose proof (flow_good w ns rs x row f Cw Ln Lr Ef) as G.
    pose proof (qb_apply N ps g f a t Tb i s W G ltac:(lia)) as Q. rewrite S1, owner_pos_total in Q. cbv zeta in Q.
    cbv zeta. rewrite (Q Hs). rewrite (parallel_inlet _ N ps f a K t Tb i B Ea Hi). reflexivity.
  Qed.

  Lemma field_reciprocal F : network_flow w ns rs [x] row = Some F ->
    (forall i j, (i < K)%nat -> (j < K)%nat -> f_b F i j = f_b F j i) /\
    (forall i, (i < K)%nat -> f_in F i + sumn K (f_b F i) = 0).
  Proof.
    intros EF. destruct (flow_wf w Cw) as [W En]. destruct (flow_format w ns rs x row f Cw Ln Ef) as (S1 & S2 & S3).
    pose proof (flow_good w ns rs x row f Cw Ln Lr Ef) as G.
    destruct (coef_inlet_some N ps f W) as [a Ea]. destruct (fresh_some_all N ps g f W G) as (a' & o & qb & qf & h & no & Ha & Ho & Hb & Hf & Hh & Hn).
    unfold network_flow in EF. change (mkargs row [x] (SegL ns) (Net_Model.RList rs)) with g in EF. rewrite Hb, Hh in EF.
    destruct (network_thermal_resistance _ _ _ _ _) as [Rf|]; [|discriminate]. destruct (total_capacity _ _) as [c|]; [|discriminate]. injection EF as <-. cbn [f_in f_b].
    assert (Eq : qb = coef_qb N ps f a).
    { rewrite (fresh_direct N ps _ g f W G) in Hb. cbn [direct] in Hb. rewrite Ea in Hb. injection Hb as <-. reflexivity. }
    assert (St : seg_total (f_seg f) = K) by (rewrite S1; apply owner_pos_total).
    split.
    - (* symmetric in any two temperatures *)
      assert (Sy : forall S T : nat -> R, sumn K (fun y => S y * apply_coefs K qb 0 T y) = sumn K (fun y => T y * apply_coefs K qb 0 S y)).
      { intros S T. rewrite <- (owner_pos_total ns). rewrite !(sumn_segments ns), (owner_pos_total ns). apply sumn_ext. intros i Hi. rewrite Ln in Hi.
        set (ab := p_qb (nth i ps no_pipe) (nth i (f_mb f) 0) (nth i (f_cpb f) 0) (nth i ns O) (nth i (f_rat f) None)).
        assert (Ex : forall S T : nat -> R, sumn (nth i ns O) (fun s => S (seg_off ns i + s)%nat * apply_coefs K qb 0 T (seg_off ns i + s))
          = sumn (nth i ns O) (fun s => sumn (nth i ns O) (fun l => S (seg_off ns i + s)%nat * snd ab s l * T (seg_off ns i + l)%nat))).
        { intros S' T'. apply sumn_ext. intros s Hs. rewrite (block qb a 0 T' i s Ea Eq Hi Hs). cbv zeta. fold ab. rewrite Rmult_0_r, Rplus_0_l, <- sumn_scal. apply sumn_ext. intros; ring. }
        rewrite (Ex S T), (Ex T S), sumn_swap. apply sumn_ext. intros l Hl. apply sumn_ext. intros s Hs.
        assert (Rp : reciprocal_pipe (nth i ps no_pipe) (nth i (f_mb f) 0) (nth i (f_cpb f) 0) (nth i ns O) (nth i (f_rat f) None)).
        { apply legs_reciprocal. rewrite <- S1. pose proof (every_all _ _ _ _ g W G Le) as A. exact (A i ltac:(lia)). }
        rewrite (Rp s l Hs Hl : snd ab s l = snd ab l s). ring. }
      intros i j Hi Hj. specialize (Sy (unit_at i) (unit_at j)). rewrite !sumn_unit_l in Sy by assumption.
      unfold apply_coefs in Sy. rewrite !sumn_unit in Sy by assumption. lra.
    - intros i Hi.
      destruct (equilibrium N ps g f 1 a' o qb qf h no W G) as (_ & Q & _); auto.
      { apply (every_map balanced_legs); [|exact Le]. intros p m cp k r [L _]. apply library_neutral. exact L. }
      rewrite St in Q. specialize (Q i Hi). unfold apply_coefs in Q.
      rewrite (sumn_ext K (fun k => snd qb i k * 1) (snd qb i)) in Q by (intros; ring). lra.
  Qed.
  (* The whole capacity of the flow *)
  Lemma capacity_total c : total_capacity row [x] = Some c -> c = total_flow N f * x.
  Proof.
    intros Ec. destruct (parallel_facts _ N B) as (_ & _ & Np & _ & _ & Ni & _).
    pose proof Ef as E0. unfold flow_call, format_inputs in E0. cbn [Net_Model.g_m Net_Model.g_cp g_n g_r] in E0.
    destruct (format_flow N row) as [m|] eqn:E1; [|discriminate E0]. destruct (format_dir row); [|discriminate E0]. destruct (format_cp N [x]); [|discriminate E0]. destruct (format_seg N (SegL ns)); [|discriminate E0].
    assert (Fm : f_m f = m) by (injection E0 as <-; reflexivity). unfold total_flow. rewrite Fm.
    assert (Ea : total_capacity row [x] = Some (Rsum (map (fun a => Rabs a * x) row)) ).
    { unfold total_capacity. destruct row as [|y [|z zs]]; [reflexivity|reflexivity|reflexivity]. }
    rewrite Ea in Ec. injection Ec as <-.
    assert (Es : forall l : list R, Rsum (map (fun a => Rabs a * x) l) = sumn (List.length l) (fun k => Rabs (nth k l 0)) * x).
    { intros ys. rewrite <- sumn_scal_r. induction ys as [|y ys IH]; [reflexivity|]. cbn [map List.length]. rewrite sumn_S_l. cbn [nth]. rewrite <- IH. reflexivity. }
    rewrite Es. unfold format_flow in E1. destruct row as [|y [|z zs]].
    - destruct (_ =? _)%nat eqn:El; [|discriminate]. apply Nat.eqb_eq in El. cbn [List.length] in *. lia.
    - injection E1 as <-. f_equal. cbn [List.length sumn nth]. rewrite Rplus_0_l.
      rewrite (sumn_ext (nInlets N) _ (fun _ => Rabs y / INR (nInlets N))).
      + rewrite sumn_const. rewrite Ni. field. apply not_0_INR. lia.
      + intros k Hk. rewrite Cross_Multi_Proofs.repeat_nth by auto. unfold Rdiv. rewrite Rabs_mult, Rabs_inv, (Rabs_pos_eq (INR _)) by apply pos_INR. reflexivity.
    - destruct (_ =? _)%nat eqn:El; [|discriminate]. injection E1 as <-. apply Nat.eqb_eq in El. rewrite El. reflexivity.
  Qed.

  (* The heat of the network per degree at the inlet does not depend on the segments *)
  Lemma heat_one a1 f1 a : good_args N ps (mkargs row [x] (SegN 1) Net_Model.RNone) f1 -> coef_inlet N ps f = Some a -> coef_inlet N ps f1 = Some a1 ->
    total_flow N f1 = total_flow N f /\ fst (coef_net_heat N (coef_qf N ps f1 a1)) O = fst (coef_net_heat N (coef_qf N ps f a)) O.
  Proof.
    intros G1 Ea Ea1. destruct (flow_wf w Cw) as [W En]. destruct (flow_format w ns rs x row f Cw Ln Ef) as (S1 & S2 & S3).
    pose proof (flow_good w ns rs x row f Cw Ln Lr Ef) as G.
    assert (Em : f_m f1 = f_m f /\ f_mb f1 = f_mb f /\ f_cpb f1 = f_cpb f).
    { destruct G1 as [E1 _]. pose proof Ef as E0. unfold flow_call, format_inputs in E0, E1. cbn [Net_Model.g_m Net_Model.g_cp g_n g_r] in E0, E1.
      destruct (format_flow N row) as [m|]; [|discriminate]. destruct (format_dir row); [|discriminate]. destruct (format_cp N [x]); [|discriminate]. destruct (format_seg N (SegL ns)); [|discriminate].
      injection E0 as <-. injection E1 as <-. auto. }
    destruct Em as (M1 & M2 & M3). split; [unfold total_flow; rewrite M1; reflexivity|].
    assert (Z : forall c (k : nat), fst (coef_net_heat N c) O = apply_coefs k (coef_net_heat N c) 1 (fun _ => 0) O).
    { intros c k. unfold apply_coefs. rewrite (sumn_ext k _ (fun _ => 0)) by (intros; ring). rewrite sumn_zero; [ring|auto]. }
    rewrite (Z _ (seg_total (f_seg f1))), (Z (coef_qf N ps f a) (seg_total (f_seg f))), !net_heat_apply. apply sumn_ext. intros i Hi. rewrite En in Hi.
    assert (Sz : forall F g, good_args N ps g F -> Net_Equiv_Proofs.sized (List.length (w_b w)) ps F).
    { intros F g0 GF. destruct (good_lengths N ps g0 F W GF) as [A1 [A2 [A3 [A4 A5]]]]. rewrite En in *. repeat split; auto. }
    rewrite (parallel_qf _ N ps f1 a1 1 (fun _ => 0) i B (Sz _ _ G1) Ea1 Hi), (parallel_qf _ N ps f a 1 (fun _ => 0) i B (Sz _ _ G) Ea Hi).
    rewrite M2, M3. f_equal. f_equal. unfold bore_outlet. rewrite M2, M3.
    rewrite !(sumn_ext _ (fun k => _ * 0) (fun _ => 0)) by (intros; ring). rewrite !sumn_zero by auto. rewrite !Rplus_0_r, !Rmult_1_r.
    symmetry. apply library_inlet. pose proof (every_all _ _ _ _ g W G Le) as A. exact (proj1 (A i ltac:(lia))).
  Qed.

  Lemma field_flow : exists F, network_flow w ns rs [x] row = Some F /\ passive K F /\ circulates K F /\ consistent_flow K F /\
    reciprocal_field K (Rsum (map bH (w_b w))) F.
  Proof.
    destruct (sound_flow w ns rs x row f Cw Ln Lr Ef Xp legs_sound Tf) as (F & EF & Pa & Ci & Co).
    exists F. split; [exact EF|]. split; [exact Pa|]. split; [exact Ci|]. split; [exact Co|].
    destruct (field_reciprocal F EF) as [Sy Ne].
    destruct (flow_wf w Cw) as [W En]. pose proof (flow_good w ns rs x row f Cw Ln Lr Ef) as G.
    destruct (coef_inlet_some N ps f W) as [a Ea]. destruct (one_good w ns rs x row f Cw Ln Ef) as [f1 G1].
    destruct (coef_inlet_some N ps f1 W) as [a1 Ea1]. destruct (heat_one a1 f1 a G1 Ea Ea1) as [T1 Q1].
    destruct (fresh_some_all N ps _ f1 W G1) as (a' & o & qb & qf & h & no & Ha & Ho & Hb & Hf & Hh & Hn).
    pose proof (resistance_unfold N ps (Rsum (map bH (w_b w))) row [x] f1 no h W G1 Hn Hh) as ER.
    pose proof (heat_balance N ps _ f1 (fun k => k) 1 (fun _ => 0) x h no W G1 (parallel_ends _ N _ B) (parallel_well_mixed _ N f1 B) ltac:(rewrite T1; apply Rgt_not_eq; exact Tf) (or_introl eq_refl) Hh Hn) as HB.
    cbv zeta in HB. unfold apply_coefs in HB.
    rewrite !(sumn_ext _ (fun k => _ * 0) (fun _ => 0)) in HB by (intros; ring). rewrite !sumn_zero in HB by auto. rewrite !Rplus_0_r, !Rmult_1_r in HB.
    assert (Eh : fst h O = f_net_in F).
    { rewrite (fresh_direct N ps _ _ f1 W G1) in Hh. cbn [direct] in Hh. rewrite Ea1 in Hh. injection Hh as <-. rewrite Q1.
      pose proof EF as E. unfold network_flow in E. change (mkargs row [x] (SegL ns) (Net_Model.RList rs)) with g in E.
      rewrite !(fresh_direct N ps _ g f W G) in E. cbn [direct] in E. rewrite Ea, ER in E. destruct (total_capacity row [x]); [|discriminate]. injection E as <-. reflexivity. }
    assert (Em : f_mcp F = total_flow N f * x /\ f_R F = - (1 / 2) * Rsum (map bH (w_b w)) * (1 + fst no O) / fst h O).
    { pose proof EF as E. unfold network_flow in E. change (mkargs row [x] (SegL ns) (Net_Model.RList rs)) with g in E.
      rewrite !(fresh_direct N ps _ g f W G) in E. cbn [direct] in E. rewrite Ea, ER in E. destruct (total_capacity row [x]) as [c|] eqn:Ec; [|discriminate]. injection E as <-. cbn [f_mcp f_R].
      split; [exact (capacity_total c Ec)|reflexivity]. }
    destruct Em as [Em Er]. destruct Co as (N0 & Cin & _).
    assert (Mp : 0 < f_mcp F) by (rewrite Em; nra).
    assert (Ng : f_net_in F < 0).
    { specialize (Pa 1 (fun _ => 0)). rewrite (sumn_ext K _ (fun i => -1 * f_in F i)) in Pa.
      - rewrite sumn_scal, <- Cin in Pa. lra.
      - intros i Hi. rewrite (sumn_ext K _ (fun _ => 0)) by (intros; ring). rewrite sumn_zero by auto. ring. }
    split; [exact Sy|]. split; [exact Ne|]. rewrite <- Cin. split; [exact Ng|]. split; [exact Mp|].
    rewrite T1, <- Em, Eh in HB. rewrite Er, Eh.
    assert (Ra : fst no O = 1 + f_net_in F / f_mcp F) by (apply Rmult_eq_reg_l with (f_mcp F); [|lra]; transitivity (f_mcp F + f_net_in F); [lra|field; lra]).
    rewrite Ra. field. split; lra.
  Qed.
  Lemma capacities i : (i < List.length (w_b w))%nat -> nth i (f_cpb f) 0 = x.
  Proof.
    intros Hi. destruct (parallel_facts _ N B) as (W & En & Np & _ & _ & Ni & _ & Ci).
    pose proof (flow_good w ns rs x row f Cw Ln Lr Ef) as G. destruct (good_lengths N ps _ f W G) as [_ [_ [A3 _]]].
    pose proof Ef as E0. unfold flow_call, format_inputs in E0. cbn [Net_Model.g_m Net_Model.g_cp g_n g_r format_cp] in E0.
    destruct (format_flow N row) as [m|]; [|discriminate E0]. destruct (format_dir row); [|discriminate E0].
    destruct (format_seg N (SegL ns)) as [sg|]; [|discriminate E0].
    assert (Ec : f_cpb f = map (fun k : nat => nth k (repeat x (nInlets N)) 0) (n_circ N)) by (injection E0 as <-; reflexivity).
    rewrite Ec in *. rewrite map_length in A3. rewrite (nth_indep _ 0 (nth O (repeat x (nInlets N)) 0)) by (rewrite map_length; lia).
    rewrite (map_nth (fun k : nat => nth k (repeat x (nInlets N)) 0)). rewrite (Ci i Hi). apply Cross_Multi_Proofs.repeat_nth. lia.
  Qed.

  Lemma ones_off i : (forall k, In k ns -> k = 1%nat) -> (i <= List.length ns)%nat -> seg_off ns i = i.
  Proof.
    clear. intros A. revert i. induction ns as [|k ks IH]; intros i Hi; cbn [List.length] in Hi.
    - replace i with O by lia. reflexivity.
    - destruct i as [|i]; [reflexivity|]. change (k + seg_off ks i = S i)%nat. rewrite (A k (or_introl eq_refl)), IH; [lia| |lia]. intros; apply A; right; auto.
  Qed.

  Lemma alike_even F : network_flow w ns rs [x] row = Some F -> segmented (w_b w) ns rs -> vertical_field (w_b w) -> Detailed_Spec.good_ratios rs -> alike w ns f ->
    reciprocal_field K (Rsum (map bH (w_b w))) F -> evenly_fed K (segment_length (w_b w) ns rs) F.
  Proof.
    intros EF Sg Vf Gr (O1 & L & p & m & AL & Ap & Am) (_ & _ & Ng & _). destruct (flow_wf w Cw) as [W En]. destruct (flow_format w ns rs x row f Cw Ln Ef) as (S1 & S2 & S3).
    pose proof (flow_good w ns rs x row f Cw Ln Lr Ef) as G. destruct (good_lengths N ps _ f W G) as [A1 [A2 [A3 [A4 A5]]]].
    destruct (parallel_facts _ N B) as (_ & _ & Np & _).
    assert (Kn : K = List.length (w_b w)).
    { rewrite <- (owner_pos_total ns). unfold seg_total. rewrite ones_off by (auto; lia). exact Ln. }
    assert (R1 : forall r, In r rs -> r = [1]).
    { intros r Hr. destruct (In_nth _ _ [] Hr) as (b & Hb & <-). destruct Sg as (_ & L2 & L3). specialize (L3 b ltac:(lia)).
      rewrite (O1 (nth b ns O)) in L3 by (apply nth_In; lia). destruct (Gr _ Hr) as [G1 _]. destruct (nth b rs []) as [|y [|]]; try discriminate L3. cbn in G1. f_equal. lra. }
    assert (Fi : forall i, (i < K)%nat -> f_in F i = fst (p_qb p m x 1 (Some [1])) O).
    { intros i Hi. rewrite Kn in Hi. destruct (coef_inlet_some N ps f W) as [a Ea].
      assert (Eq : f_in F = fst (coef_qb N ps f a)).
      { unfold network_flow in EF. change (mkargs row [x] (SegL ns) (Net_Model.RList rs)) with g in EF. rewrite !(fresh_direct N ps _ g f W G) in EF. cbn [direct] in EF. rewrite Ea in EF.
        destruct (network_thermal_resistance _ _ _ _ _) as [Rf|]; [|discriminate]. destruct (total_capacity _ _) as [c|]; [|discriminate]. injection EF as <-. reflexivity. }
      assert (N1 : nth i ns O = 1%nat) by (apply O1, nth_In; lia).
      pose proof (block (coef_qb N ps f a) a 1 (fun _ => 0) i O Ea eq_refl Hi ltac:(lia)) as Bk. cbv zeta in Bk.
      rewrite ones_off in Bk by (auto; lia). rewrite Nat.add_0_r in Bk. unfold apply_coefs in Bk.
      rewrite !(sumn_ext _ (fun k => _ * 0) (fun _ => 0)) in Bk by (intros; ring). rewrite !sumn_zero in Bk by auto. rewrite !Rplus_0_r, !Rmult_1_r in Bk.
      rewrite Eq, Bk, N1, (capacities i Hi).
      rewrite (Ap (nth i ps no_pipe)) by (apply nth_In; lia). rewrite (Am (nth i (f_mb f) 0)) by (apply nth_In; lia).
      rewrite S2. rewrite (nth_indep _ None (Some [])) by (rewrite map_length; lia). rewrite (map_nth Some). rewrite (R1 (nth i rs [])) by (apply nth_In; lia). reflexivity. }
    assert (Hl : forall i, (i < K)%nat -> segment_length (w_b w) ns rs i = L).
    { intros i Hi. unfold segment_length, bore_segments.
      assert (I : In (nth i (borehole_segments (w_b w) ns rs) (Bore 0 0 0 0 0 0 0)) (borehole_segments (w_b w) ns rs)) by (apply nth_In; rewrite (proj1 (Detailed_Proofs.segments_all _ _ _ Sg)); exact Hi).
      destruct (in_segments _ _ _ _ I) as (b & k & r & Hb & Hr & Hs). rewrite (R1 r Hr) in Hs. cbn in Hs. destruct Hs as [<-|[]]. cbn. rewrite (AL b Hb). ring. }
    destruct (w_b w) as [|b0 bs0] eqn:Eb; [cbn in Np; lia|].
    assert (Lp : 0 < L) by (rewrite <- (AL b0 (or_introl eq_refl)); apply (proj1 Vf b0 (or_introl eq_refl))).
    rewrite (sumn_ext K (f_in F) (fun _ => fst (p_qb p m x 1 (Some [1])) O)) in Ng by exact Fi. rewrite sumn_const in Ng.
    set (q := fst (p_qb p m x 1 (Some [1])) O) in *. assert (Qn : q < 0) by (pose proof (pos_INR K); nra).
    exists (- q / L). split; [apply Rdiv_lt_0_compat; lra|]. intros i Hi. rewrite (Fi i Hi), (Hl i Hi). field. lra.
  Qed.
  Lemma one_segment : (forall k, In k ns -> k = 1%nat) -> forall i p, nth_error ps i = Some p -> nth i (f_seg f) O = 1%nat.
  Proof.
    intros O1 i p Hp. destruct (flow_wf w Cw) as [W En]. destruct (flow_format w ns rs x row f Cw Ln Ef) as (S1 & S2 & S3).
    rewrite S1. apply O1, nth_In. assert (i < List.length ps)%nat by (apply nth_error_Some; rewrite Hp; discriminate). lia.
  Qed.

  (* One segment each: the field is a list of conductances *)
  Lemma single_flow F : network_flow w ns rs [x] row = Some F -> (forall k, In k ns -> k = 1%nat) -> (forall r, In r rs -> r = [1]) ->
    forall i, (i < List.length (w_b w))%nat -> let ab := p_qb (nth i ps no_pipe) (nth i (f_mb f) 0) x 1 (Some [1]) in
      f_in F i = fst ab O /\ forall j, (j < K)%nat -> f_b F i j = if Nat.eqb i j then snd ab O O else 0.
  Proof.
    intros EF O1 R1 i Hi. destruct (flow_wf w Cw) as [W En]. destruct (flow_format w ns rs x row f Cw Ln Ef) as (S1 & S2 & S3).
    pose proof (flow_good w ns rs x row f Cw Ln Lr Ef) as G. destruct (coef_inlet_some N ps f W) as [a Ea].
    assert (Eq : f_in F = fst (coef_qb N ps f a) /\ f_b F = snd (coef_qb N ps f a)).
    { unfold network_flow in EF. change (mkargs row [x] (SegL ns) (Net_Model.RList rs)) with g in EF. rewrite !(fresh_direct N ps _ g f W G) in EF. cbn [direct] in EF. rewrite Ea in EF.
      destruct (network_thermal_resistance _ _ _ _ _) as [Rf|]; [|discriminate]. destruct (total_capacity _ _) as [c|]; [|discriminate]. injection EF as <-. split; reflexivity. }
    destruct Eq as [-> ->].
    assert (N1 : nth i ns O = 1%nat) by (apply O1, nth_In; lia).
    assert (Bk : forall t T, apply_coefs K (coef_qb N ps f a) t T i = fst (p_qb (nth i ps no_pipe) (nth i (f_mb f) 0) x 1 (Some [1])) O * t + snd (p_qb (nth i ps no_pipe) (nth i (f_mb f) 0) x 1 (Some [1])) O O * T i).
    { intros t T. pose proof (block (coef_qb N ps f a) a t T i O Ea eq_refl Hi ltac:(lia)) as Bk. cbv zeta in Bk.
      rewrite ones_off in Bk by (auto; lia). rewrite Nat.add_0_r in Bk. rewrite Bk, N1, (capacities i Hi), S2. cbn [sumn].
      rewrite (nth_indep _ None (Some [])) by (rewrite map_length; lia). rewrite (map_nth Some). rewrite (R1 (nth i rs [])) by (apply nth_In; lia). rewrite Nat.add_0_r. ring. }
    cbv zeta. split.
    - specialize (Bk 1 (fun _ => 0)). rewrite GFun_Two_Proofs.coef_in in Bk. rewrite Bk. ring.
    - intros j Hj. specialize (Bk 0 (GFun_Two_Proofs.unit_at j)). rewrite GFun_Two_Proofs.coef_b in Bk by exact Hj. rewrite Bk. unfold GFun_Two_Proofs.unit_at. destruct (Nat.eqb i j); ring.
  Qed.
End Flow.
