(** The coefficients of the network of equivalent boreholes are those of the network it stands for. *)
From Coq Require Import String.
From Verif Require Import Base LinAlg FLS_Model.
From Verif Require Import Bore_Model Net_Model Net_Spec Net_Proofs Net_Coef_Proofs Net_Cache_Proofs Net_Heat_Proofs Net_Equiv_Proofs Net_More_Proofs Net_Extra_Proofs
  Solve_Model Solve_Spec Solve_Sol_Proofs Detailed_Model Detailed_Spec Sim_Model Sim_Spec Eq_Model Eq_Spec Eq_Cluster_Proofs Eq_Lump_Proofs Eq_Sym_Proofs GFun_Model Mift_Lump_Proofs.
Local Open Scope R_scope.
Local Open Scope list_scope.

Lemma class_is ls s y b : (b < s)%nat -> class ls s (s * y + b) = (s * nth y ls O + b)%nat.
Proof.
  intros Hb. unfold class. rewrite (Nat.mul_comm s y), Nat.div_add_l by lia. rewrite (Nat.div_small b s) by auto. rewrite Nat.add_comm, Nat.add_0_r.
  rewrite (Nat.add_comm (y * s) b), Nat.mod_add by lia. rewrite Nat.mod_small by auto. lia.
Qed.
Lemma index_split s k m : (k < s * m)%nat -> exists y b, (y < m)%nat /\ (b < s)%nat /\ k = (s * y + b)%nat.
Proof.
  intros Hk. assert (s <> O) by (intros ->; cbn in Hk; lia). exists (k / s)%nat, (k mod s)%nat. split; [apply Nat.div_lt_upper_bound; lia|]. split; [apply Nat.mod_upper_bound; lia|apply Nat.div_mod; lia].
Qed.

(** Coefficients from the values for all temperatures *)
Lemma lumped_row N K c (a a' : nat -> R) (b b' : nat -> nat -> R) x x' : (forall y, (y < N)%nat -> (c y < K)%nat) ->
  (forall t (Tb Tb' : nat -> R), (forall y, (y < N)%nat -> Tb y = Tb' (c y)) -> apply_coefs N (a, b) t Tb x = apply_coefs K (a', b') t Tb' x') ->
  a x = a' x' /\ forall i, (i < K)%nat -> cls N c (b x) i = b' x' i.
Proof.
  intros Cl Hab. split.
  - pose proof (Hab 1 (fun _ => 0) (fun _ => 0) ltac:(auto)) as E. rewrite !apply_zero in E. exact E.
  - intros i Hi. pose proof (Hab 0 (fun y => if Nat.eqb (c y) i then 1 else 0) (fun j => if Nat.eqb j i then 1 else 0) ltac:(auto)) as E. unfold apply_coefs in E. cbn [fst snd] in E.
    rewrite (sumn_single K i (fun k => b' x' k * (if Nat.eqb k i then 1 else 0)) Hi) in E; [|intros j Hj Nj; destruct (Nat.eqb_spec j i); [contradiction|ring]]. rewrite Nat.eqb_refl in E.
    unfold cls. transitivity (sumn N (fun k => b x k * (if Nat.eqb (c k) i then 1 else 0))); [apply sumn_ext; intros k Hk; destruct (Nat.eqb (c k) i); ring|lra].
Qed.

(** heat extraction rates of the segments, formatted inputs given *)
Lemma qb_apply_sized N ps F a t Tb i s : sized (nB N) ps F -> (i < nB N)%nat -> (s < nth i (f_seg F) O)%nat ->
  let K := seg_total (f_seg F) in
  let ab := p_qb (nth i ps no_pipe) (nth i (f_mb F) 0) (nth i (f_cpb F) 0) (nth i (f_seg F) O) (nth i (f_rat F) None) in
  apply_coefs K (coef_qb N ps F a) t Tb (seg_off (f_seg F) i + s)
  = fst ab s * apply_coefs K a t Tb i + sumn (nth i (f_seg F) O) (fun l => snd ab s l * Tb (seg_off (f_seg F) i + l)%nat).
Proof.
  intros [S1 [S2 [S3 [S4 S5]]]] Hi Hs K ab. unfold coef_qb. rewrite chain_apply.
  destruct (over_nth' p_qb (nB N) ps F no_q i S1 S2 S3 S4 S5 Hi) as [E Lz]. fold ab in E. f_equal.
  - unfold mx_vec. rewrite (sumn_single _ i); auto.
    + unfold block_cols. rewrite seg_owner_off by lia. rewrite Nat.eqb_refl. rewrite (nth_map fst _ i no_q) by lia. rewrite E.
      replace (seg_off (f_seg F) i + s - seg_off (f_seg F) i)%nat with s by lia. auto.
    + intros j Hj Ne. unfold block_cols. rewrite seg_owner_off by lia. destruct (Nat.eqb_spec i j); [congruence|lra].
  - unfold K. rewrite <- (sumn_block (seg_total (f_seg F)) (seg_off (f_seg F) i) (nth i (f_seg F) O)) by (apply seg_off_le; lia).
    apply sumn_ext. intros k Hk. unfold block_squares. rewrite seg_owner_off by lia.
    destruct (Nat.leb_spec (seg_off (f_seg F) i) k); simpl; [|lra]. destruct (Nat.ltb_spec k (seg_off (f_seg F) i + nth i (f_seg F) O)); [|lra].
    rewrite (nth_map snd _ i no_q) by lia. rewrite E.
    replace (seg_off (f_seg F) i + s - seg_off (f_seg F) i)%nat with s by lia. replace (seg_off (f_seg F) i + (k - seg_off (f_seg F) i))%nat with k by lia. auto.
Qed.

(** lists of equal numbers of segments and of equal ratios *)
Lemma format_seg_list N s n : nB N = n -> (0 < n)%nat -> format_seg N (SegL (repeat s n)) = format_seg N (SegN s).
Proof.
  intros En Hn. unfold format_seg. rewrite En. destruct n as [|[|n]]; [lia|auto|]. cbn [repeat]. cbn [List.length]. rewrite repeat_length. rewrite Nat.eqb_refl. auto.
Qed.
Lemma format_rat_list N r n : nB N = n -> format_rat N (Net_Model.RList (repeat r n)) = format_rat N (RArr r).
Proof. intros En. unfold format_rat. rewrite En. clear En. induction n; cbn; auto. rewrite IHn. auto. Qed.
Lemma format_inputs_list N x cp s r n : nB N = n -> (0 < n)%nat ->
  format_inputs N (mkargs x cp (SegL (repeat s n)) (Net_Model.RList (repeat r n))) = format_inputs N (mkargs x cp (SegN s) (RArr r)).
Proof. intros En Hn. unfold format_inputs. cbn [g_m g_cp g_n g_r]. rewrite format_seg_list, format_rat_list by auto. auto. Qed.
Lemma eq_format_list N w x cp s r n : nB N = n -> (0 < n)%nat ->
  eq_format N w (mkargs x cp (SegL (repeat s n)) (Net_Model.RList (repeat r n))) = eq_format N w (mkargs x cp (SegN s) (RArr r)).
Proof. intros En Hn. unfold eq_format. cbn [g_m g_cp g_n g_r]. rewrite format_seg_list, format_rat_list by auto. auto. Qed.

Section Flows.
  Variables (nF n : nat) (NF N : net) (psF ps : list pipe) (ls : list nat) (wt : list R) (x cp : R).
  Hypothesis BF : build_net nF None = Some NF.
  Hypothesis B : build_net n None = Some N.
  Hypothesis LpF : List.length psF = nF.
  Hypothesis Lp : List.length ps = n.
  Hypothesis Lab : forall i, (i < nF)%nat -> (nth i ls O < n)%nat /\ nth i psF no_pipe = nth (nth i ls O) ps no_pipe.
  Hypothesis Ew : wt = map (fun j => INR (count_occ Nat.eq_dec (map (fun i => nth i ls O) (seq 0 nF)) j)) (seq 0 n).
  Hypothesis Hx : x <> 0.

  Lemma sum_weights : Rsum wt = INR nF.
  Proof.
    rewrite Ew, Rsum_seq. transitivity (sumn nF (fun _ => 1)); [|rewrite sumn_const; lra].
    rewrite (sum_groups nF n (fun i => nth i ls O) (fun _ => 1)) by (intros; apply Lab; auto). apply sumn_ext. intros; lra.
  Qed.

  (** formatted inputs of the two networks *)
  Lemma formats s r : (r = Net_Model.RNone \/ exists a, r = RArr a) ->
    exists FF F, format_inputs NF (mkargs [x] [cp] (SegN s) r) = Some FF /\ eq_format N wt (mkargs [x] [cp] (SegN s) r) = Some F /\
      sized nF psF FF /\ sized n ps F /\ f_seg FF = repeat s nF /\ f_seg F = repeat s n /\
      (forall i, (i < nF)%nat -> nth i (f_mb FF) 0 = nth (nth i ls O) (f_mb F) 0 /\ nth i (f_cpb FF) 0 = nth (nth i ls O) (f_cpb F) 0 /\ nth i (f_rat FF) None = nth (nth i ls O) (f_rat F) None).
  Proof.
    intros Hr. destruct (parallel_facts nF NF BF) as [WF [EnF [HnF [IiF [IoF [NiF [NfF HcF]]]]]]]. destruct (parallel_facts n N B) as [W [En [Hn [Ii [Io [Ni [Nf Hc]]]]]]].
    assert (Lw : List.length wt = n) by (rewrite Ew, map_length, seq_length; auto).
    destruct (eq_format N wt (mkargs [x] [cp] (SegN s) r)) as [F|] eqn:HF; [|discriminate].
    assert (HFF : exists FF, format_inputs NF (mkargs [x] [cp] (SegN s) r) = Some FF).
    { unfold format_inputs. cbn [g_m g_cp g_n g_r format_flow format_cp format_seg]. unfold format_dir. cbn. rewrite andb_true_r, andb_true_r. 
      destruct (Rleb 0 x) eqn:C1; [cbn; eexists; reflexivity|]. destruct (Rleb x 0) eqn:C2; [cbn; eexists; reflexivity|]. apply Rleb_false in C1. apply Rleb_false in C2. lra. }
    destruct HFF as [FF HFF]. exists FF, F. split; auto. split; auto.
    destruct (eq_scalar_fmt n N wt x cp _ r F B Lw HF) as [V [LmF [Er Es]]]. destruct (eq_format_good N wt _ F W HF) as [L1 [L2 L3]]. rewrite En in *.
    assert (RL : List.length (format_rat N r) = n /\ List.length (format_rat NF r) = nF
       /\ forall i j, (i < n)%nat -> (j < nF)%nat -> nth i (format_rat N r) None = nth j (format_rat NF r) None).
    { unfold format_rat. rewrite En, EnF. destruct Hr as [->|[a ->]]; rewrite !repeat_length; split; auto; split; auto; intros; rewrite !nth_repeat_lt by auto; auto. }
    destruct RL as [RL1 [RL2 RL3]].
    assert (ErF : f_rat FF = format_rat NF r /\ f_seg FF = repeat s nF /\ f_m FF = repeat (x / INR nF) nF).
    { unfold format_inputs in HFF. cbn [g_m g_cp g_n g_r format_flow format_cp format_seg] in HFF. destruct (format_dir [x]); [|discriminate]. injection HFF as <-. simpl. rewrite EnF, NiF. auto. }
    destruct ErF as [ErF [EsF EmF]].
    assert (G : good_args NF psF (mkargs [x] [cp] (SegN s) r) FF). { split; [auto|]. split; [lia|]. rewrite ErF, EnF. auto. }
    assert (SF : sized nF psF FF). { destruct (good_lengths NF psF _ FF WF G) as [A1 [A2 [A3 [A4 A5]]]]. rewrite EnF in *. repeat split; auto. }
    assert (S : sized n ps F). { repeat split; auto. rewrite Er. auto. }
    assert (Es' : f_seg F = repeat s n) by (unfold format_seg in Es; rewrite En in Es; congruence).
    refine (conj SF (conj S (conj EsF (conj Es' _)))).
    intros i Hi. destruct (Lab i Hi) as [H1 _]. destruct (V (nth i ls O) H1) as [_ [-> ->]]. rewrite sum_weights. split; [|split].
    - rewrite (mb_nth NF _ FF i WF HFF) by lia. rewrite HcF by auto. rewrite EmF. apply nth_repeat_lt. auto.
    - destruct (cpb_nth NF _ FF WF HFF) as [c' [Q1 Q2]]. rewrite (Q1 cp); [apply Q2; lia|left; auto].
    - rewrite ErF, Er. symmetry. apply RL3; auto.
  Qed.

  Lemma reproduced s r FF F hF oF h o t Tb TbF : (r = Net_Model.RNone \/ exists a, r = RArr a) ->
    format_inputs NF (mkargs [x] [cp] (SegN s) r) = Some FF -> eq_format N wt (mkargs [x] [cp] (SegN s) r) = Some F ->
    fresh NF psF NetHeat (mkargs [x] [cp] (SegN s) r) = Some hF -> fresh NF psF NetOutlet (mkargs [x] [cp] (SegN s) r) = Some oF ->
    eq_heat N wt ps F = Some h -> eq_outlet N wt ps F = Some o ->
    (forall y, (y < s * nF)%nat -> TbF y = Tb (class ls s y)) ->
    apply_coefs (s * nF) hF t TbF O = apply_coefs (s * n) h t Tb O /\ apply_coefs (s * nF) oF t TbF O = apply_coefs (s * n) o t Tb O.
  Proof.
    intros Hr H1 H2 H3 H4 H5 H6 HT. rewrite (Nat.mul_comm s nF), (Nat.mul_comm s n).
    apply (eq_reproduces nF n NF N ps psF (fun i => nth i ls O) wt x cp s r FF F hF oF h o t Tb TbF); auto.
    intros i Hi. destruct (Lab i Hi) as [A1 A2]. split; auto. split; auto. intros k Hk. rewrite (Nat.mul_comm i s), (Nat.mul_comm (nth i ls O) s). rewrite HT by nia. rewrite class_is by auto. auto.
  Qed.

  Lemma qb_lumped s r FF F aF a t Tb TbF y : (r = Net_Model.RNone \/ exists a, r = RArr a) ->
    format_inputs NF (mkargs [x] [cp] (SegN s) r) = Some FF -> eq_format N wt (mkargs [x] [cp] (SegN s) r) = Some F ->
    coef_inlet NF psF FF = Some aF -> coef_inlet N ps F = Some a -> (y < s * nF)%nat ->
    (forall y, (y < s * nF)%nat -> TbF y = Tb (class ls s y)) ->
    apply_coefs (s * nF) (coef_qb NF psF FF aF) t TbF y = apply_coefs (s * n) (coef_qb N ps F a) t Tb (class ls s y).
  Proof.
    intros Hr H1 H2 EaF Ea Hy HT. destruct (formats s r Hr) as [FF' [F' [E1 [E2 [SF [S [EsF [Es V]]]]]]]]. rewrite H1 in E1. rewrite H2 in E2. injection E1 as <-. injection E2 as <-.
    destruct (parallel_facts nF NF BF) as [WF [EnF [HnF _]]]. destruct (parallel_facts n N B) as [W [En [Hn _]]].
    destruct (index_split s y nF Hy) as [i [b [Hi [Hb ->]]]]. destruct (Lab i Hi) as [A1 A2]. rewrite class_is by auto.
    assert (KF : seg_total (f_seg FF) = (s * nF)%nat) by (unfold seg_total; rewrite EsF, repeat_length, seg_off_repeat; lia).
    assert (KE : seg_total (f_seg F) = (s * n)%nat) by (unfold seg_total; rewrite Es, repeat_length, seg_off_repeat; lia).
    assert (OF : seg_off (f_seg FF) i = (s * i)%nat) by (rewrite EsF, seg_off_repeat; lia).
    assert (OE : seg_off (f_seg F) (nth i ls O) = (s * nth i ls O)%nat) by (rewrite Es, seg_off_repeat; lia).
    assert (NSF : nth i (f_seg FF) O = s) by (rewrite EsF; apply nth_repeat_lt; auto).
    assert (NSE : nth (nth i ls O) (f_seg F) O = s) by (rewrite Es; apply nth_repeat_lt; auto).
    pose proof (qb_apply_sized NF psF FF aF t TbF i b ltac:(rewrite EnF; auto) ltac:(lia) ltac:(lia)) as QF. cbv zeta in QF. rewrite KF, OF, NSF in QF. rewrite QF.
    pose proof (qb_apply_sized N ps F a t Tb (nth i ls O) b ltac:(rewrite En; auto) ltac:(lia) ltac:(lia)) as QE. cbv zeta in QE. rewrite KE, OE, NSE in QE. rewrite QE.
    rewrite (parallel_inlet nF NF psF FF aF _ t TbF i BF EaF Hi), (parallel_inlet n N ps F a _ t Tb _ B Ea A1).
    destruct (V i Hi) as [-> [-> ->]]. rewrite A2. f_equal. apply sumn_ext. intros k Hk. f_equal. rewrite HT by nia. rewrite class_is by auto. auto.
  Qed.

  Lemma class_lt s y : (y < s * nF)%nat -> (class ls s y < s * n)%nat.
  Proof. intros Hy. destruct (index_split s y nF Hy) as [i [b [Hi [Hb ->]]]]. rewrite class_is by auto. pose proof (proj1 (Lab i Hi)). nia. Qed.

  (** the flow of the detailed network and that of the equivalent network *)
  Lemma flow_lumped w s rr Htot Fl : w_c w = NF -> w_p w = psF -> Rsum (map bH (w_b w)) = Htot ->
    network_flow w (repeat s nF) (repeat rr nF) [cp] [x] = Some Fl ->
    exists Fl', equivalent_flow N ps wt Htot (repeat s n) (repeat rr n) [cp] [x] = Some Fl' /\ lumped (s * nF) (s * n) (class ls s) Fl Fl'.
  Proof.
    intros Ec Ep Eh. unfold network_flow, equivalent_flow. rewrite Ec, Ep, Eh.
    destruct (parallel_facts nF NF BF) as [WF [EnF [HnF _]]]. destruct (parallel_facts n N B) as [W [En [Hn _]]].
    rewrite (eq_format_list N wt [x] [cp] s rr n En Hn).
    destruct (formats s (RArr rr)) as [FF [F [E1 [E2 [SF [S [EsF [Es V]]]]]]]]; [right; eauto|].
    destruct (formats 1 Net_Model.RNone) as [FF1 [F1 [E11 [E12 [SF1 [S1 _]]]]]]; [left; auto|].
    assert (G : good_args NF psF (mkargs [x] [cp] (SegN s) (RArr rr)) FF) by (split; [auto|]; split; [lia|]; rewrite EnF; apply SF).
    assert (GL : good_args NF psF (mkargs [x] [cp] (SegL (repeat s nF)) (Net_Model.RList (repeat rr nF))) FF) by (split; [rewrite format_inputs_list; auto|]; split; [lia|]; rewrite EnF; apply SF).
    assert (G1 : good_args NF psF (mkargs [x] [cp] (SegN 1) Net_Model.RNone) FF1) by (split; [auto|]; split; [lia|]; rewrite EnF; apply SF1).
    rewrite !(fresh_direct NF psF _ _ FF WF GL). cbn [direct].
    destruct (coef_inlet_some NF psF FF WF) as [aF EaF]. destruct (coef_inlet_some N ps F W) as [a Ea]. destruct (coef_outlet_some NF psF FF WF) as [ooF EoF]. destruct (coef_outlet_some N ps F W) as [oo Eo].
    destruct (fresh_some_all NF psF _ FF1 WF G1) as (i1 & o1 & qb1 & qf1 & h1 & no1 & Hi1 & Ho1 & Hb1 & Hf1 & Hh1 & Hn1).
    rewrite (resistance_unfold NF psF Htot [x] [cp] FF1 no1 h1 WF G1 Hn1 Hh1). rewrite EaF, E2, E12, Ea.
    destruct (total_capacity [x] [cp]) as [mcp|] eqn:Ecp; [|discriminate]. intros EFl. injection EFl as <-.
    destruct (coef_inlet_some N ps F1 W) as [a1 Ea1]. destruct (coef_outlet_some N ps F1 W) as [oo1 Eo1].
    assert (Hh : eq_heat N wt ps F = Some (eq_net_heat (nB N) wt (coef_qf N ps F a))) by (unfold eq_heat; rewrite Ea; auto).
    assert (He : exists o, eq_outlet N wt ps F = Some o) by (unfold eq_outlet; rewrite Eo; eauto). destruct He as [o He].
    assert (Hh' : eq_heat N wt ps F1 = Some (eq_net_heat (nB N) wt (coef_qf N ps F1 a1))) by (unfold eq_heat; rewrite Ea1; auto).
    assert (He1 : exists o, eq_outlet N wt ps F1 = Some o) by (unfold eq_outlet; rewrite Eo1; eauto). destruct He1 as [o' He1].
    rewrite Hh, Hh', He1. eexists. split; [reflexivity|].
    assert (FhF : fresh NF psF NetHeat (mkargs [x] [cp] (SegN s) (RArr rr)) = Some (coef_net_heat NF (coef_qf NF psF FF aF))) by (rewrite (fresh_direct NF psF _ _ FF WF G); cbn [direct]; rewrite EaF; auto).
    assert (FoF : exists oF, fresh NF psF NetOutlet (mkargs [x] [cp] (SegN s) (RArr rr)) = Some oF) by (rewrite (fresh_direct NF psF _ _ FF WF G); cbn [direct]; rewrite EoF; eauto). destruct FoF as [oF FoF].
    assert (Rr : RArr rr = Net_Model.RNone \/ exists a, RArr rr = RArr a) by (right; eauto).
    assert (Cl : forall y, (y < s * nF)%nat -> (class ls s y < s * n)%nat) by (intros; apply class_lt; auto).
    assert (Qb : forall y, (y < s * nF)%nat -> fst (coef_qb NF psF FF aF) y = fst (coef_qb N ps F a) (class ls s y) /\
        forall i, (i < s * n)%nat -> cls (s * nF) (class ls s) (snd (coef_qb NF psF FF aF) y) i = snd (coef_qb N ps F a) (class ls s y) i).
    { intros y Hy. apply (lumped_row (s * nF) (s * n) (class ls s)); auto. intros t Tb Tb' HT. rewrite <- !surjective_pairing. apply (qb_lumped s (RArr rr)); auto. }
    assert (Qn : fst (coef_net_heat NF (coef_qf NF psF FF aF)) O = fst (eq_net_heat (nB N) wt (coef_qf N ps F a)) O /\
        forall i, (i < s * n)%nat -> cls (s * nF) (class ls s) (snd (coef_net_heat NF (coef_qf NF psF FF aF)) O) i = snd (eq_net_heat (nB N) wt (coef_qf N ps F a)) O i).
    { apply (lumped_row (s * nF) (s * n) (class ls s)); auto. intros t Tb Tb' HT. rewrite <- !surjective_pairing. apply (reproduced s (RArr rr) FF F _ oF _ o t Tb' Tb); auto. }
    unfold lumped. cbn [f_in f_b f_net_in f_net_b f_mcp f_R].
    split; [intros y Hy; apply Qb; auto|]. split; [intros y i Hy Hi; apply Qb; auto|]. split; [apply Qn|]. split; [intros i Hi; apply Qn; auto|]. split; auto.
    destruct (reproduced 1 Net_Model.RNone FF1 F1 h1 no1 _ o' 1 (fun _ => 0) (fun _ => 0) (or_introl eq_refl) E11 E12 Hh1 Hn1 Hh' He1 ltac:(auto)) as [Q1 Q2].
    rewrite !apply_zero in Q1, Q2. rewrite Q1, Q2. auto.
  Qed.
End Flows.
