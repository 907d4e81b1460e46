(* Parallel networks, equivalent networks, thermal resistance. *)
From Coq Require Import Reals Lra Lia List ZArith Bool FunctionalExtensionality.
From Verif Require Import Base LinAlg Net_Model Net_Spec Net_Proofs Net_Coef_Proofs Net_Heat_Proofs Net_Cache_Proofs Net_More_Proofs.
Import ListNotations.
Local Open Scope R_scope.

(* ------------------------------------------------------------------ *)
(* Parallel networks                                                   *)

Lemma nth_repeat_lt {A} (x d : A) n i : (i < n)%nat -> nth i (repeat x n) d = x.
Proof. intro H. apply (repeat_spec n). apply nth_In. rewrite repeat_length. auto. Qed.

Lemma filter_true {A} (f : A -> bool) l : (forall x, In x l -> f x = true) -> filter f l = l.
Proof. induction l as [|a l IH]; intro H; simpl; auto. rewrite (H a), IH; auto; [intros; apply H; right; auto|left; auto]. Qed.

Lemma parallel_facts n N : build_net n None = Some N ->
  wf N /\ nB N = n /\ (0 < n)%nat /\ n_in N = seq 0 n /\ n_out N = seq 0 n /\ nInlets N = n
  /\ (forall rev i j, ~ feeds (n_c N) rev i j)
  /\ (forall i, (i < n)%nat -> nth i (n_circ N) O = i).
Proof.
  intro B. destruct (build_wf _ _ _ B) as [W En].
  destruct (build_some _ _ _ B) as [c [C [Ec [Ei [Eo [_ [_ Er]]]]]]]. simpl in Er.
  assert (Hn : (0 < n)%nat) by apply C.
  assert (Ii : n_in N = seq 0 n).
  { rewrite Ei, Er. unfold inlets. rewrite repeat_length. apply filter_true. intros i Hi. apply in_seq in Hi.
    rewrite nth_repeat_lt by lia. reflexivity. }
  assert (Io : n_out N = seq 0 n).
  { rewrite Eo, Er. unfold outlets. rewrite repeat_length. apply filter_true. intros i Hi.
    apply negb_true_iff. destruct (existsb _ _) eqn:E; auto. apply existsb_exists in E.
    destruct E as [z [Hz E]]. apply repeat_spec in Hz. subst z. apply Z.eqb_eq in E. lia. }
  assert (Nf : forall rev i j, ~ feeds (n_c N) rev i j).
  { intros rev i j Hf. rewrite Ec, Er in Hf. unfold feeds in Hf.
    destruct rev; apply nth_error_In in Hf; apply repeat_spec in Hf; lia. }
  assert (Ni : nInlets N = n) by (unfold nInlets; rewrite Ii; apply seq_length).
  split; auto. split; auto. split; auto. split; auto. split; auto. split; auto. split; auto.
  intros i Hi. assert (Q := n_in_circ N i W). rewrite Ni in Q. specialize (Q Hi).
  rewrite Ii, seq_nth in Q by auto. auto.
Qed.

Lemma parallel_ends n N rev : build_net n None = Some N -> ends N rev (fun k => k).
Proof.
  intro B. destruct (parallel_facts n N B) as [W [En [Hn [Ii [Io [Ni [Nf Hc]]]]]]].
  intros k Hk. rewrite Ni in Hk. rewrite Ii, seq_nth by auto. simpl. split; [fold (nB N); lia|]. split.
  - destruct W as [_ [_ [_ [_ P]]]]. destruct (P k) as [_ P2]; [lia|].
    rewrite Hc, Ii, seq_nth in P2 by auto. auto.
  - intros. apply Nf.
Qed.

Lemma parallel_well_mixed n N F : build_net n None = Some N -> well_mixed N F (fun k => k).
Proof. intro B. right. right. auto. Qed.

(* ------------------------------------------------------------------ *)
(* Equivalent networks                                                 *)

Lemma eq_format_good N w g F : wf N -> eq_format N w g = Some F ->
  length (f_mb F) = nB N /\ length (f_cpb F) = nB N /\ length (f_seg F) = nB N.
Proof.
  intros W H. unfold eq_format in H.
  destruct (eq_flow (nB N) w (g_m g)) as [m|] eqn:Em; [|discriminate].
  destruct (eq_dir (g_m g)) as [rv|] eqn:Ed; [|discriminate].
  destruct (format_cp N (g_cp g)) as [cp|] eqn:Ec; [|discriminate].
  destruct (format_seg N (g_n g)) as [s|] eqn:Es; [|discriminate].
  inversion H; subst F; simpl in *. rewrite !map_length.
  destruct W as [_ [_ [_ [L _]]]]. split; auto. split; auto.
  unfold format_seg in Es. destruct (g_n g) as [k|l].
  - inversion Es. apply repeat_length.
  - destruct l as [|a [|b l]].
    + destruct (Nat.eqb_spec (length (@nil nat)) (nB N)); [|discriminate]. inversion Es. auto.
    + inversion Es. apply repeat_length.
    + destruct (Nat.eqb_spec (length (a :: b :: l)) (nB N)); [|discriminate]. inversion Es; subst. auto.
Qed.

Lemma over_nth' {A} (f : pipe -> R -> R -> nat -> option (list R) -> A) n ps F d i :
  length ps = n -> length (f_mb F) = n -> length (f_cpb F) = n -> length (f_seg F) = n -> length (f_rat F) = n ->
  (i < n)%nat ->
  nth i (over_pipes f ps F) d
  = f (nth i ps no_pipe) (nth i (f_mb F) 0) (nth i (f_cpb F) 0) (nth i (f_seg F) O) (nth i (f_rat F) None)
  /\ length (over_pipes f ps F) = n.
Proof.
  intros. unfold over_pipes. split.
  - apply (zip_pipes_nth f d _ _ _ _ _ _ n); auto.
  - apply zip_pipes_length; auto.
Qed.

Definition sized (n : nat) (ps : list pipe) (F : fmt) : Prop :=
  length ps = n /\ length (f_mb F) = n /\ length (f_cpb F) = n /\ length (f_seg F) = n /\ length (f_rat F) = n.

(* In a parallel network every borehole receives the inlet temperature. *)
Lemma parallel_inlet n N ps F a K t Tb i : build_net n None = Some N -> coef_inlet N ps F = Some a -> (i < n)%nat ->
  apply_coefs K a t Tb i = t.
Proof.
  intros B Ha Hi. destruct (parallel_facts n N B) as [W [En [Hn [Ii [Io [Ni [Nf Hc]]]]]]].
  rewrite (inlet_eq N ps F a K t Tb i Ha) by lia.
  rewrite (c_in_one N (f_rev F) i W) by (try lia; intros; apply Nf).
  rewrite (c_out_row0 N (f_rev F) i _ W) by (try lia; intros; apply Nf). lra.
Qed.

Lemma parallel_outlet n N ps F o t Tb i : build_net n None = Some N -> sized n ps F ->
  coef_outlet N ps F = Some o -> (i < n)%nat ->
  apply_coefs (seg_total (f_seg F)) o t Tb i = bore_outlet ps F i t Tb.
Proof.
  intros B [S1 [S2 [S3 [S4 S5]]]] Ho Hi. destruct (parallel_facts n N B) as [W [En [Hn [Ii [Io [Ni [Nf Hc]]]]]]].
  rewrite (outlet_eq N ps F o _ t Tb i Ho) by lia.
  rewrite (c_in_one N (f_rev F) i W) by (try lia; intros; apply Nf).
  rewrite (c_out_row0 N (f_rev F) i _ W) by (try lia; intros; apply Nf).
  unfold own_A, out_B. rewrite block_rows_vec by lia. unfold bore_outlet. fold no_pipe.
  destruct (over_nth' p_out n ps F (0, fun _ : nat => 0) i S1 S2 S3 S4 S5 Hi) as [E L].
  rewrite (nth_map fst _ i (0, fun _ : nat => 0)) by lia.
  rewrite (nth_map snd _ i (0, fun _ : nat => 0)) by lia. rewrite E. simpl. lra.
Qed.

Lemma parallel_qf n N ps F a t Tb i : build_net n None = Some N -> sized n ps F ->
  coef_inlet N ps F = Some a -> (i < n)%nat ->
  apply_coefs (seg_total (f_seg F)) (coef_qf N ps F a) t Tb i
  = Rabs (nth i (f_mb F) 0) * nth i (f_cpb F) 0 * (bore_outlet ps F i t Tb - t).
Proof.
  intros B [S1 [S2 [S3 [S4 S5]]]] Ha Hi. destruct (parallel_facts n N B) as [W [En [Hn [Ii [Io [Ni [Nf Hc]]]]]]].
  unfold coef_qf. rewrite chain_apply, diag_vec by lia. rewrite (parallel_inlet n N ps F a _ t Tb i B Ha Hi).
  rewrite block_rows_vec by lia.
  destruct (over_nth' p_qf n ps F (0, fun _ : nat => 0) i S1 S2 S3 S4 S5 Hi) as [E L].
  rewrite (nth_map fst _ i (0, fun _ : nat => 0)) by lia.
  rewrite (nth_map snd _ i (0, fun _ : nat => 0)) by lia. rewrite E.
  unfold p_qf, bore_outlet. fold no_pipe.
  destruct (p_out (nth i ps no_pipe) (nth i (f_mb F) 0) (nth i (f_cpb F) 0) (nth i (f_seg F) O) (nth i (f_rat F) None)) as [bi bb].
  simpl.
  assert (S6 : sumn (nth i (f_seg F) O) (fun k => Rabs (nth i (f_mb F) 0) * nth i (f_cpb F) 0 * bb k * Tb (seg_off (f_seg F) i + k)%nat)
   = Rabs (nth i (f_mb F) 0) * nth i (f_cpb F) 0 * sumn (nth i (f_seg F) O) (fun k => bb k * Tb (seg_off (f_seg F) i + k)%nat)).
  { rewrite <- sumn_scal. apply sumn_ext. intros; lra. }
  rewrite S6. lra.
Qed.

Lemma eq_heat_apply N w q K t Tb :
  apply_coefs K (eq_net_heat (nB N) w q) t Tb O = sumn (nB N) (fun i => nth i w 0 * apply_coefs K q t Tb i).
Proof.
  exact (net_outlet_apply N (fun i => nth i w 0) q K t Tb).
Qed.

Lemma eq_mixing_sum n L w m T : NoDup L -> (forall i, In i L -> (i < n)%nat) ->
  sumn n (fun i => eq_mixing L w m i * T i)
  = sumn (length L) (fun k => Rabs (nth k m 0) * nth k w 0 * T (nth k L O))
    / Rsum (map (fun p => Rabs (fst p) * snd p) (combine m w)).
Proof.
  intros ND Hlt. rewrite (sum_support _ _ L); auto.
  - rewrite Rsum_map_nth. unfold Rdiv. rewrite <- sumn_scal_r. apply sumn_ext. intros k Hk.
    unfold eq_mixing. rewrite index_of_nth by auto. unfold Rdiv. lra.
  - intros i Hi Hn. unfold eq_mixing. apply index_of_none in Hn. rewrite Hn. lra.
Qed.

Lemma eq_scalar_fmt n N w x cp s r F : build_net n None = Some N -> length w = n ->
  eq_format N w (mkargs [x] [cp] s r) = Some F ->
  (forall i, (i < n)%nat -> nth i (f_m F) 0 = x / Rsum w /\ nth i (f_mb F) 0 = x / Rsum w /\ nth i (f_cpb F) 0 = cp)
  /\ length (f_m F) = n /\ f_rat F = format_rat N r /\ Some (f_seg F) = format_seg N s.
Proof.
  intros B Lw H. destruct (parallel_facts n N B) as [W [En [Hn [Ii [Io [Ni [Nf Hc]]]]]]].
  unfold eq_format, eq_flow, eq_dir, format_cp in H. cbn [g_m g_cp g_n g_r] in H.
  destruct (format_seg N s) as [sg|] eqn:Es; [|discriminate]. injection H as <-. simpl f_m. simpl f_mb. simpl f_cpb. simpl f_rat. simpl f_seg.
  rewrite En. split; [|split; [apply repeat_length|auto]].
  intros i Hi. rewrite nth_repeat_lt by auto. split; auto.
  assert (Lc : length (n_circ N) = n) by (rewrite (proj1 (proj2 (proj2 (proj2 W)))); auto).
  rewrite !(nth_map _ (n_circ N) i O) by lia. rewrite Hc by auto. rewrite nth_repeat_lt by auto. split; auto.
  rewrite Ni. apply nth_repeat_lt. auto.
Qed.

Lemma Rsum_combine_scal m w x n : length w = n -> (forall i, (i < n)%nat -> nth i m 0 = x) -> length m = n ->
  Rsum (map (fun p => Rabs (fst p) * snd p) (combine m w)) = Rabs x * Rsum w.
Proof.
  revert m w; induction n as [|n IH]; intros [|a m] [|b w] Lw Hm Lm; try discriminate; simpl; [lra|].
  rewrite (IH m w); auto; [|intros i Hi; apply (Hm (S i)); lia].
  assert (a = x) by (apply (Hm O); lia). subst a. lra.
Qed.

(* Outlet temperature and heat of an equivalent network fed with a scalar flow *)
Lemma eq_results n N w ps x cp s r F h o t Tb : build_net n None = Some N -> length w = n -> length ps = n ->
  eq_format N w (mkargs [x] [cp] s r) = Some F -> length (f_rat F) = n -> 0 < Rsum w -> x <> 0 ->
  eq_heat N w ps F = Some h -> eq_outlet N w ps F = Some o ->
  let K := seg_total (f_seg F) in
  apply_coefs K h t Tb O = Rabs x / Rsum w * cp * sumn n (fun i => nth i w 0 * (bore_outlet ps F i t Tb - t))
  /\ apply_coefs K o t Tb O = sumn n (fun i => nth i w 0 * bore_outlet ps F i t Tb) / Rsum w.
Proof.
  intros B Lw Lp Hf Lr Hw Hx Hh Ho K. destruct (parallel_facts n N B) as [W [En [Hn [Ii [Io [Ni [Nf Hc]]]]]]].
  destruct (eq_format_good N w _ F W Hf) as [L1 [L2 L3]]. rewrite En in *.
  assert (S : sized n ps F) by (repeat split; auto).
  destruct (eq_scalar_fmt n N w x cp s r F B Lw Hf) as [V [Lm _]].
  unfold eq_heat in Hh. destruct (coef_inlet N ps F) as [a|] eqn:Ea; [|discriminate]. injection Hh as <-.
  unfold eq_outlet in Ho. destruct (coef_outlet N ps F) as [oo|] eqn:Eo; [|discriminate]. injection Ho as <-.
  assert (AW : Rabs (x / Rsum w) = Rabs x / Rsum w).
  { unfold Rdiv. rewrite Rabs_mult. f_equal. apply Rabs_right. left. apply Rinv_0_lt_compat. auto. }
  split.
  - rewrite eq_heat_apply, En. rewrite <- sumn_scal. apply sumn_ext. intros i Hi. unfold K.
    rewrite (parallel_qf n N ps F a t Tb i B S Ea Hi). destruct (V i Hi) as [_ [-> ->]]. rewrite AW. lra.
  - rewrite net_outlet_apply, En. destruct (iOut_facts N (f_rev F) W) as [ND [L I]].
    rewrite eq_mixing_sum; auto; [|intros i Hi; apply I in Hi; lia].
    rewrite L, Ni. rewrite (Rsum_combine_scal (f_m F) w (x / Rsum w) n Lw) by (auto; intros i Hi; apply V; auto).
    assert (EI : iOutlets N (f_rev F) = seq 0 n) by (unfold iOutlets; destruct (f_rev F); auto). rewrite EI.
    transitivity (Rabs (x / Rsum w) * sumn n (fun i => nth i w 0 * bore_outlet ps F i t Tb) / (Rabs (x / Rsum w) * Rsum w)).
    + f_equal. rewrite <- sumn_scal. apply sumn_ext. intros i Hi. rewrite seq_nth by auto. simpl.
      unfold K. rewrite (parallel_outlet n N ps F oo t Tb i B S Eo Hi). rewrite (proj1 (V i Hi)). lra.
    + assert (Rabs (x / Rsum w) <> 0).
      { rewrite AW. unfold Rdiv. apply Rmult_integral_contrapositive_currified; [apply Rabs_no_R0; auto|].
        apply Rinv_neq_0_compat. lra. }
      field. split; [lra|auto].
Qed.

Lemma eq_balance n N w ps x cp s r F h o t Tb : build_net n None = Some N -> length w = n -> length ps = n ->
  eq_format N w (mkargs [x] [cp] s r) = Some F -> length (f_rat F) = n -> 0 < Rsum w -> x <> 0 ->
  eq_heat N w ps F = Some h -> eq_outlet N w ps F = Some o ->
  let K := seg_total (f_seg F) in
  apply_coefs K h t Tb O = Rabs x * cp * (apply_coefs K o t Tb O - t).
Proof.
  intros B Lw Lp Hf Lr Hw Hx Hh Ho K.
  destruct (eq_results n N w ps x cp s r F h o t Tb B Lw Lp Hf Lr Hw Hx Hh Ho) as [E1 E2].
  fold K in E1, E2. rewrite E1, E2.
  assert (D : sumn n (fun i => nth i w 0 * (bore_outlet ps F i t Tb - t))
     = sumn n (fun i => nth i w 0 * bore_outlet ps F i t Tb) - t * Rsum w).
  { rewrite (Rsum_sumn w), Lw, <- sumn_scal, <- sumn_minus. apply sumn_ext. intros; lra. }
  rewrite D. field. lra.
Qed.

(* Sum over a partition *)
Lemma sum_groups nF n (gam : nat -> nat) f : (forall i, (i < nF)%nat -> (gam i < n)%nat) ->
  sumn nF (fun i => f (gam i)) = sumn n (fun j => INR (count_occ Nat.eq_dec (map gam (seq 0 nF)) j) * f j).
Proof.
  induction nF as [|m IH]; intro H.
  - simpl. symmetry. apply sumn_zero. intros; simpl; lra.
  - assert (IH' : sumn m (fun i => f (gam i)) = _) by (apply IH; intros; apply H; lia).
    cbn [sumn]. rewrite IH'. rewrite seq_S, map_app. simpl.
    transitivity (sumn n (fun j => INR (count_occ Nat.eq_dec (map gam (seq 0 m)) j) * f j)
       + sumn n (fun j => (if Nat.eq_dec (gam m) j then 1 else 0) * f j)).
    + f_equal. rewrite (sumn_single n (gam m)).
      * destruct (Nat.eq_dec (gam m) (gam m)); [lra|congruence].
      * apply H; lia.
      * intros i Hi Ne. destruct (Nat.eq_dec (gam m) i); [congruence|lra].
    + rewrite <- sumn_plus. apply sumn_ext. intros j Hj. rewrite count_occ_app, plus_INR. simpl.
      destruct (Nat.eq_dec (gam m) j); simpl; lra.
Qed.

Lemma seg_off_repeat s n i : (i <= n)%nat -> seg_off (repeat s n) i = (i * s)%nat.
Proof.
  revert i; induction n as [|n IH]; intros i Hi.
  - assert (i = O) by lia. subst. reflexivity.
  - destruct i as [|i]; auto. simpl repeat.
    change (seg_off (s :: repeat s n) (S i)) with (s + seg_off (repeat s n) i)%nat. rewrite IH by lia. lia.
Qed.

(* An equivalent network gives the heat and the outlet temperature of the full
   parallel network it stands for. *)
Lemma eq_reproduces nF n NF N ps psF gam w x cp s r FF F hF oF h o t Tb TbF :
  build_net nF None = Some NF -> build_net n None = Some N -> length ps = n -> length psF = nF ->
  (forall i, (i < nF)%nat -> (gam i < n)%nat /\ nth i psF no_pipe = nth (gam i) ps no_pipe
     /\ forall k, (k < s)%nat -> TbF (i * s + k)%nat = Tb (gam i * s + k)%nat) ->
  w = map (fun j => INR (count_occ Nat.eq_dec (map gam (seq 0 nF)) j)) (seq 0 n) ->
  x <> 0 ->
  (r = RNone \/ exists a, r = RArr a) ->
  format_inputs NF (mkargs [x] [cp] (SegN s) r) = Some FF ->
  eq_format N w (mkargs [x] [cp] (SegN s) r) = Some F ->
  fresh NF psF NetHeat (mkargs [x] [cp] (SegN s) r) = Some hF ->
  fresh NF psF NetOutlet (mkargs [x] [cp] (SegN s) r) = Some oF ->
  eq_heat N w ps F = Some h -> eq_outlet N w ps F = Some o ->
  apply_coefs (nF * s) hF t TbF O = apply_coefs (n * s) h t Tb O
  /\ apply_coefs (nF * s) oF t TbF O = apply_coefs (n * s) o t Tb O.
Proof.
  intros BF B Lp LpF Hg Ew Hx Hr HFF HF HhF HoF Hh Ho.
  destruct (parallel_facts nF NF BF) as [WF [EnF [HnF [IiF [IoF [NiF [NfF HcF]]]]]]].
  destruct (parallel_facts n N B) as [W [En [Hn [Ii [Io [Ni [Nf Hc]]]]]]].
  assert (Lw : length w = n) by (rewrite Ew, map_length, seq_length; auto).
  assert (Wn : forall j, (j < n)%nat -> nth j w 0 = INR (count_occ Nat.eq_dec (map gam (seq 0 nF)) j)).
  { intros j Hj. rewrite Ew. rewrite nth_map_seq by auto. auto. }
  assert (Hgl : forall i, (i < nF)%nat -> (gam i < n)%nat) by (intros i Hi; apply Hg; auto).
  assert (SumW : Rsum w = INR nF).
  { rewrite Rsum_sumn, Lw. transitivity (sumn nF (fun _ => 1)); [|rewrite sumn_const; lra].
    rewrite (sum_groups nF n gam (fun _ => 1) Hgl). apply sumn_ext. intros j Hj. rewrite Wn by auto. lra. }
  assert (HW : 0 < Rsum w) by (rewrite SumW; apply lt_0_INR; auto).
  (* formatted inputs *)
  assert (RL : length (format_rat N r) = n /\ length (format_rat NF r) = nF
     /\ forall i j, (i < n)%nat -> (j < nF)%nat -> nth i (format_rat N r) None = nth j (format_rat NF r) None).
  { unfold format_rat. rewrite En, EnF. destruct Hr as [->|[a ->]]; rewrite !repeat_length; split; auto; split; auto;
    intros; rewrite !nth_repeat_lt by auto; auto. }
  destruct RL as [RL1 [RL2 RL3]].
  destruct (eq_scalar_fmt n N w x cp _ r F B Lw HF) as [V [LmF [Er Es]]].
  assert (Es' : f_seg F = repeat s n) by (unfold format_seg in Es; rewrite En in Es; congruence).
  assert (ErF : f_rat FF = format_rat NF r /\ f_seg FF = repeat s nF /\ f_m FF = repeat (x / INR nF) nF).
  { unfold format_inputs in HFF. cbn [g_m g_cp g_n g_r format_flow format_cp format_seg] in HFF.
    destruct (format_dir [x]); [|discriminate]. injection HFF as <-. simpl. rewrite EnF, NiF. auto. }
  destruct ErF as [ErF [EsF EmF]].
  assert (G : good_args NF psF (mkargs [x] [cp] (SegN s) r) FF).
  { split; [auto|]. split; [lia|]. rewrite ErF, EnF. auto. }
  assert (SF : sized nF psF FF).
  { destruct (good_lengths NF psF _ FF WF G) as [A1 [A2 [A3 [A4 A5]]]]. rewrite EnF in *. repeat split; auto. }
  assert (KF : seg_total (f_seg FF) = (nF * s)%nat).
  { unfold seg_total. rewrite EsF, repeat_length. apply seg_off_repeat. lia. }
  assert (KE : seg_total (f_seg F) = (n * s)%nat).
  { unfold seg_total. rewrite Es', repeat_length. apply seg_off_repeat. lia. }
  assert (VF : forall i, (i < nF)%nat -> nth i (f_mb FF) 0 = x / INR nF /\ nth i (f_cpb FF) 0 = cp).
  { intros i Hi. split.
    - rewrite (mb_nth NF _ FF i WF HFF) by lia. rewrite HcF by auto. rewrite EmF. apply nth_repeat_lt. auto.
    - destruct (cpb_nth NF _ FF WF HFF) as [c' [Q1 Q2]]. rewrite (Q1 cp); [apply Q2; lia|left; auto]. }
  assert (BO : forall i, (i < nF)%nat -> bore_outlet psF FF i t TbF = bore_outlet ps F (gam i) t Tb).
  { intros i Hi. destruct (Hg i Hi) as [H1 [H2 H3]]. unfold bore_outlet. fold no_pipe.
    destruct (VF i Hi) as [-> ->]. destruct (V (gam i) H1) as [_ [-> ->]]. rewrite SumW, H2.
    rewrite ErF, Er, (RL3 (gam i) i H1 Hi). rewrite EsF, Es', !nth_repeat_lt by auto.
    f_equal. apply sumn_ext. intros k Hk. f_equal. rewrite !seg_off_repeat by lia. auto. }
  destruct (eq_results n N w ps x cp _ r F h o t Tb B Lw Lp HF) as [R1 R2]; auto.
  { rewrite Er. auto. }
  cbv zeta in R1, R2. rewrite KE in R1, R2. rewrite R1, R2.
  rewrite (fresh_direct NF psF _ _ FF WF G) in HhF. rewrite (fresh_direct NF psF _ _ FF WF G) in HoF.
  cbn in HhF, HoF.
  destruct (coef_inlet NF psF FF) as [a|] eqn:Ea; [|discriminate]. injection HhF as <-.
  destruct (coef_outlet NF psF FF) as [oo|] eqn:Eo; [|discriminate]. injection HoF as <-.
  rewrite <- KF. split.
  - rewrite net_heat_apply, EnF.
    transitivity (sumn nF (fun i => Rabs x / INR nF * cp * (bore_outlet ps F (gam i) t Tb - t))).
    + apply sumn_ext. intros i Hi. rewrite (parallel_qf nF NF psF FF a t TbF i BF SF Ea Hi).
      destruct (VF i Hi) as [-> ->]. rewrite (BO i Hi). f_equal. f_equal.
      unfold Rdiv. rewrite Rabs_mult. f_equal. apply Rabs_right. left. apply Rinv_0_lt_compat. apply lt_0_INR. auto.
    + rewrite (sum_groups nF n gam (fun j => Rabs x / INR nF * cp * (bore_outlet ps F j t Tb - t)) Hgl).
      rewrite SumW, <- sumn_scal. apply sumn_ext. intros j Hj. rewrite Wn by auto. lra.
  - rewrite (outlet_by_list NF FF _ oo t TbF WF (proj1 (format_facts NF _ FF WF HFF)) eq_refl).
    assert (EI : iOutlets NF (f_rev FF) = seq 0 nF) by (unfold iOutlets; destruct (f_rev FF); auto). rewrite EI, NiF.
    assert (Hi0 : INR nF <> 0) by (apply not_0_INR; lia).
    assert (Ha0 : Rabs (x / INR nF) <> 0).
    { apply Rabs_no_R0. unfold Rdiv. apply Rmult_integral_contrapositive_currified; auto. apply Rinv_neq_0_compat; auto. }
    transitivity (Rabs (x / INR nF) * sumn nF (fun i => bore_outlet ps F (gam i) t Tb) / (Rabs (x / INR nF) * INR nF)).
    + f_equal.
      * rewrite <- sumn_scal. apply sumn_ext. intros i Hi. rewrite seq_nth by auto. simpl.
        rewrite (parallel_outlet nF NF psF FF oo t TbF i BF SF Eo Hi), (BO i Hi), EmF, nth_repeat_lt by auto. auto.
      * transitivity (sumn nF (fun _ => Rabs (x / INR nF))); [|rewrite sumn_const; lra].
        apply sumn_ext. intros k Hk. rewrite EmF, nth_repeat_lt by auto. auto.
    + rewrite (sum_groups nF n gam (fun j => bore_outlet ps F j t Tb) Hgl), SumW.
      assert (Q : sumn n (fun j => INR (count_occ Nat.eq_dec (map gam (seq 0 nF)) j) * bore_outlet ps F j t Tb)
        = sumn n (fun j => nth j w 0 * bore_outlet ps F j t Tb)).
      { apply sumn_ext. intros j Hj. rewrite Wn by auto. auto. }
      rewrite Q. field. auto.
Qed.

(* ------------------------------------------------------------------ *)
(* Mixing weights of scalar flows                                      *)

Lemma scalar_mixing N x : wf N -> 0 < x ->
  mixing (iOutlets N (f_rev (the_fmt N (mkargs [x] [1] (SegN 1) RNone)))) (repeat (x / INR (nInlets N)) (nInlets N))
  = mixing (n_out N) (repeat 1 (nInlets N)).
Proof.
  intros W Hx. assert (Er : format_dir [x] = Some false).
  { unfold format_dir. simpl. assert (Rleb 0 x = true) by (apply Rleb_true; lra). rewrite H. auto. }
  unfold the_fmt, format_inputs. cbn [g_m g_cp g_n g_r format_flow format_cp format_seg]. rewrite Er. cbn [f_rev iOutlets].
  apply functional_extensionality. intro i. unfold mixing.
  destruct (index_of (n_out N) (Z.of_nat i)) as [k|] eqn:E; auto.
  apply index_of_some in E. destruct E as [E _]. rewrite (nOut_nIn N W) in E.
  rewrite !nth_repeat_lt by auto.
  assert (Hm : forall y n, map Rabs (repeat y n) = repeat (Rabs y) n) by (intros y n; induction n; simpl; congruence).
  rewrite !Hm, !Rsum_repeat, Rabs_R1.
  assert (H0 : 0 < INR (nInlets N)) by (apply lt_0_INR; lia).
  assert (0 < x / INR (nInlets N)) by (apply Rdiv_lt_0_compat; auto).
  rewrite Rabs_right by lra. field. split; lra.
Qed.
