(** g-functions of networks of boreholes that do not create energy. *)
From Coq Require Import String.
From Verif Require Import Base LinAlg FLS_Model.
From Verif Require Import Bore_Model Net_Model Net_Spec Net_Proofs Net_Coef_Proofs Net_Heat_Proofs Net_Cache_Proofs Net_More_Proofs Net_Extra_Proofs Solve_Model
  Detailed_Model Detailed_Spec Sim_Model Sim_Spec Eq_Model Eq_Spec GFun_Model GFun_Spec GFun_Two_Proofs GFun_Rows_Proofs Passive_Spec Passive_Net_Proofs.
From Verif Require Multi_Spec.
Local Open Scope R_scope.

Lemma every_and P Q N ps F : every_pipe (fun p m cp n r => P p m cp n r /\ Q p m cp n r) N ps F -> every_pipe P N ps F /\ every_pipe Q N ps F.
Proof. intros H. split; intros i p E; apply (H i p E). Qed.

Section Flow.
  Variables (w : network) (ns : list nat) (rs : list (list R)) (x : R) (row : list R) (f : fmt).
  Hypothesis (Cw : connected w) (Ln : List.length ns = List.length (w_b w)) (Lr : List.length rs = List.length (w_b w))
    (Ef : format_inputs (w_c w) (flow_call x ns rs row) = Some f) (Xp : 0 < x).
  Local Notation N := (w_c w).
  Local Notation ps := (w_p w).
  Local Notation g := (flow_call x ns rs row).

  Lemma flow_wf : wf N /\ nB N = List.length (w_b w).
  Proof. destruct Cw as [_ [conn B]]. exact (build_wf _ _ _ B). Qed.

  Lemma flow_format : f_seg f = ns /\ f_rat f = map Some rs /\ List.length (w_p w) = nB N.
  Proof.
    destruct flow_wf as [W En]. destruct Cw as [Lp _]. rewrite En. split; [|split; auto]; unfold flow_call, format_inputs in Ef; cbn [g_m g_cp g_n g_r] in Ef;
      (destruct (format_flow _ _); [|discriminate]); (destruct (format_dir _); [|discriminate]); (destruct (format_cp _ _); [|discriminate]);
      (destruct (format_seg _ _) as [s|] eqn:Es; [|discriminate]); injection Ef as <-; auto.
    cbn [f_seg]. unfold format_seg in Es. rewrite En in Es.
    destruct ns as [|a [|a2 ns']]; [rewrite <- Ln in Es; cbn in Es; congruence| |rewrite Ln, Nat.eqb_refl in Es; congruence]. rewrite <- Ln in Es. cbn in Es. congruence.
  Qed.

  Lemma flow_good : good_args N ps g f.
  Proof. destruct flow_format as (S1 & S2 & S3). destruct flow_wf as [W En]. split; auto. split; auto. rewrite S2, map_length, En. auto. Qed.

  Lemma one_good : exists f1, good_args N ps (mkargs row [x] (SegN 1) Net_Model.RNone) f1.
  Proof.
    destruct flow_format as (_ & _ & S3). unfold flow_call, format_inputs in Ef. cbn [g_m g_cp g_n g_r] in Ef.
    destruct (format_flow N row) as [m|] eqn:E1; [|discriminate]. destruct (format_dir row) as [d|] eqn:E2; [|discriminate]. destruct (format_cp N [x]) as [c|] eqn:E3; [|discriminate].
    eexists. split.
    - unfold format_inputs. cbn [g_m g_cp g_n g_r format_seg format_rat]. rewrite E1, E2, E3. reflexivity.
    - cbn [f_rat]. rewrite repeat_length. auto.
  Qed.

  Lemma flow_total : total_capacity row [x] <> None.
  Proof.
    unfold total_capacity, bcast. destruct row as [|m [|m2 ms]]; cbn; discriminate.
  Qed.

  Lemma sound_flow : every_pipe sound_pipe N ps f -> 0 < total_flow N f ->
    exists F, network_flow w ns rs [x] row = Some F /\ passive (list_sum ns) F /\ circulates (list_sum ns) F /\ consistent_flow (list_sum ns) F.
  Proof.
    intros So Tf. destruct flow_wf as [W En]. pose proof flow_good as G. destruct flow_format as (S1 & S2 & S3).
    destruct (every_and _ _ _ _ _ So) as [Bal So']. destruct (every_and _ _ _ _ _ So') as [Pas Con].
    destruct (coef_inlet_some N ps f W) as [a Ea]. destruct (coef_outlet_some N ps f W) as [o Eo]. destruct (ends_exist N (f_rev f) W) as [E HE].
    destruct one_good as [f1 G1]. destruct (resistance_exists N ps (Rsum (map bH (w_b w))) row [x] f1 W G1) as [Rf ER].
    destruct (total_capacity row [x]) as [c|] eqn:Ec; [|destruct (flow_total Ec)].
    assert (Hx : In x (g_cp g)) by (left; auto).
    assert (EF : network_flow w ns rs [x] row = Some (mkflow (fst (coef_qb N ps f a)) (snd (coef_qb N ps f a)) (fst (coef_net_heat N (coef_qf N ps f a)) O) (snd (coef_net_heat N (coef_qf N ps f a)) O) c Rf)).
    { unfold network_flow. fold g. change (mkargs row [x] (SegL ns) (Net_Model.RList rs)) with g. rewrite !(fresh_direct N ps _ g f W G). cbn [direct]. rewrite Ea, ER, Ec. reflexivity. }
    eexists. split; [exact EF|].
    assert (St : seg_total (f_seg f) = list_sum ns) by (rewrite S1; apply owner_pos_total).
    assert (Cs : f_net_in (mkflow (fst (coef_qb N ps f a)) (snd (coef_qb N ps f a)) (fst (coef_net_heat N (coef_qf N ps f a)) O) (snd (coef_net_heat N (coef_qf N ps f a)) O) c Rf)
        = sumn (list_sum ns) (fst (coef_qb N ps f a)) /\ forall k, (k < list_sum ns)%nat -> snd (coef_net_heat N (coef_qf N ps f a)) O k = sumn (list_sum ns) (fun i => snd (coef_qb N ps f a) i k)).
    { apply (network_consistent w ns rs [x] row _ Cw Ln Lr) in EF; auto.
      - unfold balanced_pipes, the_fmt. change (mkargs row [x] (SegL ns) (Net_Model.RList rs)) with g. rewrite Ef. exact Bal.
      - exists f. exact Ef. }
    cbn [f_net_in] in Cs.
    pose proof (net_takes_heat N ps g f a o x E W G Ea Eo Hx HE Con Xp Tf) as Neg.
    split; [|split].
    - intros t T. pose proof (net_passive N ps g f a o x E W G Ea Eo Hx HE t t T Pas) as Q. rewrite St in Q. cbn [f_in f_b].
      eapply Rle_trans; [|exact Q]. apply Rmult_le_pos; [lra|]. apply sumn_nonneg. intros k Hk. apply Rmult_le_pos.
      + apply Rmult_le_pos; [apply Rabs_pos|lra].
      + pose proof (pow2_ge_0 (apply_coefs (list_sum ns) o t T (E k) - t)). replace ((t - t) ^ 2) with 0 by ring. lra.
    - destruct (sumn_pos_ex (list_sum ns) (fun i => - fst (coef_qb N ps f a) i)) as [i [Hi Hp]].
      { rewrite sumn_opp. rewrite <- (proj1 Cs). lra. }
      exists i. split; auto. cbn [f_in]. lra.
    - split; [cbn [f_net_in]; lra|]. exact Cs.
  Qed.
End Flow.
