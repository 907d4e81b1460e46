(* Two boreholes in series with one segment each: coefficients of the network. *)
From Coq Require Import String Reals Lra Lia List ZArith.
From Verif Require Import Base LinAlg Net_Model Net_Spec Net_Proofs Net_Coef_Proofs Net_Heat_Proofs Net_Cache_Proofs Net_More_Proofs Net_Equiv_Proofs Net_Extra_Proofs NetR_Spec NetR_Proofs.
From Verif Require Import Bore_Model Solve_Model Detailed_Model Sim_Model Eq_Model GFun_Model GFun_Two_Proofs.
Import ListNotations.
Local Open Scope R_scope.

Definition chain : net := mknet [-1; 0]%Z [0]%nat [1]%nat [0; 0]%nat.
Lemma chain_build : build_net 2 (Some [-1; 0]%Z) = Some chain.
Proof. reflexivity. Qed.

Section Series.
  Variables (p : pipe) (a : R) (w : network).
  Hypothesis Ec : w_c w = chain.
  Hypothesis Ep : w_p w = [p; p].
  Hypothesis A0 : 0 <= a < 1.
  Hypothesis On : forall r, fst (p_out p 1 1 1 r) = a.
  Hypothesis Ob : snd (p_out p 1 1 1 (Some [1])) O = 1 - a.
  Hypothesis Qn : fst (p_qb p 1 1 1 (Some [1])) O = - (1 - a).
  Hypothesis Qb : snd (p_qb p 1 1 1 (Some [1])) O O = 1 - a.

  Definition chain_format : fmt := mkfmt [1] false [1; 1] [1; 1] [1; 1]%nat [Some [1]; Some [1]].

  Lemma chain_inputs : format_inputs chain (mkargs [1] [1] (SegL [1; 1]%nat) (Net_Model.RList [[1]; [1]])) = Some chain_format.
  Proof.
    unfold format_inputs. cbn [Net_Model.g_m Net_Model.g_cp g_n g_r].
    assert (D : format_dir [1] = Some false) by (unfold format_dir; cbn [forallb]; rewrite (proj2 (Rleb_true 0 1)) by lra; reflexivity).
    rewrite D. unfold format_flow, format_cp, format_seg. cbn. replace (1 / 1) with 1 by field. reflexivity.
  Qed.
  Lemma chain_good : good_args chain [p; p] (mkargs [1] [1] (SegL [1; 1]%nat) (Net_Model.RList [[1]; [1]])) chain_format.
  Proof. split; [exact chain_inputs|auto]. Qed.

  Lemma chain_flow : exists F, network_flow w [1; 1]%nat [[1]; [1]] [1] [1] = Some F /\
    f_in F 0%nat = - (1 - a) /\ f_b F 0%nat 0%nat = 1 - a /\ f_b F 0%nat 1%nat = 0 /\
    f_in F 1%nat = - ((1 - a) * a) /\ f_b F 1%nat 0%nat = - ((1 - a) * (1 - a)) /\ f_b F 1%nat 1%nat = 1 - a /\
    f_mcp F = 1 /\ f_R F = Rsum (map bH (w_b w)) * (/ (1 - a ^ 2) - / 2).
  Proof.
    destruct (build_wf _ _ _ chain_build) as [W En]. pose proof chain_good as G.
    destruct (coef_inlet_some chain [p; p] chain_format W) as [c Ea].
    assert (RR : network_thermal_resistance chain [p; p] (Rsum (map bH (w_b w))) [1] [1] = Some (Rsum (map bH (w_b w)) * (/ (1 - a ^ 2) - / 2))).
    { pose proof (resistance_formula chain p (Rsum (map bH (w_b w))) 1 1 W ltac:(lra) ltac:(lra)) as X. cbv zeta in X. change (nInlets chain) with 1%nat in X. change (INR 1) with 1 in X. replace (1 / 1) with 1 in X by field. rewrite On in X.
      specialize (X A0). change (repeat p (nB chain)) with [p; p] in X. rewrite X. f_equal. unfold circuit_mean. change (nInlets chain) with 1%nat. cbn [sumn]. change (circuit_len chain 0) with 2%nat. change (INR 1) with 1. rewrite Rabs_R1. field. repeat split; apply Rgt_not_eq; nra. }
    assert (I0 : forall t T, apply_coefs 2 c t T 0%nat = t).
    { intros t T. rewrite (inlet_eq chain _ _ _ 2 t T 0 Ea ltac:(cbn; lia)). cbn. ring. }
    assert (I1 : forall t T, apply_coefs 2 c t T 1%nat = a * t + (1 - a) * T 0%nat).
    { intros t T. rewrite (inlet_eq chain _ _ _ 2 t T 1 Ea ltac:(cbn; lia)). change (nB chain) with 2%nat. cbn [sumn]. rewrite (I0 t T).
      pose proof (own_outlet chain [p; p] _ chain_format 0 t T W G ltac:(cbn; lia)) as X. unfold bore_outlet in X. change (seg_total (f_seg chain_format)) with 2%nat in X.
      cbn [chain_format f_mb f_cpb f_seg f_rat nth sumn] in X. change (seg_off [1; 1]%nat 0 + 0)%nat with 0%nat in X. rewrite On, Ob in X.
      change (c_in chain (f_rev chain_format) 1) with 0. change (c_out chain (f_rev chain_format) 1%nat 0%nat) with 1. change (c_out chain (f_rev chain_format) 1%nat 1%nat) with 0. cbn [sumn] in X. cbn [chain_format] in *. lra. }
    assert (Q : forall t T i, (i < 2)%nat -> apply_coefs 2 (coef_qb chain [p; p] chain_format c) t T i = - (1 - a) * apply_coefs 2 c t T i + (1 - a) * T i).
    { intros t T i Hi. assert (O1 : nth i (f_seg chain_format) O = 1%nat) by (destruct i as [|[|i]]; [reflexivity|reflexivity|lia]).
      assert (Of : seg_off (f_seg chain_format) i = i) by (destruct i as [|[|i]]; [reflexivity|reflexivity|lia]).
      pose proof (qb_apply chain [p; p] _ chain_format c t T i 0 W G Hi ltac:(rewrite O1; lia)) as X. cbv zeta in X. rewrite Of, O1, Nat.add_0_r in X. change (seg_total (f_seg chain_format)) with 2%nat in X. rewrite X.
      replace (nth i [p; p] no_pipe) with p by (destruct i as [|[|i]]; [reflexivity|reflexivity|lia]).
      replace (nth i (f_mb chain_format) 0) with 1 by (destruct i as [|[|i]]; [reflexivity|reflexivity|lia]). replace (nth i (f_cpb chain_format) 0) with 1 by (destruct i as [|[|i]]; [reflexivity|reflexivity|lia]).
      replace (nth i (f_rat chain_format) None) with (Some [1]) by (destruct i as [|[|i]]; [reflexivity|reflexivity|lia]). cbn [sumn]. rewrite Qn, Qb, Nat.add_0_r. ring. }
    eexists. split.
    { unfold network_flow. rewrite Ec, Ep, !(fresh_direct chain [p; p] _ _ chain_format W G). cbn [direct]. rewrite Ea, RR. unfold total_capacity. cbn [bcast option_map]. reflexivity. }
    cbn [f_in f_b f_mcp f_R].
    rewrite <- !(coef_in (coef_qb chain [p; p] chain_format c) 2), <- !(coef_b (coef_qb chain [p; p] chain_format c) 2) by lia. rewrite !Q, !I0, !I1 by lia. unfold unit_at. cbn [Nat.eqb].
    repeat split; try ring. cbn. rewrite Rabs_R1. ring.
  Qed.
End Series.
