(** Effect of the flow rate on a network of boreholes with the same U-tube or coaxial
    pipes: C142. *)
From Coq Require Import Reals Lra Lia List ZArith.
From Verif Require Import Base Net_Model Net_Spec Net_Coef_Proofs Bore_Model Pipe_Model Pipe_Spec Pipe_Props
  Flow_Proofs NetR_Spec NetR_Proofs NetFlow_Proofs.
Import ListNotations.
Local Open Scope R_scope.

(** More flow: a smaller resistance of the network, whatever the connections. *)
Theorem C142_resistance : forall n conn N u x1 x2 cp1 cp2 d e, build_net n conn = Some N ->
  let m1 := x1 / INR (nInlets N) in let m2 := x2 / INR (nInlets N) in
  good_flow u m1 cp1 1 None d e -> good_flow u m2 cp2 1 None d e ->
  0 < m1 \/ u_reversible u = true -> 0 < m2 \/ u_reversible u = true -> 0 <= cond u d e ->
  Rabs x1 * cp1 < Rabs x2 * cp2 ->
  exists R1 R2,
    network_thermal_resistance N (repeat (net_pipe u) n) (INR n * bH (u_b u)) [x1] [cp1] = Some R1
    /\ network_thermal_resistance N (repeat (net_pipe u) n) (INR n * bH (u_b u)) [x2] [cp2] = Some R2
    /\ 0 < R2 < R1.
Proof.
  intros n conn N u x1 x2 cp1 cp2 d e B m1 m2 G1 G2 P1 P2 C0 L. destruct (build_wf _ _ _ B) as [W En].
  pose proof (network_R N u d e W C0 x1 cp1 G1 P1) as E1. pose proof (network_R N u d e W C0 x2 cp2 G2 P2) as E2.
  rewrite En in E1, E2. eexists. eexists. split; [exact E1|]. split; [exact E2|].
  destruct (flow_compare N u d e W C0 x1 x2 cp1 cp2 G1 G2 L) as [_ Q].
  destruct (fmean_factor N u d e W C0 x2 cp2 G2 P2) as (_ & A2 & _).
  destruct (share_flow N u d e W x2 cp2 G2) as (_ & _ & X2 & _).
  assert (K : 0 < 1/2 * (INR n * bH (u_b u))).
  { assert (0 < bH (u_b u)) by apply G1. assert (0 < INR n) by (apply lt_0_INR; rewrite <- En; apply W). nra. }
  assert (E : forall a b, 1/2 * (INR n * bH (u_b u)) * a / b = 1/2 * (INR n * bH (u_b u)) * (a / b)) by (intros; unfold Rdiv; ring).
  rewrite !E. split; [|apply Rmult_lt_compat_l; auto].
  apply Rmult_lt_0_compat; auto. apply Rdiv_lt_0_compat; [lra|]. apply Rmult_lt_0_compat; lra.
Qed.
Print Assumptions C142_resistance.

(** More flow, at one wall temperature: more heat, and an outlet temperature of the network
    nearer to that of its inlet; for any numbers of segments. *)
Theorem C142_heat : forall n conn N u x1 x2 cp1 cp2 s1 s2 d e t T, build_net n conn = Some N ->
  let m1 := x1 / INR (nInlets N) in let m2 := x2 / INR (nInlets N) in
  good_flow u m1 cp1 s1 None d e -> good_flow u m2 cp2 s2 None d e ->
  0 < m1 \/ u_reversible u = true -> 0 < m2 \/ u_reversible u = true -> 0 <= cond u d e ->
  Rabs x1 * cp1 < Rabs x2 * cp2 -> t <> T ->
  let ps := repeat (net_pipe u) n in
  let g1 := mkargs [x1] [cp1] (SegN s1) RNone in let g2 := mkargs [x2] [cp2] (SegN s2) RNone in
  exists F1 F2 o1 o2 h1 h2, good_args N ps g1 F1 /\ good_args N ps g2 F2
  /\ fresh N ps NetOutlet g1 = Some o1 /\ fresh N ps NetOutlet g2 = Some o2
  /\ fresh N ps NetHeat g1 = Some h1 /\ fresh N ps NetHeat g2 = Some h2
  /\ let K1 := seg_total (f_seg F1) in let K2 := seg_total (f_seg F2) in
     Rabs (apply_coefs K1 h1 t (fun _ => T) O) < Rabs (apply_coefs K2 h2 t (fun _ => T) O)
     /\ Rabs (apply_coefs K2 o2 t (fun _ => T) O - t) < Rabs (apply_coefs K1 o1 t (fun _ => T) O - t).
Proof.
  intros n conn N u x1 x2 cp1 cp2 s1 s2 d e t T B m1 m2 G1 G2 P1 P2 C0 L NT ps g1 g2. destruct (build_wf _ _ _ B) as [W En].
  destruct (uniform_network N u x1 cp1 s1 d e t T W G1 NT) as (F1 & o1 & h1 & A1 & O1 & H1 & V1 & Q1).
  destruct (uniform_network N u x2 cp2 s2 d e t T W G2 NT) as (F2 & o2 & h2 & A2 & O2 & H2 & V2 & Q2).
  rewrite En in *. exists F1, F2, o1, o2, h1, h2. do 6 (split; [assumption|]). cbv zeta in *.
  apply one_segment in G1. apply one_segment in G2.
  destruct (flow_compare N u d e W C0 x1 x2 cp1 cp2 G1 G2 L) as [M Q].
  destruct (fmean_factor N u d e W C0 x1 cp1 G1 P1) as (E1 & B1 & _). destruct (fmean_factor N u d e W C0 x2 cp2 G2 P2) as (E2 & B2 & _).
  destruct (share_flow N u d e W x1 cp1 G1) as (_ & _ & X1 & _). destruct (share_flow N u d e W x2 cp2 G2) as (_ & _ & X2 & _).
  rewrite E1 in V1. rewrite E2 in V2. rewrite Q1, Q2.
  set (f1 := fmean N u d e x1 cp1) in *. set (f2 := fmean N u d e x2 cp2) in *.
  set (y1 := apply_coefs _ o1 t _ O) in *. set (y2 := apply_coefs _ o2 t _ O) in *.
  assert (Y1 : y1 - t = (1 - f1) * (T - t)) by lra. assert (Y2 : y2 - t = (1 - f2) * (T - t)) by lra.
  rewrite Y1, Y2. assert (D : 0 < Rabs (T - t)) by (apply Rabs_pos_lt; lra).
  rewrite !Rabs_mult, !(Rabs_right (1 - _)), !Rabs_Rabsolu by lra.
  assert (Hc1 : Rabs cp1 = cp1 /\ Rabs cp2 = cp2).
  { destruct (share_flow N u d e W x1 cp1 G1) as (_ & c1 & _). destruct (share_flow N u d e W x2 cp2 G2) as (_ & c2 & _).
    split; apply Rabs_right; lra. }
  destruct Hc1 as [-> ->]. split; [|apply Rmult_lt_compat_r; lra].
  rewrite <- !Rmult_assoc. apply Rmult_lt_compat_r; auto.
  set (r1 := Rabs x1 * cp1) in *. set (r2 := Rabs x2 * cp2) in *.
  assert (Z1 : 0 < r1 * (1 - f1)) by (apply Rmult_lt_0_compat; lra). assert (Z2 : 0 < r2 * (1 - f2)) by (apply Rmult_lt_0_compat; lra).
  apply Rnot_le_lt. intros Z.
  apply (Rlt_irrefl ((1 + f2) / (r2 * (1 - f2)))). eapply Rlt_trans; [exact Q|].
  unfold Rdiv. apply Rlt_le_trans with ((1 + f2) * / (r1 * (1 - f1))).
  - apply Rmult_lt_compat_r; [apply Rinv_0_lt_compat; auto|lra].
  - apply Rmult_le_compat_l; [lra|]. apply Rinv_le_contravar; auto.
Qed.
Print Assumptions C142_heat.

(* Three U-tubes, the second fed by the first, flow doubled *)
Lemma example_flow m s : 0 < m -> (0 < s)%nat -> good_flow (ex_tube false) m 4000 s None 0 1.
Proof. intros H Hs. apply ex_tube_good; [left; repeat split; left; exact H|cbn; lia]. Qed.

Example C142_example : exists N R1 R2, build_net 3 (Some [-1; 0; -1]%Z) = Some N /\ nInlets N = 2%nat
  /\ network_thermal_resistance N (repeat (net_pipe (ex_tube false)) 3) (INR 3 * 100) [1] [4000] = Some R1
  /\ network_thermal_resistance N (repeat (net_pipe (ex_tube false)) 3) (INR 3 * 100) [2] [4000] = Some R2
  /\ 0 < R2 < R1.
Proof.
  assert (B : build_net 3 (Some [-1; 0; -1]%Z) = Some (mknet [-1; 0; -1]%Z [0; 2]%nat [1; 2]%nat [0; 0; 1]%nat)) by reflexivity.
  destruct (C142_resistance 3 _ _ (ex_tube false) 1 2 4000 4000 0 1 B) as (R1 & R2 & E1 & E2 & E3).
  - apply example_flow; [cbn; lra|lia].
  - apply example_flow; [cbn; lra|lia].
  - left; cbn; lra.
  - left; cbn; lra.
  - unfold cond; cbn; lra.
  - rewrite !Rabs_right by lra. lra.
  - eexists. exists R1, R2. split; [exact B|]. split; [reflexivity|]. split; [exact E1|]. split; [exact E2|exact E3].
Qed.

Example C142_heat_example : exists N F1 F2 h1 h2, build_net 3 (Some [-1; 0; -1]%Z) = Some N
  /\ good_args N (repeat (net_pipe (ex_tube false)) 3) (mkargs [1] [4000] (SegN 2) RNone) F1
  /\ good_args N (repeat (net_pipe (ex_tube false)) 3) (mkargs [2] [4000] (SegN 2) RNone) F2
  /\ fresh N (repeat (net_pipe (ex_tube false)) 3) NetHeat (mkargs [1] [4000] (SegN 2) RNone) = Some h1
  /\ fresh N (repeat (net_pipe (ex_tube false)) 3) NetHeat (mkargs [2] [4000] (SegN 2) RNone) = Some h2
  /\ Rabs (apply_coefs (seg_total (f_seg F1)) h1 5 (fun _ => 10) O) < Rabs (apply_coefs (seg_total (f_seg F2)) h2 5 (fun _ => 10) O).
Proof.
  assert (B : build_net 3 (Some [-1; 0; -1]%Z) = Some (mknet [-1; 0; -1]%Z [0; 2]%nat [1; 2]%nat [0; 0; 1]%nat)) by reflexivity.
  destruct (C142_heat 3 _ _ (ex_tube false) 1 2 4000 4000 2 2 0 1 5 10 B) as (F1 & F2 & o1 & o2 & h1 & h2 & E1 & E2 & _ & _ & E5 & E6 & E7 & _).
  - apply example_flow; [cbn; lra|lia].
  - apply example_flow; [cbn; lra|lia].
  - left; cbn; lra.
  - left; cbn; lra.
  - unfold cond; cbn; lra.
  - rewrite !Rabs_right by lra. lra.
  - lra.
  - eexists. exists F1, F2, h1, h2. split; [exact B|]. auto.
Qed.
