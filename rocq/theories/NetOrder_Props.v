(** Networks of boreholes with the same U-tube or coaxial pipes: longer boreholes (C142) and
    comparison of the connections at the same total flow (C143). *)
From Coq Require Import Reals Lra Lia List ZArith.
From Verif Require Import Base Net_Model Net_Spec Net_Coef_Proofs Net_Equiv_Proofs Bore_Model Pipe_Model Pipe_Spec
  Pipe_Props Flow_Proofs Flow_Props NetR_Spec NetR_Proofs NetFlow_Proofs NetFlow_Props NetOrder_Proofs.
Import ListNotations.
Local Open Scope R_scope.

Lemma nb_pos n conn N : build_net n conn = Some N -> 0 < INR n.
Proof. intros B. destruct (build_wf _ _ _ B) as [W En]. apply lt_0_INR. rewrite <- En. apply W. Qed.

(** C142: longer boreholes, a larger resistance, more heat and an outlet temperature nearer
    to that of the wall. *)
Theorem C142_length : forall n conn N u1 u2 x cp s1 s2 d e t T, build_net n conn = Some N ->
  let m := x / INR (nInlets N) in
  good_flow u1 m cp s1 None d e -> good_flow u2 m cp s2 None d e ->
  0 < m \/ (u_reversible u1 = true /\ u_reversible u2 = true) -> u_Rd u1 = u_Rd u2 -> 0 <= cond u1 d e ->
  bH (u_b u1) < bH (u_b u2) -> t <> T ->
  let ps1 := repeat (net_pipe u1) n in let ps2 := repeat (net_pipe u2) n in
  let g1 := mkargs [x] [cp] (SegN s1) RNone in let g2 := mkargs [x] [cp] (SegN s2) RNone in
  exists R1 R2 F1 F2 o1 o2 h1 h2,
  network_thermal_resistance N ps1 (INR n * bH (u_b u1)) [x] [cp] = Some R1
  /\ network_thermal_resistance N ps2 (INR n * bH (u_b u2)) [x] [cp] = Some R2
  /\ good_args N ps1 g1 F1 /\ good_args N ps2 g2 F2
  /\ fresh N ps1 NetOutlet g1 = Some o1 /\ fresh N ps2 NetOutlet g2 = Some o2
  /\ fresh N ps1 NetHeat g1 = Some h1 /\ fresh N ps2 NetHeat g2 = Some h2
  /\ R1 < R2
  /\ let K1 := seg_total (f_seg F1) in let K2 := seg_total (f_seg F2) in
     Rabs (apply_coefs K1 h1 t (fun _ => T) O) < Rabs (apply_coefs K2 h2 t (fun _ => T) O)
     /\ Rabs (apply_coefs K2 o2 t (fun _ => T) O - T) < Rabs (apply_coefs K1 o1 t (fun _ => T) O - T).
Proof.
  intros n conn N u1 u2 x cp s1 s2 d e t T B m G1 G2 P ER C0 L NT ps1 ps2 g1 g2. destruct (build_wf _ _ _ B) as [W En].
  assert (P1 : 0 < m \/ u_reversible u1 = true) by (destruct P as [P|[P Q]]; auto).
  assert (P2 : 0 < m \/ u_reversible u2 = true) by (destruct P as [P|[P Q]]; auto).
  assert (C0' : 0 <= cond u2 d e) by (rewrite <- (same_circuit u1 u2 d e ER); auto).
  destruct (uniform_network N u1 x cp s1 d e t T W G1 NT) as (F1 & o1 & h1 & A1 & O1 & H1 & V1 & Q1).
  destruct (uniform_network N u2 x cp s2 d e t T W G2 NT) as (F2 & o2 & h2 & A2 & O2 & H2 & V2 & Q2).
  apply one_segment in G1. apply one_segment in G2.
  pose proof (network_R N u1 d e W C0 x cp G1 P1) as E1. pose proof (network_R N u2 d e W C0' x cp G2 P2) as E2.
  rewrite En in *. eexists. eexists. exists F1, F2, o1, o2, h1, h2.
  split; [exact E1|]. split; [exact E2|]. do 6 (split; [assumption|]). cbv zeta in *.
  destruct (length_compare N u1 u2 d e x cp W C0 ER G1 G2 L) as [M Q].
  destruct (fmean_factor N u1 d e W C0 x cp G1 P1) as (D1 & B1 & _). destruct (fmean_factor N u2 d e W C0' x cp G2 P2) as (D2 & B2 & _).
  destruct (share_flow N u1 d e W x cp G1) as (_ & c1 & X & _). pose proof (nb_pos n conn N B) as N0.
  rewrite D1 in V1. rewrite D2 in V2. rewrite Q1, Q2.
  set (f1 := fmean N u1 d e x cp) in *. set (f2 := fmean N u2 d e x cp) in *.
  set (y1 := apply_coefs _ o1 t _ O) in *. set (y2 := apply_coefs _ o2 t _ O) in *.
  split.
  - set (r := Rabs x * cp) in *. apply Rmult_lt_reg_l with (2 * r / INR n); [apply Rdiv_lt_0_compat; lra|].
    match goal with |- ?a < ?b => replace a with (bH (u_b u1) * (1 + f1) / (1 - f1)) by (field; lra);
      replace b with (bH (u_b u2) * (1 + f2) / (1 - f2)) by (field; lra) end. exact Q.
  - assert (Y1 : y1 - t = (1 - f1) * (T - t)) by lra. assert (Y2 : y2 - t = (1 - f2) * (T - t)) by lra.
    rewrite Y1, Y2, V1, V2. assert (Z : 0 < Rabs (T - t)) by (apply Rabs_pos_lt; lra).
    assert (Z' : 0 < Rabs (t - T)) by (apply Rabs_pos_lt; lra).
    rewrite !Rabs_mult, !(Rabs_right (1 - _)), !Rabs_Rabsolu, (Rabs_right cp), (Rabs_right f1), (Rabs_right f2) by lra.
    split; [|apply Rmult_lt_compat_r; lra].
    rewrite <- !Rmult_assoc. apply Rmult_lt_compat_r; auto. apply Rmult_lt_compat_l; lra.
Qed.
Print Assumptions C142_length.

Example C142_length_example : exists N R1 R2, build_net 3 (Some [-1; 0; -1]%Z) = Some N
  /\ network_thermal_resistance N (repeat (net_pipe (ex_tube false)) 3) (INR 3 * 100) [1] [4000] = Some R1
  /\ network_thermal_resistance N (repeat (net_pipe long_tube) 3) (INR 3 * 200) [1] [4000] = Some R2 /\ R1 < R2.
Proof.
  assert (B : build_net 3 (Some [-1; 0; -1]%Z) = Some (mknet [-1; 0; -1]%Z [0; 2]%nat [1; 2]%nat [0; 0; 1]%nat)) by reflexivity.
  destruct (C142_length 3 _ _ (ex_tube false) long_tube 1 4000 1 1 0 1 5 10 B)
    as (R1 & R2 & F1 & F2 & o1 & o2 & h1 & h2 & E1 & E2 & _ & _ & _ & _ & _ & _ & E & _).
  - apply ex_flow. cbn; lra.
  - apply long_flow. cbn; lra.
  - left; cbn; lra.
  - reflexivity.
  - unfold cond; cbn; lra.
  - cbn; lra.
  - lra.
  - eexists. exists R1, R2. split; [exact B|]. auto.
Qed.

(** * C143 *)

(** At the same total flow no connection of the boreholes has a smaller resistance than all
    of them in series. *)
Theorem C143_series_least : forall n conn conn' N N' u x cp d e, build_net n conn = Some N ->
  build_net n conn' = Some N' -> nInlets N' = 1%nat ->
  let m := x / INR (nInlets N) in
  good_flow u m cp 1 None d e -> good_flow u x cp 1 None d e -> 0 < m \/ u_reversible u = true -> 0 <= cond u d e ->
  exists Rf R', network_thermal_resistance N (repeat (net_pipe u) n) (INR n * bH (u_b u)) [x] [cp] = Some Rf
  /\ network_thermal_resistance N' (repeat (net_pipe u) n) (INR n * bH (u_b u)) [x] [cp] = Some R'
  /\ R' <= Rf.
Proof.
  intros n conn conn' N N' u x cp d e B B' I1 m G G' P C0.
  destruct (build_wf _ _ _ B) as [W En]. destruct (build_wf _ _ _ B') as [W' En'].
  assert (X1 : share N' x = x) by (unfold share; rewrite I1; cbn [INR]; field).
  assert (P' : 0 < share N' x \/ u_reversible u = true).
  { rewrite X1. destruct P as [P|P]; auto. left. pose proof (inlets_pos N W) as I0. unfold m in P.
    apply Rmult_lt_reg_r with (/ INR (nInlets N)); [apply Rinv_0_lt_compat; auto|]. rewrite Rmult_0_l. exact P. }
  rewrite <- X1 in G'.
  pose proof (network_R N u d e W C0 x cp G P) as E1. pose proof (network_R N' u d e W' C0 x cp G' P') as E2.
  rewrite En in E1. rewrite En' in E2. eexists. eexists. split; [exact E1|]. split; [exact E2|].
  destruct (fmean_factor N u d e W C0 x cp G P) as (_ & B1 & _). destruct (fmean_factor N' u d e W' C0 x cp G' P') as (_ & B2 & _).
  destruct (share_flow N u d e W x cp G) as (_ & _ & X & _).
  apply mean_to_R; try lra; auto.
  - apply Rmult_lt_0_compat; [exact (nb_pos n conn N B)|apply G].
  - apply series_least; auto. congruence.
Qed.
Print Assumptions C143_series_least.

(** Nor does any connection exchange more heat at one wall temperature. *)
Theorem C143_series_heat : forall n conn conn' N N' u x cp s s' d e t T, build_net n conn = Some N ->
  build_net n conn' = Some N' -> nInlets N' = 1%nat ->
  let m := x / INR (nInlets N) in
  good_flow u m cp s None d e -> good_flow u x cp s' None d e -> 0 < m \/ u_reversible u = true -> 0 <= cond u d e ->
  t <> T ->
  let ps := repeat (net_pipe u) n in
  let g := mkargs [x] [cp] (SegN s) RNone in let g' := mkargs [x] [cp] (SegN s') RNone in
  exists F F' h h', good_args N ps g F /\ good_args N' ps g' F'
  /\ fresh N ps NetHeat g = Some h /\ fresh N' ps NetHeat g' = Some h'
  /\ Rabs (apply_coefs (seg_total (f_seg F)) h t (fun _ => T) O)
     <= Rabs (apply_coefs (seg_total (f_seg F')) h' t (fun _ => T) O).
Proof.
  intros n conn conn' N N' u x cp s s' d e t T B B' I1 m G G' P C0 NT ps g g'.
  destruct (build_wf _ _ _ B) as [W En]. destruct (build_wf _ _ _ B') as [W' En'].
  assert (X1 : share N' x = x) by (unfold share; rewrite I1; cbn [INR]; field).
  assert (P' : 0 < share N' x \/ u_reversible u = true).
  { rewrite X1. destruct P as [P|P]; auto. left. pose proof (inlets_pos N W) as I0. unfold m in P.
    apply Rmult_lt_reg_r with (/ INR (nInlets N)); [apply Rinv_0_lt_compat; auto|]. rewrite Rmult_0_l. exact P. }
  rewrite <- X1 in G'.
  destruct (uniform_network N u x cp s d e t T W G NT) as (F & o & h & A1 & O1 & H1 & V1 & Q1).
  destruct (uniform_network N' u x cp s' d e t T W' G' NT) as (F' & o' & h' & A2 & O2 & H2 & V2 & Q2).
  rewrite En in *. rewrite En' in *. exists F, F', h, h'. do 4 (split; [assumption|]). cbv zeta in *.
  apply one_segment in G. apply one_segment in G'.
  destruct (fmean_factor N u d e W C0 x cp G P) as (D1 & B1 & _). destruct (fmean_factor N' u d e W' C0 x cp G' P') as (D2 & B2 & _).
  destruct (share_flow N u d e W x cp G) as (_ & c1 & X & _).
  pose proof (series_least N N' u d e x cp W W' C0 ltac:(congruence) G G' I1) as M.
  rewrite D1 in V1. rewrite D2 in V2. rewrite Q1, Q2.
  set (f1 := fmean N u d e x cp) in *. set (f2 := fmean N' u d e x cp) in *.
  set (y1 := apply_coefs _ o t _ O) in *. set (y2 := apply_coefs _ o' t _ O) in *.
  assert (Y1 : y1 - t = (1 - f1) * (T - t)) by lra. assert (Y2 : y2 - t = (1 - f2) * (T - t)) by lra.
  rewrite Y1, Y2. rewrite !Rabs_mult, !(Rabs_right (1 - _)), !Rabs_Rabsolu, (Rabs_right cp) by lra.
  rewrite <- !Rmult_assoc. apply Rmult_le_compat_r; [apply Rabs_pos|]. apply Rmult_le_compat_l; lra.
Qed.
Print Assumptions C143_series_heat.

(** Among the networks of circuits of the same length, all boreholes in parallel have the
    largest resistance. *)
Theorem C143_parallel_most : forall n conn N N' l u x cp d e, build_net n conn = Some N ->
  build_net n None = Some N' -> (forall k, (k < nInlets N)%nat -> circuit_len N k = l) ->
  let m := x / INR (nInlets N) in
  good_flow u m cp 1 None d e -> good_flow u (x / INR n) cp 1 None d e -> 0 < m \/ u_reversible u = true -> 0 <= cond u d e ->
  exists Rf R', network_thermal_resistance N (repeat (net_pipe u) n) (INR n * bH (u_b u)) [x] [cp] = Some Rf
  /\ network_thermal_resistance N' (repeat (net_pipe u) n) (INR n * bH (u_b u)) [x] [cp] = Some R'
  /\ Rf <= R'.
Proof.
  intros n conn N N' l u x cp d e B B' LN m G G' P C0.
  destruct (build_wf _ _ _ B) as [W En]. destruct (parallel_facts n N' B') as (W' & En' & _ & _ & _ & I1 & _).
  rewrite <- I1 in G'. assert (P' : 0 < share N' x \/ u_reversible u = true).
  { destruct P as [P|P]; auto. left. pose proof (inlets_pos N W) as I0. pose proof (inlets_pos N' W') as I0'. unfold m in P.
    assert (0 < x); [|apply Rdiv_lt_0_compat; auto].
    apply Rmult_lt_reg_r with (/ INR (nInlets N)); [apply Rinv_0_lt_compat; auto|]. rewrite Rmult_0_l. exact P. }
  pose proof (network_R N u d e W C0 x cp G P) as E1. pose proof (network_R N' u d e W' C0 x cp G' P') as E2.
  rewrite En in E1. rewrite En' in E2. eexists. eexists. split; [exact E1|]. split; [exact E2|].
  destruct (fmean_factor N u d e W C0 x cp G P) as (_ & B1 & _). destruct (fmean_factor N' u d e W' C0 x cp G' P') as (_ & B2 & _).
  destruct (share_flow N u d e W x cp G) as (_ & _ & X & _).
  apply mean_to_R; try lra; auto.
  - apply Rmult_lt_0_compat; [exact (nb_pos n conn N B)|apply G].
  - apply (parallel_most N N' u d e x cp W W' C0 ltac:(congruence) G G' l); [congruence|exact LN].
Qed.
Print Assumptions C143_parallel_most.

(* Four boreholes in series, in two circuits of two, and in parallel *)
Example C143_example : exists S P D Rs Rp Rd, build_net 4 (Some [-1; 0; 1; 2]%Z) = Some S
  /\ build_net 4 None = Some P /\ build_net 4 (Some [-1; 0; -1; 2]%Z) = Some D
  /\ nInlets S = 1%nat /\ nInlets P = 4%nat /\ nInlets D = 2%nat
  /\ network_thermal_resistance S (repeat (net_pipe (ex_tube false)) 4) (INR 4 * 100) [1] [4000] = Some Rs
  /\ network_thermal_resistance P (repeat (net_pipe (ex_tube false)) 4) (INR 4 * 100) [1] [4000] = Some Rp
  /\ network_thermal_resistance D (repeat (net_pipe (ex_tube false)) 4) (INR 4 * 100) [1] [4000] = Some Rd
  /\ Rs <= Rd <= Rp.
Proof.
  assert (BS : build_net 4 (Some [-1; 0; 1; 2]%Z) = Some (mknet [-1; 0; 1; 2]%Z [0]%nat [3]%nat [0; 0; 0; 0]%nat)) by reflexivity.
  assert (BP : build_net 4 None = Some (mknet [-1; -1; -1; -1]%Z [0; 1; 2; 3]%nat [0; 1; 2; 3]%nat [0; 1; 2; 3]%nat)) by reflexivity.
  assert (BD : build_net 4 (Some [-1; 0; -1; 2]%Z) = Some (mknet [-1; 0; -1; 2]%Z [0; 2]%nat [1; 3]%nat [0; 0; 1; 1]%nat)) by reflexivity.
  destruct (C143_series_least 4 _ _ _ _ (ex_tube false) 1 4000 0 1 BD BS eq_refl) as (Rd & Rs & E1 & E2 & E3).
  1: apply ex_flow; cbn; lra. 1: apply ex_flow; lra. 1: left; cbn; lra. 1: unfold cond; cbn; lra.
  destruct (C143_parallel_most 4 _ _ _ 2 (ex_tube false) 1 4000 0 1 BD BP) as (Rd' & Rp & E4 & E5 & E6).
  1: intros [|[|k]] Hk; [reflexivity|reflexivity|cbn in Hk; lia].
  1: apply ex_flow; cbn; lra. 1: apply ex_flow; cbn; lra. 1: left; cbn; lra. 1: unfold cond; cbn; lra.
  rewrite E1 in E4. injection E4 as <-.
  eexists. eexists. eexists. exists Rs, Rp, Rd. split; [exact BS|]. split; [exact BP|]. split; [exact BD|].
  do 3 (split; [reflexivity|]). split; [exact E2|]. split; [exact E5|]. split; [exact E1|]. split; assumption.
Qed.
