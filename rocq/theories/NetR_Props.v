(** Thermal resistance of a network of boreholes with the same pipe: C141. *)
From Coq Require Import Reals Lra Lia List ZArith.
From Verif Require Import Base Net_Model Net_Spec Net_Coef_Proofs Net_Equiv_Proofs Net_Extra_Proofs Net_Props Bore_Model Pipe_Model Pipe_Spec
  Pipe_Flow_Proofs Pipe_Props Flow_Proofs NetR_Spec NetR_Proofs.
Import ListNotations.
Local Open Scope R_scope.

(** Any network: the resistance of n boreholes is at least the effective resistance of one
    of them at the flow of its circuit, and exceeds it as soon as two boreholes are in
    series (fewer circuits than boreholes). *)
Theorem C141_bound : forall n conn N p H x cp, build_net n conn = Some N -> 0 < H -> x <> 0 -> 0 < cp ->
  let m := x / INR (nInlets N) in
  pipe_balanced p m cp 1 None -> 0 <= fst (p_out p m cp 1 None) < 1 ->
  exists Rf, network_thermal_resistance N (repeat p n) (INR n * H) [x] [cp] = Some Rf
  /\ effective_resistance p H m cp <= Rf
  /\ ((nInlets N < n)%nat -> effective_resistance p H m cp < Rf).
Proof.
  intros n conn N p H x cp B H0 Hx Hc m HB Ha. destruct (build_wf _ _ _ B) as [W En]. rewrite <- En.
  destruct (resistance_bound N p H x cp W H0 Hx Hc HB Ha) as (Rf & E1 & E2 & E3 & _). exists Rf. auto.
Qed.
Print Assumptions C141_bound.

(** All boreholes in parallel: exactly the effective resistance of one of them. *)
Theorem C141_parallel : forall n N p H x cp, build_net n None = Some N -> 0 < H -> x <> 0 -> 0 < cp ->
  pipe_balanced p (x / INR n) cp 1 None -> 0 <= fst (p_out p (x / INR n) cp 1 None) < 1 ->
  network_thermal_resistance N (repeat p n) (INR n * H) [x] [cp] = Some (effective_resistance p H (x / INR n) cp).
Proof.
  intros n N p H x cp B H0 Hx Hc HB Ha. destruct (parallel_facts n N B) as (W & En & _ & _ & _ & Ni & _).
  rewrite <- Ni in HB, Ha.
  destruct (resistance_bound N p H x cp W H0 Hx Hc HB Ha) as (Rf & E1 & _ & _ & E4 & _).
  rewrite En in E1. rewrite E1. f_equal. symmetry. rewrite <- Ni. apply E4. lia.
Qed.
Print Assumptions C141_parallel.

(** All boreholes in series: the factor of one borehole to the power n. *)
Theorem C141_series : forall n conn N p H x cp, build_net n conn = Some N -> nInlets N = 1%nat ->
  0 < H -> x <> 0 -> 0 < cp ->
  pipe_balanced p x cp 1 None -> 0 <= fst (p_out p x cp 1 None) < 1 ->
  let b := fst (p_out p x cp 1 None) ^ n in
  network_thermal_resistance N (repeat p n) (INR n * H) [x] [cp]
  = Some (1/2 * (INR n * H) * (1 + b) / (Rabs x * cp * (1 - b))).
Proof.
  intros n conn N p H x cp B N1 H0 Hx Hc HB Ha b. destruct (build_wf _ _ _ B) as [W En].
  assert (X1 : x / INR (nInlets N) = x) by (rewrite N1; cbn [INR]; field). rewrite <- X1 in HB, Ha.
  destruct (resistance_bound N p H x cp W H0 Hx Hc HB Ha) as (Rf & E1 & _ & _ & _ & E5).
  specialize (E5 N1). cbv zeta in E5. rewrite X1, En in E5. rewrite En in E1. rewrite E1, E5. reflexivity.
Qed.
Print Assumptions C141_series.

(** Any network: closed form with the mean over the circuits of the outlet factors. *)
Theorem C141_formula : forall n conn N p Htot x cp, build_net n conn = Some N -> x <> 0 -> cp <> 0 ->
  let a := fst (p_out p (x / INR (nInlets N)) cp 1 None) in
  0 <= a < 1 ->
  network_thermal_resistance N (repeat p n) Htot [x] [cp]
  = Some (1/2 * Htot * (1 + circuit_mean N a) / (Rabs x * cp * (1 - circuit_mean N a))).
Proof.
  intros n conn N p Htot x cp B Hx Hc a Ha. destruct (build_wf _ _ _ B) as [W En]. rewrite <- En.
  exact (resistance_formula N p Htot x cp W Hx Hc Ha).
Qed.
Print Assumptions C141_formula.

(** U-tubes and coaxial pipes: the resistance of the network is above the local resistance
    of a borehole, and at least the effective one. *)
Theorem C141_utube : forall n conn N u x cp d e, build_net n conn = Some N ->
  let m := x / INR (nInlets N) in
  good_flow u m cp 1 None d e -> 0 < m \/ u_reversible u = true -> 0 <= cond u d e ->
  exists Rf, network_thermal_resistance N (repeat (net_pipe u) n) (INR n * bH (u_b u)) [x] [cp] = Some Rf
  /\ local_R (u_Rd u) < effective_R u m cp <= Rf
  /\ ((nInlets N < n)%nat -> effective_R u m cp < Rf)
  /\ (nInlets N = n -> Rf = effective_R u m cp).
Proof.
  intros n conn N u x cp d e B m G P C0. destruct (build_wf _ _ _ B) as [W En].
  assert (H0 : 0 < bH (u_b u)) by apply G.
  assert (Hm : m <> 0) by (destruct G as [[(_ & _ & [L|[L _]])|(_ & _ & L & _)] _]; lra).
  assert (Hx : x <> 0) by (intros Q; apply Hm; unfold m; rewrite Q; unfold Rdiv; ring).
  assert (Hc : 0 < cp).
  { pose proof (rate_pos _ _ _ _ _ G). assert (0 < Rabs m) by (apply Rabs_pos_lt; auto). nra. }
  assert (HB := utube_balanced u m cp 1 None d e G P).
  destruct (between d e 1 0 u m cp _ G P C0 eq_refl) as (l & L1 & L2 & _).
  assert (Ha : 0 <= fst (p_out (net_pipe u) m cp 1 None) < 1).
  { unfold get_outlet_temperature in L2. cbn [sumn] in L2. cbn [net_pipe p_out]. lra. }
  destruct (resistance_bound N (net_pipe u) (bH (u_b u)) x cp W H0 Hx Hc HB Ha) as (Rf & E1 & E2 & E3 & E4 & _).
  rewrite En in *. exists Rf. split; [exact E1|]. change (effective_resistance (net_pipe u) (bH (u_b u)) m cp) with (effective_R u m cp) in *.
  split; [split; [apply (C68_bounds u m cp d e G P)|exact E2]|]. split; [exact E3|intros Q; symmetry; exact (E4 Q)].
Qed.
Print Assumptions C141_utube.

(* Two boreholes of which the fluid leaves half as warm: 3/40 in parallel, 1/12 in series. *)
Example C141_example : exists P Q,
  build_net 2 None = Some P /\ build_net 2 (Some [-1; 0]%Z) = Some Q /\ nInlets Q = 1%nat
  /\ network_thermal_resistance P (repeat flowing 2) 200 [1] [4000] = Some (3/40)
  /\ network_thermal_resistance Q (repeat flowing 2) 200 [1/2] [4000] = Some (1/12).
Proof.
  eexists. eexists. split; [reflexivity|]. split; [reflexivity|]. split; [reflexivity|].
  replace 200 with (INR 2 * 100) by (cbn; lra). split.
  - rewrite (C141_parallel 2 _ flowing 100 1 4000 eq_refl); try lra.
    + f_equal. unfold effective_resistance. cbn. rewrite Rabs_right by lra. field.
    + apply flowing_ok; lia.
    + cbn. lra.
  - rewrite (C141_series 2 (Some [-1; 0]%Z) _ flowing 100 (1/2) 4000 eq_refl eq_refl); try lra.
    + f_equal. cbn. rewrite Rabs_right by lra. field.
    + apply flowing_ok; lia.
    + cbn. lra.
Qed.

(* Three boreholes, the second fed by the first: factors 1/4 and 1/2 of the circuits. *)
Example C141_formula_example : exists N, build_net 3 (Some [-1; 0; -1]%Z) = Some N
  /\ network_thermal_resistance N (repeat flowing 3) 300 [1] [4000] = Some (33/400).
Proof.
  eexists. assert (B : build_net 3 (Some [-1; 0; -1]%Z) = Some (mknet [-1; 0; -1]%Z [0; 2]%nat [1; 2]%nat [0; 0; 1]%nat)) by reflexivity.
  split; [exact B|]. rewrite (C141_formula 3 _ _ flowing 300 1 4000 B); [|lra|lra|cbn; lra].
  f_equal. unfold circuit_mean, circuit_len. cbn. rewrite Rabs_right by lra. field.
Qed.

(* Three U-tubes, the second fed by the first: above the effective resistance. *)
Example C141_utube_example : exists N Rf, build_net 3 (Some [-1; 0; -1]%Z) = Some N /\ nInlets N = 2%nat
  /\ network_thermal_resistance N (repeat (net_pipe (ex_tube false)) 3) (INR 3 * 100) [1] [4000] = Some Rf
  /\ local_R (u_Rd (ex_tube false)) < effective_R (ex_tube false) (1/2) 4000 < Rf.
Proof.
  eexists. assert (B : build_net 3 (Some [-1; 0; -1]%Z) = Some (mknet [-1; 0; -1]%Z [0; 2]%nat [1; 2]%nat [0; 0; 1]%nat)) by reflexivity.
  destruct (C141_utube 3 _ _ (ex_tube false) 1 4000 0 1 B) as (Rf & E & [F1 F2] & F3 & _).
  - apply ex_tube_good; [left; repeat split; left; cbn; lra|cbn; lia].
  - left. cbn. lra.
  - unfold cond. cbn. lra.
  - exists Rf. split; [exact B|]. split; [reflexivity|]. split; [exact E|].
    specialize (F3 ltac:(cbn; lia)). replace (1 / INR (nInlets _)) with (1/2) in * by (cbn; lra). auto.
Qed.
