(** Effect of the flow rate, the length and the pipe resistances on a single U-tube or
    coaxial borehole at a uniform wall temperature: C137, C138. *)
From Coq Require Import Reals Lra Lia List.
From Verif Require Import Base Bore_Model Pipe_Model Pipe_Spec Pipe_Props Flow_Proofs.
Import ListNotations.
Local Open Scope R_scope.

(** * C137 *)

(** More flow: a smaller effective resistance. *)
Theorem C137_flow : forall u m1 m2 cp1 cp2 d e,
  good_flow u m1 cp1 1 None d e -> good_flow u m2 cp2 1 None d e ->
  0 < m1 \/ u_reversible u = true -> 0 < m2 \/ u_reversible u = true ->
  Rabs m1 * cp1 < Rabs m2 * cp2 -> effective_R u m2 cp2 < effective_R u m1 cp1.
Proof.
  intros u m1 m2 cp1 cp2 d e G1 G2 P1 P2 L. apply (eff_larger u u m2 m1 cp2 cp1 d e); auto.
  pose proof (rate_pos _ _ _ _ _ G1). assert (0 < bH (u_b u)) by apply G1.
  apply Rmult_lt_compat_l; [assumption|]. apply Rinv_lt_contravar; nra.
Qed.
Print Assumptions C137_flow.

(** A longer borehole: a larger one. *)
Theorem C137_length : forall u1 u2 m cp d e,
  good_flow u1 m cp 1 None d e -> good_flow u2 m cp 1 None d e ->
  0 < m \/ (u_reversible u1 = true /\ u_reversible u2 = true) -> u_Rd u1 = u_Rd u2 ->
  bH (u_b u1) < bH (u_b u2) -> effective_R u1 m cp < effective_R u2 m cp.
Proof.
  intros u1 u2 m cp d e G1 G2 P E L. apply (eff_larger u1 u2 m m cp cp d e); auto; try (destruct P as [P|[P Q]]; auto).
  - pose proof (rate_pos _ _ _ _ _ G1). apply Rmult_lt_compat_r; [apply Rinv_0_lt_compat; assumption|exact L].
  - pose proof (rate_pos _ _ _ _ _ G1). apply Rmult_lt_compat_r; [apply Rinv_0_lt_compat; assumption|exact L].
Qed.
Print Assumptions C137_length.

(** All influences together: less flow per length, smaller conductances to the wall and
    a larger conductance between the legs do not lower the effective resistance. *)
Theorem C137_all : forall u1 u2 m1 m2 cp1 cp2 d1 e1 d2 e2,
  good_flow u1 m1 cp1 1 None d1 e1 -> good_flow u2 m2 cp2 1 None d2 e2 ->
  0 < m1 \/ u_reversible u1 = true -> 0 < m2 \/ u_reversible u2 = true ->
  bH (u_b u1) / (Rabs m1 * cp1) <= bH (u_b u2) / (Rabs m2 * cp2) ->
  cond u2 d2 d2 + cond u2 e2 e2 <= cond u1 d1 d1 + cond u1 e1 e1 ->
  0 <= cond u1 d1 e1 <= cond u2 d2 e2 ->
  effective_R u1 m1 cp1 <= effective_R u2 m2 cp2.
Proof. exact eff_monotone. Qed.
Print Assumptions C137_all.

(** It tends to the local one: with enough flow it is within any distance of it. *)
Theorem C137_limit : forall u d e eps, 0 < eps -> exists M0, 0 < M0 /\ forall m cp,
  good_flow u m cp 1 None d e -> 0 < m \/ u_reversible u = true -> M0 <= Rabs m * cp ->
  local_R (u_Rd u) < effective_R u m cp <= local_R (u_Rd u) + eps.
Proof.
  intros u d e eps He.
  set (s := cond u d d + cond u e e). set (w := sqrt (1/4 * s ^ 2 + cond u d e * s)).
  set (K := Rabs (1 / s) * (Rabs (bH (u_b u)) * w) / eps). exists (Rmax 1 K). split.
  { apply Rlt_le_trans with 1; [lra|apply Rmax_l]. }
  intros m cp G P L. destruct (C68_bounds u m cp d e G P) as [A B]. fold s in B. fold w in B. split; [exact A|].
  eapply Rle_trans; [exact B|]. pose proof (rate_pos _ _ _ _ _ G) as Mp.
  pose proof (proj2 (C68_effective u m cp d e G P)) as E. fold s in E. rewrite E.
  assert (S0 : 0 < s) by (destruct G as (_ & _ & [Cs _] & _); exact Cs).
  assert (HP : 0 < bH (u_b u)) by apply G. assert (W0 : 0 <= w) by apply sqrt_pos.
  assert (KL : K <= Rabs m * cp) by (eapply Rle_trans; [apply Rmax_r|exact L]).
  unfold K in KL. assert (I : 0 < 1 / s) by (apply Rdiv_lt_0_compat; lra).
  rewrite (Rabs_right (1 / s)), (Rabs_right (bH (u_b u))) in KL by lra.
  cut (1 / s * (bH (u_b u) / (Rabs m * cp) * w) <= eps); [lra|].
  apply Rmult_le_reg_r with (Rabs m * cp / eps); [apply Rdiv_lt_0_compat; assumption|].
  replace (eps * (Rabs m * cp / eps)) with (Rabs m * cp) by (field; lra).
  eapply Rle_trans; [|exact KL]. right. field. repeat split; try lra; intros Z; rewrite Z in Mp; lra.
Qed.
Print Assumptions C137_limit.

Definition long_tube : utube := mkutube (fun i j => if Nat.eqb i j then Res 1 else Res (1/4)) (Bore 200 4 (3/40) 0 0 0 0) false.
Lemma ex_flow m : 0 < m -> good_flow (ex_tube false) m 4000 1 None 0 1.
Proof. intros H. apply ex_tube_good; [left; repeat split; left; exact H|cbn; lia]. Qed.
Lemma long_flow m : 0 < m -> good_flow long_tube m 4000 1 None 0 1.
Proof.
  intros H. destruct (ex_flow m H) as (_ & B & C & D & _ & F).
  split; [left; repeat split; left; exact H|]. split; [exact B|]. split; [exact C|]. split; [exact D|]. split; [cbn; lra|exact F].
Qed.
Example C137_example : effective_R (ex_tube false) (1/2) 4000 < effective_R (ex_tube false) (1/4) 4000
  /\ effective_R (ex_tube false) (1/2) 4000 < effective_R long_tube (1/2) 4000
  /\ effective_R (ex_tube false) (1/2) 4000 = effective_R long_tube 1 4000.
Proof.
  split; [|split].
  - apply (C137_flow _ _ _ _ _ 0 1); [apply ex_flow; lra|apply ex_flow; lra|left; lra|left; lra|].
    rewrite !Rabs_right by lra. lra.
  - apply (C137_length _ _ _ _ 0 1); [apply ex_flow; lra|apply long_flow; lra|left; lra|reflexivity|cbn; lra].
  - apply Rle_antisym; apply (C137_all _ _ _ _ _ _ 0 1 0 1);
      try (apply ex_flow; lra); try (apply long_flow; lra); try (left; lra);
      try (rewrite !Rabs_right by lra; cbn; lra); unfold cond; cbn; lra.
Qed.

(** * C138 *)

(** More flow: more heat, and an outlet temperature nearer to that of the inlet; for any
    segments along the borehole, all at the temperature T. *)
Theorem C138_flow : forall u m1 m2 cp1 cp2 n r d e t T,
  good_flow u m1 cp1 n r d e -> good_flow u m2 cp2 n r d e ->
  0 < m1 \/ u_reversible u = true -> 0 < m2 \/ u_reversible u = true ->
  t <> T -> Rabs m1 * cp1 < Rabs m2 * cp2 ->
  Rabs (get_fluid_heat u t n (fun _ => T) m1 cp1 r) < Rabs (get_fluid_heat u t n (fun _ => T) m2 cp2 r) /\
  Rabs (get_outlet_temperature u t n (fun _ => T) m2 cp2 r - t)
  < Rabs (get_outlet_temperature u t n (fun _ => T) m1 cp1 r - t).
Proof.
  intros u m1 m2 cp1 cp2 n r d e t T G1 G2 P1 P2 N L.
  rewrite (uniform_heat u m1 cp1 n r d e t T G1), (uniform_heat u m2 cp2 n r d e t T G2),
    (uniform_outlet u m1 cp1 n r d e t T G1), (uniform_outlet u m2 cp2 n r d e t T G2).
  apply one_segment in G1. apply one_segment in G2. split.
  - apply (more_flow_heat u u m1 m2 cp1 cp2 d e t T); auto.
  - apply (closer_inlet u u m2 m1 cp2 cp1 d e t T); auto.
    pose proof (rate_pos _ _ _ _ _ G1). assert (0 < bH (u_b u)) by apply G1.
    apply Rmult_lt_compat_l; [assumption|]. apply Rinv_lt_contravar; nra.
Qed.
Print Assumptions C138_flow.

(** A longer borehole with the same resistances: more heat, and an outlet temperature
    nearer to that of the wall. *)
Theorem C138_length : forall u1 u2 m cp n1 r1 n2 r2 d e t T,
  good_flow u1 m cp n1 r1 d e -> good_flow u2 m cp n2 r2 d e ->
  0 < m \/ (u_reversible u1 = true /\ u_reversible u2 = true) -> u_Rd u1 = u_Rd u2 -> 0 <= cond u1 d e ->
  t <> T -> bH (u_b u1) < bH (u_b u2) ->
  Rabs (get_fluid_heat u1 t n1 (fun _ => T) m cp r1) < Rabs (get_fluid_heat u2 t n2 (fun _ => T) m cp r2) /\
  Rabs (get_outlet_temperature u2 t n2 (fun _ => T) m cp r2 - T)
  < Rabs (get_outlet_temperature u1 t n1 (fun _ => T) m cp r1 - T).
Proof.
  intros u1 u2 m cp n1 r1 n2 r2 d e t T G1 G2 P E C0 N L.
  assert (P1 : 0 < m \/ u_reversible u1 = true) by (destruct P as [P|[P Q]]; auto).
  assert (P2 : 0 < m \/ u_reversible u2 = true) by (destruct P as [P|[P Q]]; auto).
  rewrite (uniform_heat u1 m cp n1 r1 d e t T G1), (uniform_heat u2 m cp n2 r2 d e t T G2),
    (uniform_outlet u1 m cp n1 r1 d e t T G1), (uniform_outlet u2 m cp n2 r2 d e t T G2).
  apply one_segment in G1. apply one_segment in G2. split.
  - apply (longer_heat u1 u2 m m cp cp d e t T); auto.
  - apply (closer_wall u1 u2 m m cp cp d e t T); auto.
    pose proof (rate_pos _ _ _ _ _ G1). apply Rmult_lt_compat_r; [apply Rinv_0_lt_compat; assumption|exact L].
Qed.
Print Assumptions C138_length.

(** Reversing the flow of a reversible borehole with a symmetric circuit changes neither the
    outlet temperature nor the effective resistance. *)
Theorem C138_reversed : forall u m cp n r t T, 0 < m -> u_reversible u = true -> cond u 0 1 = cond u 1 0 ->
  good_flow u m cp n r 0 1 ->
  get_outlet_temperature u t n (fun _ => T) (- m) cp r = get_outlet_temperature u t n (fun _ => T) m cp r /\
  effective_R u (- m) cp = effective_R u m cp.
Proof.
  intros u m cp n r t T P V E G. assert (G1 := one_segment _ _ _ _ _ _ _ G).
  pose proof (reversed_flow u m cp G1 P V E) as G1'.
  assert (G' : good_flow u (- m) cp n r 1 0).
  { destruct G1' as (A & B & C & D & F & _). split; [exact A|]. split; [exact B|]. split; [exact C|]. split; [exact D|]. split; [exact F|].
    destruct G as (_ & _ & _ & _ & _ & Gr). exact Gr. }
  rewrite (uniform_outlet _ _ _ _ _ _ _ t T G'), (uniform_outlet _ _ _ _ _ _ _ t T G). split.
  - exact (reversed_out u m cp t T G1 P V E).
  - exact (reversed_R u m cp G1 P V E).
Qed.
Print Assumptions C138_reversed.

Example C138_example :
  Rabs (get_fluid_heat (ex_tube false) 5 1 (fun _ => 10) (1/4) 4000 None)
  < Rabs (get_fluid_heat (ex_tube false) 5 1 (fun _ => 10) (1/2) 4000 None)
  < Rabs (get_fluid_heat long_tube 5 1 (fun _ => 10) (1/2) 4000 None).
Proof.
  split.
  - apply (C138_flow (ex_tube false) (1/4) (1/2) 4000 4000 1 None 0 1 5 10); try (apply ex_flow; lra); try (left; lra); try lra.
    rewrite !Rabs_right by lra. lra.
  - apply (C138_length (ex_tube false) long_tube (1/2) 4000 1 None 1 None 0 1 5 10);
      [apply ex_flow; lra|apply long_flow; lra|left; lra|reflexivity|unfold cond; cbn; lra|lra|cbn; lra].
Qed.

Example C138_reversed_example : u_reversible (ex_tube true) = true /\ cond (ex_tube true) 0 1 = cond (ex_tube true) 1 0
  /\ good_flow (ex_tube true) (1/2) 4000 3 None 0 1.
Proof. split; [reflexivity|]. split; [reflexivity|]. apply ex_tube_good; [left; repeat split; left; lra|cbn; lia]. Qed.
