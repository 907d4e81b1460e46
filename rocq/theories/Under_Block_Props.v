(** Sign of the error of the load aggregations that average blocks of loads: C135, C136. *)
From Verif Require Import Base LoadAgg_Model LoadAgg_Spec Under_Spec Under_Proofs Under_Block_Proofs Under_Props.

(** * C135: MLAA *)

(** Loads that never decrease, of any sign: not above the exact superposition. *)
Theorem C135_not_above : forall dt nS Nt N0 N1 N2 N3 ops st (g : nat -> nat -> R -> R) i,
  (1 <= N0)%nat -> (1 <= N1)%nat -> (1 <= N2)%nat -> (1 <= N3)%nat ->
  mlaa_run (mlaa_init nS Nt N0 N1 N2 N3) ops = Some st -> (1 <= steps ops)%nat ->
  (forall j, (j < nS)%nat -> slowing dt (g i j)) ->
  (forall j, (j < nS)%nat -> rising (history j ops)) ->
  mlaa_superposition (fun i j k => g i j (INR (S k) * dt)) st i
  <= sumn nS (fun j => superpose (fun k => g i j (INR (S k) * dt)) (history j ops)).
Proof. exact mlaa_under. Qed.
Print Assumptions C135_not_above.

(** Loads that never increase: not below it. *)
Theorem C135_not_below : forall dt nS Nt N0 N1 N2 N3 ops st (g : nat -> nat -> R -> R) i,
  (1 <= N0)%nat -> (1 <= N1)%nat -> (1 <= N2)%nat -> (1 <= N3)%nat ->
  mlaa_run (mlaa_init nS Nt N0 N1 N2 N3) ops = Some st -> (1 <= steps ops)%nat ->
  (forall j, (j < nS)%nat -> slowing dt (g i j)) ->
  (forall j, (j < nS)%nat -> falling (history j ops)) ->
  sumn nS (fun j => superpose (fun k => g i j (INR (S k) * dt)) (history j ops))
  <= mlaa_superposition (fun i j k => g i j (INR (S k) * dt)) st i.
Proof. exact mlaa_over. Qed.
Print Assumptions C135_not_below.

(** Constant loads: exact, for any thermal response. *)
Theorem C135_constant : forall nS Nt N0 N1 N2 N3 ops st g i (q : nat -> R),
  (1 <= N0)%nat -> (1 <= N1)%nat -> (1 <= N2)%nat -> (1 <= N3)%nat ->
  mlaa_run (mlaa_init nS Nt N0 N1 N2 N3) ops = Some st -> (1 <= steps ops)%nat ->
  (forall j, (j < nS)%nat -> Forall (eq (q j)) (history j ops)) ->
  mlaa_superposition g st i = sumn nS (fun j => superpose (g i j) (history j ops)).
Proof. exact mlaa_steady. Qed.
Print Assumptions C135_constant.

(** Four steps of growing loads, extraction turning into injection: the aggregation is strictly below. *)
Definition growing_ops : list op := [Next; SetLoad [-1]; Next; SetLoad [0]; Next; SetLoad [2]; Next; SetLoad [3]].
Lemma growing_rising : rising (history 0 growing_ops).
Proof. intros [|[|[|m]]] L; cbn in *; try lra. lia. Qed.

Example C135_example : slowing 1 slow_response /\ rising (history 0 growing_ops) /\
  exists st, mlaa_run (mlaa_init 1 10 1 2 1 1) growing_ops = Some st /\
  mlaa_superposition (fun _ _ k => slow_response (INR (S k) * 1)) st 0
  < superpose (fun k => slow_response (INR (S k) * 1)) (history 0 growing_ops).
Proof.
  split; [exact slow_response_slowing|]. split; [exact growing_rising|].
  eexists. split; [cbv -[Rplus Rminus Rmult Ropp Rinv Rdiv IZR INR]; reflexivity|].
  cbv -[Rplus Rminus Rmult Ropp Rinv Rdiv IZR INR Rlt]. simpl INR. lra.
Qed.

(** * C136: Liu *)
Theorem C136_not_above : forall dt nS Nt N1 N2 N3 W1 W2 W3 ops st (g : nat -> nat -> R -> R) i,
  (1 <= N1)%nat -> (1 <= N2)%nat -> (1 <= N3)%nat -> (1 <= W1)%nat -> (1 <= W2)%nat -> (1 <= W3)%nat ->
  liu_run (liu_init nS Nt N1 N2 N3 W1 W2 W3) ops = Some st -> starts_with_step ops -> (1 <= steps ops)%nat ->
  (forall j, (j < nS)%nat -> slowing dt (g i j)) ->
  (forall j, (j < nS)%nat -> rising (history j ops)) ->
  liu_superposition (fun i j k => g i j (INR (S k) * dt)) st i
  <= sumn nS (fun j => superpose (fun k => g i j (INR (S k) * dt)) (history j ops)).
Proof. exact liu_under. Qed.
Print Assumptions C136_not_above.

Theorem C136_not_below : forall dt nS Nt N1 N2 N3 W1 W2 W3 ops st (g : nat -> nat -> R -> R) i,
  (1 <= N1)%nat -> (1 <= N2)%nat -> (1 <= N3)%nat -> (1 <= W1)%nat -> (1 <= W2)%nat -> (1 <= W3)%nat ->
  liu_run (liu_init nS Nt N1 N2 N3 W1 W2 W3) ops = Some st -> starts_with_step ops -> (1 <= steps ops)%nat ->
  (forall j, (j < nS)%nat -> slowing dt (g i j)) ->
  (forall j, (j < nS)%nat -> falling (history j ops)) ->
  sumn nS (fun j => superpose (fun k => g i j (INR (S k) * dt)) (history j ops))
  <= liu_superposition (fun i j k => g i j (INR (S k) * dt)) st i.
Proof. exact liu_over. Qed.
Print Assumptions C136_not_below.

Theorem C136_constant : forall nS Nt N1 N2 N3 W1 W2 W3 ops st g i (q : nat -> R),
  (1 <= N1)%nat -> (1 <= N2)%nat -> (1 <= N3)%nat -> (1 <= W1)%nat -> (1 <= W2)%nat -> (1 <= W3)%nat ->
  liu_run (liu_init nS Nt N1 N2 N3 W1 W2 W3) ops = Some st -> starts_with_step ops -> (1 <= steps ops)%nat ->
  (forall j, (j < nS)%nat -> Forall (eq (q j)) (history j ops)) ->
  liu_superposition g st i = sumn nS (fun j => superpose (g i j) (history j ops)).
Proof. exact liu_steady. Qed.
Print Assumptions C136_constant.

Example C136_example : slowing 1 slow_response /\ rising (history 0 growing_ops) /\
  exists st, liu_run (liu_init 1 10 2 2 2 1 1 1) growing_ops = Some st /\
  liu_superposition (fun _ _ k => slow_response (INR (S k) * 1)) st 0
  < superpose (fun k => slow_response (INR (S k) * 1)) (history 0 growing_ops).
Proof.
  split; [exact slow_response_slowing|]. split; [exact growing_rising|].
  eexists. split; [cbv -[Rplus Rminus Rmult Ropp Rinv Rdiv IZR INR]; reflexivity|].
  cbv -[Rplus Rminus Rmult Ropp Rinv Rdiv IZR INR Rlt]. simpl INR. lra.
Qed.

(** With a zero waiting period of the Liu scheme constant loads are overestimated already. *)
Theorem C136_no_wait_refuted : exists ops st, starts_with_step ops /\
  liu_run (liu_init 1 10 1 2 2 0 1 1) ops = Some st /\ slowing 1 slow_response /\
  Forall (eq 1) (history 0 ops) /\
  superpose (fun k => slow_response (INR (S k) * 1)) (history 0 ops)
  < liu_superposition (fun _ _ k => slow_response (INR (S k) * 1)) st 0.
Proof.
  exists [Next; SetLoad [1]; Next; SetLoad [1]]. eexists. split; [exact I|]. split; [cbv -[Rplus Rminus Rmult Ropp Rinv Rdiv IZR INR]; reflexivity|].
  split; [exact slow_response_slowing|]. split; [cbn; repeat constructor; reflexivity|].
  cbv -[Rplus Rminus Rmult Ropp Rinv Rdiv IZR INR Rlt]. simpl INR. lra.
Qed.
Print Assumptions C136_no_wait_refuted.
