(** Properties C01-C05 and C58 of the load aggregation schemes. *)
From Verif Require Import Base LoadAgg_Model LoadAgg_Spec LoadAgg_CJ_Proofs LoadAgg_MLAA_Proofs LoadAgg_Liu_Proofs.

(** A two-source simulation used as witness below. *)
Definition demo_ops : list op := [Next; SetLoad [3; 1]; Next; SetLoad [5; -2]; Next].
Definition demo_time : list R := [1; 2; 4; 6].

Lemma demo_good : good_times 1 demo_time.
Proof.
  split; [lra|]. split; [discriminate|].
  intros [|[|[|k]]] H; cbn in *; try lra; lia.
Qed.
Lemma demo_cj_runs : exists st, cj_run (cj_init (cj_width_of 1 demo_time) 2) demo_ops = Some st.
Proof. eexists; reflexivity. Qed.

(** ** C01: energy balance of ClaessonJaved, for every call sequence. *)
Theorem C01_cj_energy_balance dt time nS ops st s :
  good_times dt time ->
  cj_run (cj_init (cj_width_of dt time) nS) ops = Some st -> (s < nS)%nat ->
  energy (cj_width_of dt time) (nth s (cj_q st) []) + cj_expelled (cj_init (cj_width_of dt time) nS) s ops
  = Rsum (history s ops).
Proof. exact (cj_energy_lemma dt time nS ops st s). Qed.
Print Assumptions C01_cj_energy_balance.

Theorem C01_cj_no_loss dt time nS ops s :
  good_times dt time -> (s < nS)%nat -> (steps ops < length time)%nat ->
  forall st, cj_run (cj_init (cj_width_of dt time) nS) ops = Some st ->
  cj_expelled (cj_init (cj_width_of dt time) nS) s ops = 0.
Proof. exact (cj_no_loss_lemma dt time nS ops s). Qed.
Print Assumptions C01_cj_no_loss.

Example C01_example : good_times 1 demo_time /\ (steps demo_ops < length demo_time)%nat
  /\ (exists st, cj_run (cj_init (cj_width_of 1 demo_time) 2) demo_ops = Some st)
  /\ Rsum (history 0 demo_ops) = 8 /\ Rsum (history 1 demo_ops) = -1.
Proof.
  split; [exact demo_good|]. split; [cbn; lia|]. split; [exact demo_cj_runs|].
  split; cbn; lra.
Qed.

(** ** C58: ClaessonJaved also preserves the mean age of the load. *)
Theorem C58_cj_first_moment dt time nS ops st s :
  good_times dt time ->
  cj_run (cj_init (cj_width_of dt time) nS) ops = Some st -> (s < nS)%nat ->
  (steps ops < length time)%nat ->
  age_moment (cj_width_of dt time) (nth s (cj_q st) []) = history_moment (history s ops).
Proof. exact (cj_moment_lemma dt time nS ops st s). Qed.
Print Assumptions C58_cj_first_moment.

Example C58_example : history_moment (history 0 demo_ops) = 11.
Proof. unfold history_moment. cbn. lra. Qed.

(** ** C02: no aggregation (cells of one step) means exact superposition. *)
Theorem C02_cj_exact dt time nS ops st (g : nat -> nat -> nat -> R) m i :
  good_times dt time -> (m <= length time)%nat ->
  (forall k, (S k < m)%nat -> nth (S k) time 0 - nth k time 0 = dt) ->
  starts_with_step ops -> (steps ops <= m)%nat ->
  cj_run (cj_init (cj_width_of dt time) nS) ops = Some st ->
  cj_superposition g st i = sumn nS (fun j => superpose (g i j) (history j ops)).
Proof. exact (cj_exact_lemma dt time nS ops st g m i). Qed.
Print Assumptions C02_cj_exact.

Definition unit_time : list R := [1; 2; 3; 5].
Example C02_example : good_times 1 unit_time /\ (3 <= length unit_time)%nat
  /\ (forall k, (S k < 3)%nat -> nth (S k) unit_time 0 - nth k unit_time 0 = 1)
  /\ starts_with_step demo_ops /\ (steps demo_ops <= 3)%nat
  /\ (exists st, cj_run (cj_init (cj_width_of 1 unit_time) 2) demo_ops = Some st)
  /\ superpose (fun k => INR k) (history 0 demo_ops) = 8.
Proof.
  split.
  { split; [lra|]. split; [discriminate|]. intros [|[|[|k]]] H; cbn in *; try lra; lia. }
  split; [cbn; lia|]. split.
  { intros [|[|k]] H; cbn; try lra; lia. }
  split; [exact I|]. split; [cbn; lia|]. split; [eexists; reflexivity|].
  unfold superpose. cbn. lra.
Qed.

(** ** C03: maximum principle and superposition principle. *)
Theorem C03_cj_bounds dt time nS ops st lo hi s :
  good_times dt time -> (forall k, (S k < length time)%nat -> dt <= nth (S k) time 0 - nth k time 0) ->
  lo <= 0 <= hi -> Forall (load_in lo hi) ops ->
  cj_run (cj_init (cj_width_of dt time) nS) ops = Some st -> (s < nS)%nat ->
  forall k, lo <= nth k (nth s (cj_q st) []) 0 <= hi.
Proof. exact (cj_bounds_lemma dt time nS ops st lo hi s). Qed.
Print Assumptions C03_cj_bounds.

Theorem C03_cj_linear dt time nS a b ops1 ops2 ops3 st1 st2 (g : nat -> nat -> nat -> R) i :
  combine_ops a b ops1 ops2 = Some ops3 ->
  cj_run (cj_init (cj_width_of dt time) nS) ops1 = Some st1 ->
  cj_run (cj_init (cj_width_of dt time) nS) ops2 = Some st2 ->
  exists st3, cj_run (cj_init (cj_width_of dt time) nS) ops3 = Some st3
   /\ cj_superposition g st3 i = a * cj_superposition g st1 i + b * cj_superposition g st2 i.
Proof. exact (cj_linear_lemma dt time nS a b ops1 ops2 ops3 st1 st2 g i). Qed.
Print Assumptions C03_cj_linear.

Example C03_example : Forall (load_in (-2) 5) demo_ops
  /\ (forall k, (S k < length demo_time)%nat -> 1 <= nth (S k) demo_time 0 - nth k demo_time 0)
  /\ combine_ops 2 3 [Next; SetLoad [1]] [Next; SetLoad [4]] = Some [Next; SetLoad [2 * 1 + 3 * 4]].
Proof.
  split.
  { unfold demo_ops. repeat (apply Forall_cons || apply Forall_nil); cbn; try exact I;
      intros x H; repeat (destruct H as [<-|H]; [lra|]); contradiction. }
  split; [|reflexivity]. intros [|[|[|k]]] H; cbn in *; try lra; lia.
Qed.

(** ** C04: MLAA superposes the exact history with averaged blocks. *)
Theorem C04_mlaa_refines nS Nt N0 N1 N2 N3 ops st :
  (1 <= N0)%nat -> (1 <= N1)%nat -> (1 <= N2)%nat -> (1 <= N3)%nat ->
  mlaa_run (mlaa_init nS Nt N0 N1 N2 N3) ops = Some st -> (1 <= steps ops)%nat ->
  exists B4 B3 B2 B1 R0 : nat -> list R,
    (forall s, (s < nS)%nat ->
       ml_blocks N0 N1 N2 N3 (steps ops) (history s ops) (B4 s) (B3 s) (B2 s) (B1 s) (R0 s))
    /\ forall g i, mlaa_superposition g st i =
         sumn nS (fun s => superpose (g i s)
           (averaged (B4 s) ++ averaged (B3 s) ++ averaged (B2 s) ++ averaged (B1 s) ++ R0 s)).
Proof. exact (mlaa_lemma nS Nt N0 N1 N2 N3 ops st). Qed.
Print Assumptions C04_mlaa_refines.

Theorem C04_mlaa_energy nS Nt N0 N1 N2 N3 ops st i :
  (1 <= N0)%nat -> (1 <= N1)%nat -> (1 <= N2)%nat -> (1 <= N3)%nat ->
  mlaa_run (mlaa_init nS Nt N0 N1 N2 N3) ops = Some st -> (1 <= steps ops)%nat ->
  mlaa_superposition (fun _ _ k => INR (S k)) st i = sumn nS (fun s => Rsum (history s ops)).
Proof. exact (mlaa_total_lemma nS Nt N0 N1 N2 N3 ops st i). Qed.
Print Assumptions C04_mlaa_energy.

Theorem C04_mlaa_exact_when_short nS Nt N0 N1 N2 N3 ops st g i :
  (1 <= N0)%nat -> (1 <= N1)%nat -> (1 <= N2)%nat -> (1 <= N3)%nat ->
  mlaa_run (mlaa_init nS Nt N0 N1 N2 N3) ops = Some st -> starts_with_step ops ->
  (1 <= steps ops <= N0)%nat ->
  mlaa_superposition g st i = sumn nS (fun s => superpose (g i s) (history s ops)).
Proof. exact (mlaa_exact_lemma nS Nt N0 N1 N2 N3 ops st g i). Qed.
Print Assumptions C04_mlaa_exact_when_short.

Theorem C04_mlaa_runs nS Nt N0 N1 N2 N3 ops :
  (1 <= N0)%nat -> starts_with_step ops -> (steps ops <= Nt)%nat ->
  Forall (fun o => match o with Next => True | SetLoad q => length q = nS end) ops ->
  exists st, mlaa_run (mlaa_init nS Nt N0 N1 N2 N3) ops = Some st.
Proof. exact (mlaa_progress_lemma nS Nt N0 N1 N2 N3 ops). Qed.
Print Assumptions C04_mlaa_runs.

Example C04_example : exists st, mlaa_run (mlaa_init 2 10 1 1 1 1) demo_ops = Some st.
Proof. eexists. cbv -[Rplus Rminus Rmult Ropp Rinv Rdiv IZR INR]. reflexivity. Qed.

(** ** C05: Liu's scheme, all waiting periods at least one. *)
Theorem C05_liu_refines_partial nS Nt N1 N2 N3 W1 W2 W3 ops st :
  (1 <= N1)%nat -> (1 <= N2)%nat -> (1 <= N3)%nat -> (1 <= W1)%nat -> (1 <= W2)%nat -> (1 <= W3)%nat ->
  liu_run (liu_init nS Nt N1 N2 N3 W1 W2 W3) ops = Some st -> starts_with_step ops -> (1 <= steps ops)%nat ->
  exists (Ls Ms Ss : nat -> list (list R)) (R0 : nat -> list R),
    (forall s, (s < nS)%nat ->
       liu_blocks N1 N2 N3 W1 W2 W3 (history s ops) (Ls s) (Ms s) (Ss s) (R0 s))
    /\ forall g i, liu_superposition g st i =
         sumn nS (fun s => superpose (g i s)
           (concat (map averaged (Ls s)) ++ concat (map averaged (Ms s)) ++ concat (map averaged (Ss s)) ++ R0 s)).
Proof. exact (liu_lemma nS Nt N1 N2 N3 W1 W2 W3 ops st). Qed.
Print Assumptions C05_liu_refines_partial.

Theorem C05_liu_energy_partial nS Nt N1 N2 N3 W1 W2 W3 ops st i :
  (1 <= N1)%nat -> (1 <= N2)%nat -> (1 <= N3)%nat -> (1 <= W1)%nat -> (1 <= W2)%nat -> (1 <= W3)%nat ->
  liu_run (liu_init nS Nt N1 N2 N3 W1 W2 W3) ops = Some st -> starts_with_step ops -> (1 <= steps ops)%nat ->
  liu_superposition (fun _ _ k => INR (S k)) st i = sumn nS (fun s => Rsum (history s ops)).
Proof. exact (liu_total_lemma nS Nt N1 N2 N3 W1 W2 W3 ops st i). Qed.
Print Assumptions C05_liu_energy_partial.

Theorem C05_liu_exact_when_short nS Nt N1 N2 N3 W1 W2 W3 ops st g i :
  (1 <= N1)%nat -> (1 <= N2)%nat -> (1 <= N3)%nat -> (1 <= W1)%nat -> (1 <= W2)%nat -> (1 <= W3)%nat ->
  liu_run (liu_init nS Nt N1 N2 N3 W1 W2 W3) ops = Some st -> starts_with_step ops ->
  (1 <= steps ops < N1 + W1)%nat ->
  liu_superposition g st i = sumn nS (fun s => superpose (g i s) (history s ops)).
Proof. exact (liu_exact_lemma nS Nt N1 N2 N3 W1 W2 W3 ops st g i). Qed.
Print Assumptions C05_liu_exact_when_short.

Theorem C05_liu_runs nS Nt N1 N2 N3 W1 W2 W3 ops :
  (1 <= N1)%nat -> (1 <= N2)%nat -> (1 <= N3)%nat -> (1 <= W1)%nat -> (1 <= W2)%nat -> (1 <= W3)%nat ->
  starts_with_step ops -> (steps ops <= Nt)%nat ->
  Forall (fun o => match o with Next => True | SetLoad q => length q = nS end) ops ->
  exists st, liu_run (liu_init nS Nt N1 N2 N3 W1 W2 W3) ops = Some st.
Proof. exact (liu_progress_lemma nS Nt N1 N2 N3 W1 W2 W3 ops). Qed.
Print Assumptions C05_liu_runs.

Example C05_example : exists st, liu_run (liu_init 2 10 1 2 2 1 1 1) demo_ops = Some st
  /\ li_n1 st = 2%nat.
Proof. eexists. split; [cbv -[Rplus Rminus Rmult Ropp Rinv Rdiv IZR INR]|]; reflexivity. Qed.

(** With a zero waiting period the claim is false: with W1 = 0 a load set in the
    first step is lost at the second; with W2 = 0 the superposition counts
    stale cell values. *)
Theorem C05_liu_no_wait_W1_refuted :
  exists ops st, starts_with_step ops
  /\ liu_run (liu_init 1 10 1 2 2 0 1 1) ops = Some st
  /\ liu_superposition (fun _ _ k => INR (S k)) st 0 <> sumn 1 (fun s => Rsum (history s ops)).
Proof.
  exists [Next; SetLoad [1]; Next]. eexists. split; [exact I|].
  split; [cbv -[Rplus Rminus Rmult Ropp Rinv Rdiv IZR INR]; reflexivity|].
  cbv -[Rplus Rminus Rmult Ropp Rinv Rdiv IZR INR]. simpl INR. lra.
Qed.
Print Assumptions C05_liu_no_wait_W1_refuted.

Theorem C05_liu_no_wait_W2_refuted :
  exists ops st, starts_with_step ops
  /\ liu_run (liu_init 1 10 1 2 2 1 0 1) ops = Some st
  /\ liu_superposition (fun _ _ k => INR (S k)) st 0 <> sumn 1 (fun s => Rsum (history s ops)).
Proof.
  exists [Next; SetLoad [1]; Next; SetLoad [0]; Next]. eexists. split; [exact I|].
  split; [cbv -[Rplus Rminus Rmult Ropp Rinv Rdiv IZR INR]; reflexivity|].
  cbv -[Rplus Rminus Rmult Ropp Rinv Rdiv IZR INR]. simpl INR. lra.
Qed.
Print Assumptions C05_liu_no_wait_W2_refuted.
