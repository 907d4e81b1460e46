(** Properties C165 and C166: the time steps of the load aggregation methods. *)
From Verif Require Import Base LoadAgg_Model LoadAgg_Spec TimeGrid_Model TimeGrid_Spec TimeGrid_Proofs Steps_Model Steps_Proofs.
From Verif Require Import LoadAgg_MLAA_Proofs LoadAgg_Liu_Proofs.

(** ** C165: the times asked for by MLAA and Liu are equally spaced, and are no
    more and no fewer than are needed to reach the horizon. *)
Theorem C165_times dt tmax : 0 < dt -> grid_of dt tmax (fun _ => 1) (sim_times dt tmax).
Proof. exact (sim_grid dt tmax). Qed.
Print Assumptions C165_times.

(** With a single level of cells ClaessonJaved asks for the same times. *)
Theorem C165_one_level f dt tmax cpl time : 0 < dt -> (1 <= cpl)%nat -> tmax <= INR cpl * dt ->
  time_ClaessonJaved f dt tmax cpl = Some time -> time = sim_times dt tmax.
Proof. intros Hd Hc H. exact (cj_one_level f dt tmax cpl time Hd Hc (proj1 (total_steps_least dt tmax cpl Hd) H)). Qed.
Print Assumptions C165_one_level.

(** Every simulation of which all steps begin before the horizon can be carried out. *)
Theorem C165_mlaa_runs nS dt tmax N0 N1 N2 N3 ops :
  0 < dt -> 0 < tmax -> (1 <= N0)%nat -> starts_with_step ops -> (INR (steps ops) - 1) * dt < tmax ->
  Forall (fun o => match o with Next => True | SetLoad q => length q = nS end) ops ->
  exists st, mlaa_run (mlaa_init nS (total_steps dt tmax) N0 N1 N2 N3) ops = Some st.
Proof. intros Hd Ht H0 Hs Hb. exact (mlaa_progress_lemma nS _ N0 N1 N2 N3 ops H0 Hs (begun dt tmax _ Hd Ht Hb)). Qed.
Print Assumptions C165_mlaa_runs.

Theorem C165_liu_runs nS dt tmax N1 N2 N3 W1 W2 W3 ops :
  0 < dt -> 0 < tmax ->
  (1 <= N1)%nat -> (1 <= N2)%nat -> (1 <= N3)%nat -> (1 <= W1)%nat -> (1 <= W2)%nat -> (1 <= W3)%nat ->
  starts_with_step ops -> (INR (steps ops) - 1) * dt < tmax ->
  Forall (fun o => match o with Next => True | SetLoad q => length q = nS end) ops ->
  exists st, liu_run (liu_init nS (total_steps dt tmax) N1 N2 N3 W1 W2 W3) ops = Some st.
Proof.
  intros Hd Ht H1 H2 H3 X1 X2 X3 Hs Hb.
  exact (liu_progress_lemma nS _ N1 N2 N3 W1 W2 W3 ops H1 H2 H3 X1 X2 X3 Hs (begun dt tmax _ Hd Ht Hb)).
Qed.
Print Assumptions C165_liu_runs.

(** The three methods give the same temperatures until the first of them aggregates. *)
Theorem C165_agree f dt tmax cpl time nS N0 N1 N2 N3 M1 M2 M3 W1 W2 W3 ops s1 s2 s3 (g : nat -> nat -> nat -> R) i :
  0 < dt -> 0 < tmax -> (1 <= cpl)%nat -> (1 <= N0)%nat -> (1 <= N1)%nat -> (1 <= N2)%nat -> (1 <= N3)%nat ->
  (1 <= M1)%nat -> (1 <= M2)%nat -> (1 <= M3)%nat -> (1 <= W1)%nat -> (1 <= W2)%nat -> (1 <= W3)%nat ->
  time_ClaessonJaved f dt tmax cpl = Some time -> starts_with_step ops -> (1 <= steps ops)%nat ->
  (INR (steps ops) - 1) * dt < tmax -> (steps ops <= cpl)%nat -> (steps ops <= N0)%nat -> (steps ops < M1 + W1)%nat ->
  cj_run (cj_init (cj_width_of dt time) nS) ops = Some s1 ->
  mlaa_run (mlaa_init nS (total_steps dt tmax) N0 N1 N2 N3) ops = Some s2 ->
  liu_run (liu_init nS (total_steps dt tmax) M1 M2 M3 W1 W2 W3) ops = Some s3 ->
  cj_superposition g s1 i = mlaa_superposition g s2 i /\ mlaa_superposition g s2 i = liu_superposition g s3 i.
Proof. exact (three_agree f dt tmax cpl time nS N0 N1 N2 N3 M1 M2 M3 W1 W2 W3 ops s1 s2 s3 g i). Qed.
Print Assumptions C165_agree.

(** Steps of 2 up to 5: three steps, the last one beyond the horizon. *)
Lemma steps_of_five : total_steps 2 5 = 3%nat.
Proof.
  apply Nat.le_antisymm; [apply total_steps_least; [lra|cbn [INR]; lra]|].
  destruct (le_lt_dec 3 (total_steps 2 5)) as [Y|Y]; [exact Y|]. exfalso.
  assert (Q : (total_steps 2 5 <= 2)%nat) by lia. apply total_steps_least in Q; [cbn [INR] in Q; lra|lra].
Qed.
Example C165_times_example : sim_times 2 5 = [2; 4; 6].
Proof. unfold sim_times. rewrite steps_of_five. cbn [seq map INR Nat.add]. repeat f_equal; ring. Qed.
Definition three_steps : list op := [Next; SetLoad [1]; Next; SetLoad [4]; Next; SetLoad [2]].
Lemma five_grid : time_ClaessonJaved 3 2 5 4 = Some [0 + 1 * 2; 0 + 1 * 2 + 1 * 2; 0 + 1 * 2 + 1 * 2 + 1 * 2].
Proof.
  unfold time_ClaessonJaved. cbn [cjt_loop].
  change (nceil 1 4 - 1)%nat with 0%nat. change (nceil 2 4 - 1)%nat with 0%nat. change (nceil 3 4 - 1)%nat with 0%nat. cbn [pow].
  rewrite (proj2 (Rltb_true 0 5)) by lra. rewrite (proj2 (Rltb_true (0 + 1 * 2) 5)) by lra.
  rewrite (proj2 (Rltb_true (0 + 1 * 2 + 1 * 2) 5)) by lra. rewrite (proj2 (Rltb_false (0 + 1 * 2 + 1 * 2 + 1 * 2) 5)) by lra. reflexivity.
Qed.
Example C165_example : (exists time, time_ClaessonJaved 3 2 5 4 = Some time
    /\ exists st, cj_run (cj_init (cj_width_of 2 time) 1) three_steps = Some st)
  /\ (exists st, mlaa_run (mlaa_init 1 (total_steps 2 5) 3 1 1 1) three_steps = Some st)
  /\ (exists st, liu_run (liu_init 1 (total_steps 2 5) 3 2 2 1 1 1) three_steps = Some st)
  /\ starts_with_step three_steps /\ steps three_steps = 3%nat /\ (INR (steps three_steps) - 1) * 2 < 5 /\ 5 <= INR 4 * 2.
Proof.
  rewrite steps_of_five. repeat split.
  - eexists. split; [exact five_grid|]. eexists. cbv -[Rplus Rminus Rmult Ropp Rinv Rdiv IZR INR]. reflexivity.
  - eexists. cbv -[Rplus Rminus Rmult Ropp Rinv Rdiv IZR INR]. reflexivity.
  - eexists. cbv -[Rplus Rminus Rmult Ropp Rinv Rdiv IZR INR]. reflexivity.
  - cbn [steps three_steps INR]. change (steps three_steps) with 3%nat. cbn [INR]. lra.
  - cbn [INR]. lra.
Qed.

(** ** C166: the unit of time. The times of all grids are proportional to it. *)
Theorem C166_cj c f dt tmax cpl : 0 < c -> (1 <= cpl)%nat ->
  time_ClaessonJaved f (c * dt) (c * tmax) cpl = option_map (map (Rmult c)) (time_ClaessonJaved f dt tmax cpl).
Proof. exact (cj_scale c f dt tmax cpl). Qed.
Print Assumptions C166_cj.

Theorem C166_mp c f dt tmax nec : 0 < c ->
  time_MarcottePasquier f (c * dt) (c * tmax) nec = option_map (map (Rmult c)) (time_MarcottePasquier f dt tmax nec).
Proof. exact (mp_scale c f dt tmax nec). Qed.
Print Assumptions C166_mp.

Theorem C166_geometric c f dt tmax Nt : 0 < c -> dt <> 0 ->
  time_geometric f (c * dt) (c * tmax) Nt = option_map (map (Rmult c)) (time_geometric f dt tmax Nt).
Proof. exact (geo_scale c f dt tmax Nt). Qed.
Print Assumptions C166_geometric.

Theorem C166_steps c dt tmax : 0 < c -> dt <> 0 -> sim_times (c * dt) (c * tmax) = map (Rmult c) (sim_times dt tmax).
Proof. exact (sim_scale c dt tmax). Qed.
Print Assumptions C166_steps.

(** The simulations themselves do not depend on it. *)
Theorem C166_simulation c f dt tmax cpl time nS ops : 0 < c -> 0 < dt -> (1 <= cpl)%nat ->
  time_ClaessonJaved f dt tmax cpl = Some time ->
  exists time', time_ClaessonJaved f (c * dt) (c * tmax) cpl = Some time'
  /\ cj_run (cj_init (cj_width_of (c * dt) time') nS) ops = cj_run (cj_init (cj_width_of dt time) nS) ops
  /\ (forall N0 N1 N2 N3, mlaa_run (mlaa_init nS (total_steps (c * dt) (c * tmax)) N0 N1 N2 N3) ops
        = mlaa_run (mlaa_init nS (total_steps dt tmax) N0 N1 N2 N3) ops)
  /\ (forall N1 N2 N3 W1 W2 W3, liu_run (liu_init nS (total_steps (c * dt) (c * tmax)) N1 N2 N3 W1 W2 W3) ops
        = liu_run (liu_init nS (total_steps dt tmax) N1 N2 N3 W1 W2 W3) ops).
Proof.
  intros Hc Hd Hp E. exists (map (Rmult c) time). rewrite cj_scale, E by assumption.
  rewrite width_scale, steps_scale by lra. repeat split.
Qed.
Print Assumptions C166_simulation.

(** A unit of time half as long. *)
Example C166_example : sim_times (2 * 2) (2 * 5) = [2 * 2; 2 * 4; 2 * 6].
Proof. rewrite C166_steps, C165_times_example by lra. reflexivity. Qed.
