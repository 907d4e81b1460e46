(** Property C163: the horizon of a simulation. *)
From Verif Require Import Base LoadAgg_Model LoadAgg_Spec TimeGrid_Model TimeGrid_Spec TimeGrid_Proofs Agg_Spec Horizon_Proofs.

(** ** C163: a longer horizon changes nothing. *)
Theorem C163_mlaa nS Nt Nt' N0 N1 N2 N3 ops st : (Nt <= Nt')%nat ->
  mlaa_run (mlaa_init nS Nt N0 N1 N2 N3) ops = Some st ->
  exists st', mlaa_run (mlaa_init nS Nt' N0 N1 N2 N3) ops = Some st'
  /\ forall g i, mlaa_superposition g st' i = mlaa_superposition g st i.
Proof. exact (mlaa_horizon nS Nt Nt' N0 N1 N2 N3 ops st). Qed.
Print Assumptions C163_mlaa.

Theorem C163_liu nS Nt Nt' N1 N2 N3 W1 W2 W3 ops st :
  (1 <= N1)%nat -> (1 <= N2)%nat -> (1 <= N3)%nat -> (1 <= W1)%nat -> (1 <= W2)%nat -> (1 <= W3)%nat -> (Nt <= Nt')%nat ->
  liu_run (liu_init nS Nt N1 N2 N3 W1 W2 W3) ops = Some st -> starts_with_step ops -> (1 <= steps ops)%nat ->
  exists st', liu_run (liu_init nS Nt' N1 N2 N3 W1 W2 W3) ops = Some st'
  /\ forall g i, liu_superposition g st' i = liu_superposition g st i.
Proof. exact (liu_horizon nS Nt Nt' N1 N2 N3 W1 W2 W3 ops st). Qed.
Print Assumptions C163_liu.

(** ClaessonJaved, while there are no more time steps than cells: the cells of
    the shorter horizon come first among those of the longer one, and the
    answers are the same. *)
Theorem C163_cj f1 f2 dt tmax1 tmax2 cpl time1 time2 nS ops st :
  0 < dt -> 0 < tmax1 <= tmax2 -> (1 <= cpl)%nat ->
  time_ClaessonJaved f1 dt tmax1 cpl = Some time1 -> time_ClaessonJaved f2 dt tmax2 cpl = Some time2 ->
  cj_run (cj_init (cj_width_of dt time1) nS) ops = Some st -> starts_with_step ops -> (steps ops <= length time1)%nat ->
  (exists more, time2 = time1 ++ more)
  /\ exists st', cj_run (cj_init (cj_width_of dt time2) nS) ops = Some st' /\ forall g i, cj_superposition g st' i = cj_superposition g st i.
Proof. exact (cj_horizon f1 f2 dt tmax1 tmax2 cpl time1 time2 nS ops st). Qed.
Print Assumptions C163_cj.

(** Beyond, under loads that are never negative, the shorter horizon gives the smaller answers. *)
Theorem C163_cj_below f1 f2 dt tmax1 tmax2 cpl time1 time2 nS ops st hi (g : nat -> nat -> nat -> R) i :
  0 < dt -> 0 < tmax1 <= tmax2 -> (1 <= cpl)%nat ->
  time_ClaessonJaved f1 dt tmax1 cpl = Some time1 -> time_ClaessonJaved f2 dt tmax2 cpl = Some time2 ->
  cj_run (cj_init (cj_width_of dt time1) nS) ops = Some st -> 0 <= hi -> Forall (load_in 0 hi) ops ->
  (forall j, (j < nS)%nat -> grows (g i j)) ->
  exists st', cj_run (cj_init (cj_width_of dt time2) nS) ops = Some st' /\ cj_superposition g st i <= cj_superposition g st' i.
Proof. exact (cj_horizon_below f1 f2 dt tmax1 tmax2 cpl time1 time2 nS ops st hi g i). Qed.
Print Assumptions C163_cj_below.

(** Grids of one cell per level for three and for four time steps. *)
Lemma grid_of_three : grid_of 1 3 (cj_steps 1) [1; 3].
Proof.
  split; [|split; [|split]].
  - intros k Hk. cbn [length] in Hk. unfold cj_steps. do 2 (destruct k as [|k]; [cbn; lra|]). lia.
  - intros k Hk. cbn [length] in Hk. destruct k as [|k]; [cbn; lra|]. lia.
  - intros _. split; [discriminate|cbn; lra].
  - intros; lra.
Qed.
Lemma grid_of_four : grid_of 1 4 (cj_steps 1) [1; 3; 7].
Proof.
  split; [|split; [|split]].
  - intros k Hk. cbn [length] in Hk. unfold cj_steps. do 3 (destruct k as [|k]; [cbn; lra|]). lia.
  - intros k Hk. cbn [length] in Hk. do 2 (destruct k as [|k]; [cbn; lra|]). lia.
  - intros _. split; [discriminate|cbn; lra].
  - intros; lra.
Qed.
Lemma times_of tmax r : grid_of 1 tmax (cj_steps 1) r -> exists f, time_ClaessonJaved f 1 tmax 1 = Some r.
Proof.
  intros G. destruct (cjt_main 1 tmax 1 ltac:(lra) ltac:(lia)) as (r' & G' & (n & H) & _). exists n. rewrite (H n) by lia. f_equal.
  apply (grid_unique 1 tmax (cj_steps 1)); auto; [lra|]. intros. apply cj_steps_ge1.
Qed.

(** Within the horizon, but with more steps than cells, load has already left the last cell. *)
Theorem C163_cj_refuted : exists f1 f2 time1 time2 ops st1 st2,
  time_ClaessonJaved f1 1 3 1 = Some time1 /\ time_ClaessonJaved f2 1 4 1 = Some time2
  /\ starts_with_step ops /\ INR (steps ops) * 1 <= 3
  /\ cj_run (cj_init (cj_width_of 1 time1) 1) ops = Some st1 /\ cj_run (cj_init (cj_width_of 1 time2) 1) ops = Some st2
  /\ grows (levelling 7) /\ cj_superposition (fun _ _ => levelling 7) st1 0 < cj_superposition (fun _ _ => levelling 7) st2 0.
Proof.
  destruct (times_of 3 _ grid_of_three) as (f1 & T1). destruct (times_of 4 _ grid_of_four) as (f2 & T2).
  exists f1, f2, [1; 3], [1; 3; 7], [Next; SetLoad [1]; Next; Next]. do 2 eexists. split; [exact T1|]. split; [exact T2|].
  split; [exact I|]. split; [cbn; lra|]. split; [reflexivity|]. split; [reflexivity|]. split.
  { split; unfold levelling; [cbn; apply Rmin_glb; lra|]. intros k. apply Rle_min_compat_r. apply le_INR. lia. }
  assert (L : forall k, (k < 7)%nat -> levelling 7 k = INR (S k)).
  { intros k H. apply Rmin_left. replace 7 with (INR 7) by (cbn; lra). apply le_INR. lia. }
  unfold cj_superposition, cj_dg, cj_init, cj_width_of, cj_row_next, cj_A. cbn -[levelling INR]. rewrite !L by lia. cbn [INR]. lra.
Qed.
Print Assumptions C163_cj_refuted.

Example C163_example : (exists f, time_ClaessonJaved f 1 3 1 = Some [1; 3]) /\ (exists f, time_ClaessonJaved f 1 4 1 = Some [1; 3; 7])
  /\ (exists st, cj_run (cj_init (cj_width_of 1 [1; 3]) 2) [Next; SetLoad [3; 1]; Next] = Some st)
  /\ (exists st, mlaa_run (mlaa_init 1 4 1 1 1 1) [Next; SetLoad [3]; Next; Next; SetLoad [2]; Next] = Some st /\ ml_n2 st = 1%nat)
  /\ (exists st, liu_run (liu_init 1 4 1 2 1 1 1 1) [Next; SetLoad [3]; Next; Next; SetLoad [2]; Next] = Some st /\ li_n2 st = 1%nat).
Proof.
  split; [exact (times_of 3 _ grid_of_three)|]. split; [exact (times_of 4 _ grid_of_four)|]. split; [eexists; reflexivity|].
  split; eexists; (split; [cbv -[Rplus Rminus Rmult Ropp Rinv Rdiv IZR INR]; reflexivity|reflexivity]).
Qed.
