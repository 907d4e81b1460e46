(** Property C168: aggregated temperatures and temporal superposition. *)
From Verif Require Import Base LoadAgg_Model LoadAgg_Spec Agg_Spec TimeGrid_Model TimeGrid_Spec TimeGrid_Proofs Blur_Proofs.

(** ** C168: loads of the latest steps count exactly. What is older is blurred,
    with an effect of at most the range of the loads times the growth of the
    response beyond these steps. *)
Theorem C168_mlaa nS Nt N0 N1 N2 N3 ops st (g : nat -> nat -> nat -> R) i (lo hi : nat -> R) :
  (1 <= N0)%nat -> (1 <= N1)%nat -> (1 <= N2)%nat -> (1 <= N3)%nat ->
  mlaa_run (mlaa_init nS Nt N0 N1 N2 N3) ops = Some st -> (N0 <= steps ops)%nat ->
  (forall j, (j < nS)%nat -> grows (g i j)) ->
  (forall j, (j < nS)%nat -> Forall (fun x => lo j <= x <= hi j) (history j ops)) ->
  Rabs (mlaa_superposition g st i - sumn nS (fun j => superpose (g i j) (history j ops)))
  <= sumn nS (fun j => (hi j - lo j) * (g i j (steps ops - 1)%nat - g i j (N0 - 1)%nat)).
Proof. exact (mlaa_blur nS Nt N0 N1 N2 N3 ops st g i lo hi). Qed.
Print Assumptions C168_mlaa.

Theorem C168_liu nS Nt N1 N2 N3 W1 W2 W3 ops st (g : nat -> nat -> nat -> R) i (lo hi : nat -> R) :
  (1 <= N1)%nat -> (1 <= N2)%nat -> (1 <= N3)%nat -> (1 <= W1)%nat -> (1 <= W2)%nat -> (1 <= W3)%nat ->
  liu_run (liu_init nS Nt N1 N2 N3 W1 W2 W3) ops = Some st -> starts_with_step ops -> (W1 <= steps ops)%nat ->
  (forall j, (j < nS)%nat -> grows (g i j)) ->
  (forall j, (j < nS)%nat -> Forall (fun x => lo j <= x <= hi j) (history j ops)) ->
  Rabs (liu_superposition g st i - sumn nS (fun j => superpose (g i j) (history j ops)))
  <= sumn nS (fun j => (hi j - lo j) * (g i j (steps ops - 1)%nat - g i j (W1 - 1)%nat)).
Proof. exact (liu_blur nS Nt N1 N2 N3 W1 W2 W3 ops st g i lo hi). Qed.
Print Assumptions C168_liu.

(** ClaessonJaved: the steps of the first level of cells. *)
Theorem C168_cj f dt tmax cpl time nS ops st (g : nat -> nat -> R -> R) i lo hi :
  0 < dt -> 0 < tmax -> (1 <= cpl)%nat -> time_ClaessonJaved f dt tmax cpl = Some time -> (cpl <= length time)%nat ->
  cj_run (cj_init (cj_width_of dt time) nS) ops = Some st -> lo <= 0 <= hi -> Forall (load_in lo hi) ops ->
  starts_with_step ops -> INR (steps ops) * dt <= last time 0 ->
  (forall j, (j < nS)%nat -> forall s t, 0 < s <= t -> g i j s <= g i j t) ->
  Rabs (cj_superposition (fun i j k => g i j (nth k time 0)) st i
        - sumn nS (fun j => superpose (fun k => g i j (INR (S k) * dt)) (history j ops)))
  <= sumn nS (fun j => (hi - lo) * (g i j (last time 0) - g i j (INR cpl * dt))).
Proof. exact (cj_blur f dt tmax cpl time nS ops st g i lo hi). Qed.
Print Assumptions C168_cj.

(** Four steps with loads between 0 and 6, the response growing by one every
    step: MLAA keeps the last load and blurs the others. *)
Definition four_loads : list op := [Next; SetLoad [6]; Next; SetLoad [0]; Next; SetLoad [3]; Next; SetLoad [2]].
Definition by_one (i j k : nat) : R := INR (S k).
Lemma by_one_grows i j : grows (by_one i j).
Proof. split; [unfold by_one; cbn; lra|]. intros k. unfold by_one. rewrite !S_INR. lra. Qed.
Lemma four_between : Forall (fun x => 0 <= x <= 6) (history 0 four_loads).
Proof. cbv [history four_loads fold_left hist_step app removelast nth]. repeat constructor; lra. Qed.
Example C168_mlaa_example : exists st, mlaa_run (mlaa_init 1 10 1 1 1 1) four_loads = Some st
  /\ (1 <= steps four_loads)%nat /\ grows (by_one 0 0) /\ Forall (fun x => 0 <= x <= 6) (history 0 four_loads).
Proof.
  eexists. split; [cbv -[Rplus Rminus Rmult Ropp Rinv Rdiv IZR INR]; reflexivity|]. split; [cbn; lia|].
  split; [apply by_one_grows|apply four_between].
Qed.
Example C168_liu_example : exists st, liu_run (liu_init 1 10 2 2 2 1 1 1) four_loads = Some st
  /\ starts_with_step four_loads /\ (1 <= steps four_loads)%nat.
Proof. eexists. split; [cbv -[Rplus Rminus Rmult Ropp Rinv Rdiv IZR INR]; reflexivity|]. split; [exact I|cbn; lia]. Qed.

Lemma seven_grid : time_ClaessonJaved 3 1 4 1 = Some [0 + 1 * 1; 0 + 1 * 1 + 2 * 1 * 1; 0 + 1 * 1 + 2 * 1 * 1 + 2 * (2 * 1) * 1].
Proof.
  unfold time_ClaessonJaved. cbn [cjt_loop].
  change (nceil 1 1 - 1)%nat with 0%nat. change (nceil 2 1 - 1)%nat with 1%nat. change (nceil 3 1 - 1)%nat with 2%nat. cbn [pow].
  rewrite (proj2 (Rltb_true 0 4)) by lra. rewrite (proj2 (Rltb_true (0 + 1 * 1) 4)) by lra.
  rewrite (proj2 (Rltb_true (0 + 1 * 1 + 2 * 1 * 1) 4)) by lra. rewrite (proj2 (Rltb_false (0 + 1 * 1 + 2 * 1 * 1 + 2 * (2 * 1) * 1) 4)) by lra. reflexivity.
Qed.
Example C168_cj_example : exists time st, time_ClaessonJaved 3 1 4 1 = Some time /\ (1 <= length time)%nat
  /\ cj_run (cj_init (cj_width_of 1 time) 1) four_loads = Some st /\ Forall (load_in 0 6) four_loads
  /\ starts_with_step four_loads /\ INR (steps four_loads) * 1 <= last time 0.
Proof.
  do 2 eexists. split; [exact seven_grid|]. split; [cbn; lia|].
  split; [cbv -[Rplus Rminus Rmult Ropp Rinv Rdiv IZR INR]; reflexivity|].
  split; [|split; [exact I|cbn [steps four_loads INR last]; change (steps four_loads) with 4%nat; cbn [INR]; lra]].
  repeat constructor; cbn in *; intuition (subst; lra).
Qed.
