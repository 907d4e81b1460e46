(** Sign of the error of the load aggregation of Claesson and Javed: C133, C134. *)
From Coq Require Import String Reals Lra Lia List Sorted.
From Verif Require Import Base LinAlg FLS_Model.
From Verif Require Import LoadAgg_Model LoadAgg_Spec TimeGrid_Model TimeGrid_Spec Under_Spec Under_Proofs Under_Fls_Proofs Under_Main_Proofs.
From Verif Require Import Bore_Model Bore_Spec Field_Model Net_Model Eq_Model GFun_Model Whole_Model.
Import ListNotations.
Local Open Scope R_scope.

(** * C133 *)

(** Under loads that never decrease the aggregated superposition is at most the exact one,
    if the responses slow down; for any number of sources and steps, also beyond tmax. *)
Theorem C133_not_above : forall dt tmax cpl f time nS ops st (g : nat -> nat -> R -> R) i,
  0 < dt -> 0 < tmax -> (1 <= cpl)%nat -> time_ClaessonJaved f dt tmax cpl = Some time ->
  (forall j, (j < nS)%nat -> slowing dt (g i j)) ->
  (forall j, (j < nS)%nat -> never_decreasing (history j ops)) ->
  cj_run (cj_init (cj_width_of dt time) nS) ops = Some st ->
  cj_superposition (fun i j k => g i j (nth k time 0)) st i
  <= sumn nS (fun j => superpose (fun k => g i j (INR (S k) * dt)) (history j ops)).
Proof. exact cj_under. Qed.
Print Assumptions C133_not_above.

(** Three steps of a constant load with the response t / (t + 1). *)
Definition steady_ops : list op := [Next; SetLoad [1]; Next; SetLoad [1]; Next; SetLoad [1]].
Definition slow_response (t : R) : R := t / (t + 1).

Lemma slow_response_slowing : slowing 1 slow_response.
Proof.
  intros k. assert (K : 0 <= INR k) by apply pos_INR.
  assert (E : forall j, rise 1 slow_response j = / ((INR j + 1) * (INR j + 2))).
  { intros [|j]; unfold rise, slow_response.
    - cbn. field.
    - rewrite !S_INR. assert (0 <= INR j) by apply pos_INR. field. repeat split; lra. }
  rewrite !E, S_INR. split.
  - left. apply Rinv_0_lt_compat. nra.
  - apply Rinv_le_contravar; nra.
Qed.

Example C133_example :
  (exists f, time_ClaessonJaved f 1 5 1 = Some [1; 3; 7]) /\ slowing 1 slow_response /\ never_decreasing (history 0 steady_ops) /\
  exists st, cj_run (cj_init (cj_width_of 1 [1; 3; 7]) 1) steady_ops = Some st /\
  cj_superposition (fun _ _ k => slow_response (nth k [1; 3; 7] 0)) st 0 = 45 / 64 /\
  superpose (fun k => slow_response (INR (S k) * 1)) (history 0 steady_ops) = 3 / 4.
Proof.
  split; [|split; [exact slow_response_slowing|split]].
  - exists 4%nat. unfold time_ClaessonJaved. cbn [cjt_loop]. unfold Rltb.
    repeat (match goal with |- context [Rlt_dec ?a ?b] => destruct (Rlt_dec a b) as [?Q|?Q]; cbn in *; try lra end; cbn).
    f_equal. f_equal; [lra|f_equal; [lra|f_equal; lra]].
  - split; [cbn; lra|]. intros [|[|m]] L; cbn in *; try lra. lia.
  - eexists. split; [reflexivity|]. split.
    + cbn. unfold slow_response, cj_A. cbn. field.
    + unfold superpose. cbn. unfold slow_response. field.
Qed.

(** A load that stops: the aggregated superposition is above the exact one, which is why
    the hypothesis on the loads is there. *)
Definition pulse_ops : list op := [Next; SetLoad [1]; Next; SetLoad [0]; Next; SetLoad [0]].
Definition quick_response (t : R) : R := Rmin t 2.
Theorem C133_pulse_above : slowing 1 quick_response /\ exists st,
  cj_run (cj_init (cj_width_of 1 [1; 3; 7]) 1) pulse_ops = Some st /\
  superpose (fun k => quick_response (INR (S k) * 1)) (history 0 pulse_ops)
  < cj_superposition (fun _ _ k => quick_response (nth k [1; 3; 7] 0)) st 0.
Proof.
  split.
  - intros k. unfold rise, quick_response. destruct k as [|[|k]].
    + cbn. unfold Rmin. repeat destruct (Rle_dec _ _); lra.
    + cbn. unfold Rmin. repeat destruct (Rle_dec _ _); lra.
    + rewrite !S_INR. assert (0 <= INR k) by apply pos_INR. unfold Rmin. repeat destruct (Rle_dec _ _); lra.
  - eexists. split; [reflexivity|]. unfold superpose. cbn. unfold quick_response, cj_A. cbn.
    unfold Rmin. repeat destruct (Rle_dec _ _); lra.
Qed.
Print Assumptions C133_pulse_above.

(** * C134 *)

(** From r_b^2 / (4 alpha) on, the response of a vertical borehole to its own heat
    extraction is a concave function of time. *)
Theorem C134_concave : forall H D r img alpha t1 t2 t3, 0 < H -> 0 <= D -> 0 < r -> 0 < alpha ->
  r ^ 2 / (4 * alpha) <= t1 -> t1 < t2 -> t2 < t3 ->
  (fls t3 alpha r H D H D true img - fls t2 alpha r H D H D true img) / (t3 - t2)
  <= (fls t2 alpha r H D H D true img - fls t1 alpha r H D H D true img) / (t2 - t1).
Proof. intros H D r img alpha t1 t2 t3 PH PD Pr Pa. apply (g_concave H D r img PH PD Pr alpha Pa). Qed.
Print Assumptions C134_concave.

(** It slows down from one time step to the next, from the very first on, if the time step
    is at least 5 r_b^2 / (8 alpha). *)
Theorem C134_slowing : forall H D r img alpha dt, 0 < H -> 0 <= D -> 0 < r -> 0 < alpha -> 0 < dt -> r ^ 2 <= 8 / 5 * (alpha * dt) ->
  slowing dt (fun t => fls t alpha r H D H D true img).
Proof. intros H D r img alpha dt PH PD Pr Pa. apply (g_slowing H D r img PH PD Pr alpha Pa). Qed.
Print Assumptions C134_slowing.

(** One hour, a borehole of 7.5 cm and soil of 1e-6 m2/s. *)
Example C134_example : slowing 3600 (fun t => fls t (1 / 1000000) (75 / 1000) 100 4 100 4 true true).
Proof. apply C134_slowing; lra. Qed.

(** A simulation of a single vertical borehole: ClaessonJaved with the g-function of the
    borehole at a uniform heat extraction rate never gives more than the temporal
    superposition of all the loads. *)
Theorem C134_simulation : forall link uw roots n fd b alpha ks dt tmax cpl f time ops,
  sr_exact_roots n (2 / 100) (roots n (2 / 100)) -> (1 <= n)%nat -> to_boreholes fd = [b] ->
  btilt b = 0 -> 0 < bH b -> 0 <= bD b -> 0 < br b -> 0 < alpha -> 0 < ks ->
  0 < dt -> br b ^ 2 <= 8 / 5 * (alpha * dt) -> 0 < tmax -> (1 <= cpl)%nat -> time_ClaessonJaved f dt tmax cpl = Some time ->
  never_decreasing (history 0 ops) ->
  exists g, evaluate_g_function link uw roots fd alpha (VArr time) "detailed" "UHTR" (Some (usual_options roots n)) = Some (G1 g) /\
  forall st, cj_run (cj_init (cj_width_of dt time) 1) ops = Some st ->
    cj_superposition (fun _ _ k => nth k g 0 / (2 * PI * ks)) st 0
    <= superpose (fun k => fls (INR (S k) * dt) alpha (br b) (bH b) (bD b) (bH b) (bD b) true true / (2 * PI * ks)) (history 0 ops).
Proof. exact single_simulation. Qed.
Print Assumptions C134_simulation.

(** One borehole of 100 m, one segment, hourly steps during twelve hours. *)
Definition lone_field : field := Field_Model.Field [100] [4] [75 / 1000] [0] [0] [0] [0].
Example C134_simulation_example : exists roots f time, sr_exact_roots 1 (2 / 100) (roots 1%nat (2 / 100)) /\
  to_boreholes lone_field = [Bore 100 4 (75 / 1000) 0 0 0 0] /\ (75 / 1000) ^ 2 <= 8 / 5 * (1 / 1000000 * 3600) /\
  time_ClaessonJaved f 3600 (12 * 3600) 5 = Some time /\ never_decreasing (history 0 steady_ops).
Proof.
  destruct (TimeGrid_Proofs.cjt_main 3600 (12 * 3600) 5 ltac:(lra) ltac:(lia)) as (time & _ & (f & E) & _).
  exists (fun _ _ => [1]), f, time.
  split; [|split; [cbn; unfold mk_bore; destruct (tilted 0); reflexivity|split; [lra|split; [apply E; lia|]]]].
  - intros x. change (Nat.even 1) with false. cbv iota. unfold sr_poly_odd. change ((1 - 1) / 2)%nat with 0%nat. cbn [In pow Nat.add].
    split; [intros [<-|[]]; lra|intros Q; left; lra].
  - split; [cbn; lra|]. intros [|[|m]] L; cbn in *; try lra. lia.
Qed.
