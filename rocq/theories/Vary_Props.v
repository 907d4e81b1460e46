(** Property C167: errors of the thermal responses. *)
From Verif Require Import Base LoadAgg_Model LoadAgg_Spec Vary_Spec Vary_Proofs.

(** ** C167: an error of the thermal responses is multiplied by no more than
    the total of the changes of the loads, however they are aggregated. *)
Theorem C167_cj dt time nS ops st (g1 g2 : nat -> nat -> nat -> R) (e : nat -> R) i :
  good_times dt time -> (forall k, (S k < length time)%nat -> dt <= nth (S k) time 0 - nth k time 0) ->
  cj_run (cj_init (cj_width_of dt time) nS) ops = Some st ->
  (forall j k, (j < nS)%nat -> (k < length time)%nat -> Rabs (g1 i j k - g2 i j k) <= e j) ->
  Rabs (cj_superposition g1 st i - cj_superposition g2 st i) <= sumn nS (fun j => e j * swings (history j ops)).
Proof. exact (cj_error dt time nS ops st g1 g2 e i). Qed.
Print Assumptions C167_cj.

Theorem C167_mlaa nS Nt N0 N1 N2 N3 ops st (g1 g2 : nat -> nat -> nat -> R) (e : nat -> R) i :
  (1 <= N0)%nat -> (1 <= N1)%nat -> (1 <= N2)%nat -> (1 <= N3)%nat ->
  mlaa_run (mlaa_init nS Nt N0 N1 N2 N3) ops = Some st -> starts_with_step ops -> (1 <= steps ops)%nat ->
  (forall j k, (j < nS)%nat -> (k < steps ops)%nat -> Rabs (g1 i j k - g2 i j k) <= e j) ->
  Rabs (mlaa_superposition g1 st i - mlaa_superposition g2 st i) <= sumn nS (fun j => e j * swings (history j ops)).
Proof. exact (mlaa_error nS Nt N0 N1 N2 N3 ops st g1 g2 e i). Qed.
Print Assumptions C167_mlaa.

Theorem C167_liu nS Nt N1 N2 N3 W1 W2 W3 ops st (g1 g2 : nat -> nat -> nat -> R) (e : nat -> R) i :
  (1 <= N1)%nat -> (1 <= N2)%nat -> (1 <= N3)%nat -> (1 <= W1)%nat -> (1 <= W2)%nat -> (1 <= W3)%nat ->
  liu_run (liu_init nS Nt N1 N2 N3 W1 W2 W3) ops = Some st -> starts_with_step ops -> (1 <= steps ops)%nat ->
  (forall j k, (j < nS)%nat -> (k < steps ops)%nat -> Rabs (g1 i j k - g2 i j k) <= e j) ->
  Rabs (liu_superposition g1 st i - liu_superposition g2 st i) <= sumn nS (fun j => e j * swings (history j ops)).
Proof. exact (liu_error nS Nt N1 N2 N3 W1 W2 W3 ops st g1 g2 e i). Qed.
Print Assumptions C167_liu.

(** The bound is attained: a load of 1, then of -1, changes by 3 in all, and
    responses that are 1 too low at first and 1 too high then give an error of 3. *)
Definition back_and_forth : list op := [Next; SetLoad [1]; Next; SetLoad [-1]].
Definition wrong_by_one (i j k : nat) : R := match k with O => 4 | _ => 7 end.
Definition right_one (i j k : nat) : R := match k with O => 5 | _ => 6 end.
Lemma wrong_by_at_most_one i j k : Rabs (wrong_by_one i j k - right_one i j k) <= 1.
Proof. unfold wrong_by_one, right_one. destruct k; apply Rabs_le; lra. Qed.
Lemma swings_of_three : swings (history 0 back_and_forth) = 3.
Proof.
  cbv [swings history back_and_forth fold_left hist_step app removelast nth vary].
  rewrite (Rabs_right (1 - 0)), (Rabs_left (-1 - 1)) by lra. lra.
Qed.
Example C167_cj_example : exists st, good_times 1 [1; 2; 4] /\ (forall k, (S k < 3)%nat -> 1 <= nth (S k) [1; 2; 4] 0 - nth k [1; 2; 4] 0)
  /\ cj_run (cj_init (cj_width_of 1 [1; 2; 4]) 1) back_and_forth = Some st
  /\ Rabs (cj_superposition wrong_by_one st 0 - cj_superposition right_one st 0) = 1 * swings (history 0 back_and_forth).
Proof.
  eexists. split; [split; [lra|split; [discriminate|]]|split; [|split]].
  - intros k Hk. cbn [length] in Hk. do 2 (destruct k as [|k]; [cbn; lra|]). lia.
  - intros k Hk. do 2 (destruct k as [|k]; [cbn; lra|]). lia.
  - cbv -[Rplus Rminus Rmult Ropp Rinv Rdiv IZR INR]. reflexivity.
  - rewrite swings_of_three. cbv -[Rplus Rminus Rmult Ropp Rinv Rdiv IZR INR Rabs].
    match goal with |- Rabs ?x = _ => replace x with 3 by (field; lra) end. rewrite Rabs_right by lra. lra.
Qed.
Example C167_mlaa_example : exists st, mlaa_run (mlaa_init 1 10 2 1 1 1) back_and_forth = Some st
  /\ starts_with_step back_and_forth /\ (1 <= steps back_and_forth)%nat
  /\ Rabs (mlaa_superposition wrong_by_one st 0 - mlaa_superposition right_one st 0) = 1 * swings (history 0 back_and_forth).
Proof.
  eexists. split; [cbv -[Rplus Rminus Rmult Ropp Rinv Rdiv IZR INR]; reflexivity|]. split; [exact I|]. split; [cbn; lia|].
  rewrite swings_of_three. cbv -[Rplus Rminus Rmult Ropp Rinv Rdiv IZR INR Rabs].
  match goal with |- Rabs ?x = _ => replace x with 3 by (cbn [INR]; lra) end. rewrite Rabs_right by lra. lra.
Qed.
Example C167_liu_example : exists st, liu_run (liu_init 1 10 2 2 2 1 1 1) back_and_forth = Some st
  /\ Rabs (liu_superposition wrong_by_one st 0 - liu_superposition right_one st 0) = 1 * swings (history 0 back_and_forth).
Proof.
  eexists. split; [cbv -[Rplus Rminus Rmult Ropp Rinv Rdiv IZR INR]; reflexivity|].
  rewrite swings_of_three. cbv -[Rplus Rminus Rmult Ropp Rinv Rdiv IZR INR Rabs].
  match goal with |- Rabs ?x = _ => replace x with 3 by (cbn [INR]; lra) end. rewrite Rabs_right by lra. lra.
Qed.
