(** Properties C160-C162 of the answers of the load aggregation schemes. *)
From Verif Require Import Base LoadAgg_Model LoadAgg_Spec Agg_Spec Agg_Lin_Proofs Agg_Proofs.

(** ** C160: superposition of loads, MLAA and Liu (ClaessonJaved is [C03_cj_linear]). *)
Theorem C160_mlaa_linear nS Nt N0 N1 N2 N3 a b ops1 ops2 ops3 st1 st2 (g : nat -> nat -> nat -> R) i :
  combine_ops a b ops1 ops2 = Some ops3 ->
  mlaa_run (mlaa_init nS Nt N0 N1 N2 N3) ops1 = Some st1 ->
  mlaa_run (mlaa_init nS Nt N0 N1 N2 N3) ops2 = Some st2 ->
  exists st3, mlaa_run (mlaa_init nS Nt N0 N1 N2 N3) ops3 = Some st3
   /\ mlaa_superposition g st3 i = a * mlaa_superposition g st1 i + b * mlaa_superposition g st2 i.
Proof. exact (mlaa_linear nS Nt N0 N1 N2 N3 a b ops1 ops2 ops3 st1 st2 g i). Qed.
Print Assumptions C160_mlaa_linear.

Theorem C160_liu_linear nS Nt N1 N2 N3 W1 W2 W3 a b ops1 ops2 ops3 st1 st2 (g : nat -> nat -> nat -> R) i :
  combine_ops a b ops1 ops2 = Some ops3 ->
  liu_run (liu_init nS Nt N1 N2 N3 W1 W2 W3) ops1 = Some st1 ->
  liu_run (liu_init nS Nt N1 N2 N3 W1 W2 W3) ops2 = Some st2 ->
  exists st3, liu_run (liu_init nS Nt N1 N2 N3 W1 W2 W3) ops3 = Some st3
   /\ liu_superposition g st3 i = a * liu_superposition g st1 i + b * liu_superposition g st2 i.
Proof. exact (liu_linear nS Nt N1 N2 N3 W1 W2 W3 a b ops1 ops2 ops3 st1 st2 g i). Qed.
Print Assumptions C160_liu_linear.

(** Two simulations of two sources and four steps, long enough for both schemes to aggregate. *)
Definition heating_ops : list op := [Next; SetLoad [3; 1]; Next; SetLoad [5; 2]; Next; Next; SetLoad [1; 1]].
Definition cooling_ops : list op := [Next; SetLoad [-1; 0]; Next; SetLoad [-2; 1]; Next; Next; SetLoad [0; -4]].
Example C160_example : (exists ops3, combine_ops 2 3 heating_ops cooling_ops = Some ops3)
  /\ (exists st, mlaa_run (mlaa_init 2 10 1 1 1 1) heating_ops = Some st /\ ml_n2 st = 1%nat)
  /\ (exists st, mlaa_run (mlaa_init 2 10 1 1 1 1) cooling_ops = Some st)
  /\ (exists st, liu_run (liu_init 2 10 1 2 2 1 1 1) heating_ops = Some st /\ li_n2 st = 1%nat)
  /\ (exists st, liu_run (liu_init 2 10 1 2 2 1 1 1) cooling_ops = Some st).
Proof.
  split; [eexists; reflexivity|]. split; [eexists; split; [cbv -[Rplus Rminus Rmult Ropp Rinv Rdiv IZR INR]; reflexivity|reflexivity]|]. split; [eexists; cbv -[Rplus Rminus Rmult Ropp Rinv Rdiv IZR INR]; reflexivity|].
  split; [eexists; split; [cbv -[Rplus Rminus Rmult Ropp Rinv Rdiv IZR INR]; reflexivity|reflexivity]|eexists; cbv -[Rplus Rminus Rmult Ropp Rinv Rdiv IZR INR]; reflexivity].
Qed.

(** ** C161: the answers stay within those of the extreme constant loads, and grow with the loads. *)
Theorem C161_mlaa_within nS Nt N0 N1 N2 N3 ops st (g : nat -> nat -> nat -> R) i (lo hi : nat -> R) :
  (1 <= N0)%nat -> (1 <= N1)%nat -> (1 <= N2)%nat -> (1 <= N3)%nat ->
  mlaa_run (mlaa_init nS Nt N0 N1 N2 N3) ops = Some st -> (1 <= steps ops)%nat ->
  (forall j, (j < nS)%nat -> grows (g i j)) ->
  (forall j, (j < nS)%nat -> Forall (fun x => lo j <= x <= hi j) (history j ops)) ->
  sumn nS (fun j => lo j * g i j (steps ops - 1)%nat) <= mlaa_superposition g st i <= sumn nS (fun j => hi j * g i j (steps ops - 1)%nat).
Proof. exact (mlaa_within nS Nt N0 N1 N2 N3 ops st g i lo hi). Qed.
Print Assumptions C161_mlaa_within.

Theorem C161_liu_within nS Nt N1 N2 N3 W1 W2 W3 ops st (g : nat -> nat -> nat -> R) i (lo hi : nat -> R) :
  (1 <= N1)%nat -> (1 <= N2)%nat -> (1 <= N3)%nat -> (1 <= W1)%nat -> (1 <= W2)%nat -> (1 <= W3)%nat ->
  liu_run (liu_init nS Nt N1 N2 N3 W1 W2 W3) ops = Some st -> starts_with_step ops -> (1 <= steps ops)%nat ->
  (forall j, (j < nS)%nat -> grows (g i j)) ->
  (forall j, (j < nS)%nat -> Forall (fun x => lo j <= x <= hi j) (history j ops)) ->
  sumn nS (fun j => lo j * g i j (steps ops - 1)%nat) <= liu_superposition g st i <= sumn nS (fun j => hi j * g i j (steps ops - 1)%nat).
Proof. exact (liu_within nS Nt N1 N2 N3 W1 W2 W3 ops st g i lo hi). Qed.
Print Assumptions C161_liu_within.

(** ClaessonJaved: the range has to contain zero, the answer of the last cell is the bound. *)
Theorem C161_cj_within dt time nS ops st (g : nat -> nat -> nat -> R) i lo hi :
  good_times dt time -> (forall k, (S k < length time)%nat -> dt <= nth (S k) time 0 - nth k time 0) ->
  lo <= 0 <= hi -> Forall (load_in lo hi) ops ->
  cj_run (cj_init (cj_width_of dt time) nS) ops = Some st ->
  (forall j, (j < nS)%nat -> grows (g i j)) ->
  sumn nS (fun j => lo * g i j (length time - 1)%nat) <= cj_superposition g st i <= sumn nS (fun j => hi * g i j (length time - 1)%nat).
Proof. exact (cj_within dt time nS ops st g i lo hi). Qed.
Print Assumptions C161_cj_within.

Theorem C161_cj_monotone dt time nS ops1 ops2 st1 st2 (g : nat -> nat -> nat -> R) i :
  good_times dt time -> (forall k, (S k < length time)%nat -> dt <= nth (S k) time 0 - nth k time 0) ->
  cj_run (cj_init (cj_width_of dt time) nS) ops1 = Some st1 -> cj_run (cj_init (cj_width_of dt time) nS) ops2 = Some st2 ->
  no_less ops1 ops2 -> (forall j, (j < nS)%nat -> grows (g i j)) ->
  cj_superposition g st1 i <= cj_superposition g st2 i.
Proof. exact (cj_monotone dt time nS ops1 ops2 st1 st2 g i). Qed.
Print Assumptions C161_cj_monotone.

Theorem C161_mlaa_monotone nS Nt N0 N1 N2 N3 ops1 ops2 st1 st2 (g : nat -> nat -> nat -> R) i :
  (1 <= N0)%nat -> (1 <= N1)%nat -> (1 <= N2)%nat -> (1 <= N3)%nat ->
  mlaa_run (mlaa_init nS Nt N0 N1 N2 N3) ops1 = Some st1 -> mlaa_run (mlaa_init nS Nt N0 N1 N2 N3) ops2 = Some st2 ->
  (1 <= steps ops2)%nat ->
  no_less ops1 ops2 -> (forall j, (j < nS)%nat -> grows (g i j)) ->
  mlaa_superposition g st1 i <= mlaa_superposition g st2 i.
Proof. exact (mlaa_monotone nS Nt N0 N1 N2 N3 ops1 ops2 st1 st2 g i). Qed.
Print Assumptions C161_mlaa_monotone.

Theorem C161_liu_monotone nS Nt N1 N2 N3 W1 W2 W3 ops1 ops2 st1 st2 (g : nat -> nat -> nat -> R) i :
  (1 <= N1)%nat -> (1 <= N2)%nat -> (1 <= N3)%nat -> (1 <= W1)%nat -> (1 <= W2)%nat -> (1 <= W3)%nat ->
  liu_run (liu_init nS Nt N1 N2 N3 W1 W2 W3) ops1 = Some st1 -> liu_run (liu_init nS Nt N1 N2 N3 W1 W2 W3) ops2 = Some st2 ->
  starts_with_step ops2 -> (1 <= steps ops2)%nat ->
  no_less ops1 ops2 -> (forall j, (j < nS)%nat -> grows (g i j)) ->
  liu_superposition g st1 i <= liu_superposition g st2 i.
Proof. exact (liu_monotone nS Nt N1 N2 N3 W1 W2 W3 ops1 ops2 st1 st2 g i). Qed.
Print Assumptions C161_liu_monotone.

Example C161_example : grows (levelling 3)
  /\ no_less cooling_ops heating_ops = (Forall2 Rle [-1; 0] [3; 1] /\ Forall2 Rle [-2; 1] [5; 2] /\ Forall2 Rle [0; -4] [1; 1] /\ True)
  /\ Forall2 Rle [-1; 0] [3; 1] /\ Forall2 Rle [-2; 1] [5; 2] /\ Forall2 Rle [0; -4] [1; 1]
  /\ history 0 heating_ops = [3; 5; 0; 1] /\ Forall (fun x => 0 <= x <= 5) (history 0 heating_ops).
Proof.
  split.
  { split; unfold levelling; [cbn; apply Rmin_glb; lra|]. intros k. apply Rle_min_compat_r. apply le_INR. lia. }
  split; [reflexivity|]. do 3 (split; [repeat constructor; lra|]). split; [reflexivity|]. cbn. repeat constructor; lra.
Qed.

(** ** C162: time steps before the first load. *)
Theorem C162_cj_idle w nS n ops : cj_run (cj_init w nS) (idle n ++ ops) = cj_run (cj_init w nS) ops.
Proof. exact (cj_idle w nS n ops). Qed.
Print Assumptions C162_cj_idle.

Theorem C162_mlaa_idle nS Nt N0 N1 N2 N3 n ops st1 st2 g i :
  (1 <= N0)%nat -> (1 <= N1)%nat -> (1 <= N2)%nat -> (1 <= N3)%nat ->
  starts_with_step ops -> (1 <= steps ops)%nat -> (n + steps ops <= N0)%nat ->
  mlaa_run (mlaa_init nS Nt N0 N1 N2 N3) ops = Some st1 -> mlaa_run (mlaa_init nS Nt N0 N1 N2 N3) (idle n ++ ops) = Some st2 ->
  mlaa_superposition g st2 i = mlaa_superposition g st1 i.
Proof. exact (mlaa_idle nS Nt N0 N1 N2 N3 n ops st1 st2 g i). Qed.
Print Assumptions C162_mlaa_idle.

Theorem C162_liu_idle nS Nt N1 N2 N3 W1 W2 W3 n ops st1 st2 g i :
  (1 <= N1)%nat -> (1 <= N2)%nat -> (1 <= N3)%nat -> (1 <= W1)%nat -> (1 <= W2)%nat -> (1 <= W3)%nat ->
  starts_with_step ops -> (1 <= steps ops)%nat -> (n + steps ops < N1 + W1)%nat ->
  liu_run (liu_init nS Nt N1 N2 N3 W1 W2 W3) ops = Some st1 -> liu_run (liu_init nS Nt N1 N2 N3 W1 W2 W3) (idle n ++ ops) = Some st2 ->
  liu_superposition g st2 i = liu_superposition g st1 i.
Proof. exact (liu_idle nS Nt N1 N2 N3 W1 W2 W3 n ops st1 st2 g i). Qed.
Print Assumptions C162_liu_idle.

(** The same beyond the steps kept verbatim: the position of the blocks depends
    on the step at which the simulation began, and so does the answer. *)
Definition pulse (n : nat) : list op := [Next; SetLoad [1]] ++ repeat Next n.
Lemma level_low m k : INR (S k) <= m -> levelling m k = INR (S k).
Proof. apply Rmin_left. Qed.
Lemma level_high m k : m <= INR (S k) -> levelling m k = m.
Proof. apply Rmin_right. Qed.

Theorem C162_mlaa_refuted : exists ops st1 st2,
  starts_with_step ops /\ grows (levelling 5)
  /\ mlaa_run (mlaa_init 1 10 1 1 1 1) ops = Some st1 /\ mlaa_run (mlaa_init 1 10 1 1 1 1) (idle 1 ++ ops) = Some st2
  /\ mlaa_superposition (fun _ _ => levelling 5) st2 0 <> mlaa_superposition (fun _ _ => levelling 5) st1 0.
Proof.
  exists (pulse 5). do 2 eexists. split; [exact I|]. split.
  { split; unfold levelling; [cbn; apply Rmin_glb; lra|]. intros k. apply Rle_min_compat_r. apply le_INR. lia. }
  split; [cbv -[Rplus Rminus Rmult Ropp Rinv Rdiv IZR INR]; reflexivity|]. split; [cbv -[Rplus Rminus Rmult Ropp Rinv Rdiv IZR INR]; reflexivity|]. intros E.
  cbv -[Rplus Rminus Rmult Ropp Rinv Rdiv IZR INR levelling] in E. revert E.
  rewrite (level_low 5 0), (level_low 5 1), (level_low 5 2), (level_low 5 3), (level_high 5 5), (level_high 5 6) by (cbn [INR]; lra).
  cbn [INR]. lra.
Qed.
Print Assumptions C162_mlaa_refuted.

Theorem C162_liu_refuted : exists ops st1 st2,
  starts_with_step ops /\ grows (levelling 3)
  /\ liu_run (liu_init 1 10 2 2 2 1 1 1) ops = Some st1 /\ liu_run (liu_init 1 10 2 2 2 1 1 1) (idle 1 ++ ops) = Some st2
  /\ liu_superposition (fun _ _ => levelling 3) st2 0 <> liu_superposition (fun _ _ => levelling 3) st1 0.
Proof.
  exists (pulse 2). do 2 eexists. split; [exact I|]. split.
  { split; unfold levelling; [cbn; apply Rmin_glb; lra|]. intros k. apply Rle_min_compat_r. apply le_INR. lia. }
  split; [cbv -[Rplus Rminus Rmult Ropp Rinv Rdiv IZR INR]; reflexivity|]. split; [cbv -[Rplus Rminus Rmult Ropp Rinv Rdiv IZR INR]; reflexivity|]. intros E.
  cbv -[Rplus Rminus Rmult Ropp Rinv Rdiv IZR INR levelling] in E. revert E. 
  rewrite (level_low 3 0), (level_low 3 1), (level_low 3 2), (level_high 3 3) by (cbn [INR]; lra).
  cbn [INR]. lra.
Qed.
Print Assumptions C162_liu_refuted.

Example C162_example : starts_with_step (pulse 1) /\ steps (pulse 1) = 2%nat /\ idle 2 ++ pulse 1 = [Next; Next; Next; SetLoad [1]; Next]
  /\ (exists st, mlaa_run (mlaa_init 1 10 4 1 1 1) (idle 2 ++ pulse 1) = Some st)
  /\ (exists st, liu_run (liu_init 1 10 4 2 2 1 1 1) (idle 2 ++ pulse 1) = Some st).
Proof.
  split; [exact I|]. split; [reflexivity|]. split; [reflexivity|].
  split; eexists; cbv -[Rplus Rminus Rmult Ropp Rinv Rdiv IZR INR]; reflexivity.
Qed.
