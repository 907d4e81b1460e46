(** Property C169: the load of the current time step. *)
From Verif Require Import Base LoadAgg_Model LoadAgg_Spec Current_Proofs.

(** ** C169: of several loads set during a time step only the last one counts,
    now and later. *)
Theorem C169_last_cj s o1 a b o2 : length a = length b ->
  cj_run s (o1 ++ SetLoad a :: SetLoad b :: o2) = cj_run s (o1 ++ SetLoad b :: o2).
Proof. exact (cj_last_counts o1 s a b o2). Qed.
Print Assumptions C169_last_cj.
Theorem C169_last_mlaa s o1 a b o2 : length a = length b ->
  mlaa_run s (o1 ++ SetLoad a :: SetLoad b :: o2) = mlaa_run s (o1 ++ SetLoad b :: o2).
Proof. exact (mlaa_last_counts o1 s a b o2). Qed.
Print Assumptions C169_last_mlaa.
Theorem C169_last_liu s o1 a b o2 : length a = length b ->
  liu_run s (o1 ++ SetLoad a :: SetLoad b :: o2) = liu_run s (o1 ++ SetLoad b :: o2).
Proof. exact (liu_last_counts o1 s a b o2). Qed.
Print Assumptions C169_last_liu.

(** The temperature depends on the current load through the first value of the
    response, whatever happened before. *)
Theorem C169_cj dt time nS ops a b s1 s2 (g : nat -> nat -> nat -> R) i :
  cj_run (cj_init (cj_width_of dt time) nS) (ops ++ [SetLoad a]) = Some s1 ->
  cj_run (cj_init (cj_width_of dt time) nS) (ops ++ [SetLoad b]) = Some s2 ->
  cj_superposition g s2 i - cj_superposition g s1 i = sumn nS (fun j => g i j 0%nat * (nth j b 0 - nth j a 0)).
Proof. apply cj_current. cbn. lia. Qed.
Print Assumptions C169_cj.

Theorem C169_mlaa nS Nt N0 N1 N2 N3 ops a b s1 s2 (g : nat -> nat -> nat -> R) i :
  (1 <= N0)%nat -> (1 <= N1)%nat -> (1 <= N2)%nat -> (1 <= N3)%nat -> length a = length b -> (1 <= steps ops)%nat ->
  mlaa_run (mlaa_init nS Nt N0 N1 N2 N3) (ops ++ [SetLoad a]) = Some s1 -> mlaa_run (mlaa_init nS Nt N0 N1 N2 N3) (ops ++ [SetLoad b]) = Some s2 ->
  mlaa_superposition g s2 i - mlaa_superposition g s1 i = sumn nS (fun j => g i j 0%nat * (nth j b 0 - nth j a 0)).
Proof. exact (mlaa_current nS Nt N0 N1 N2 N3 ops a b s1 s2 g i). Qed.
Print Assumptions C169_mlaa.

Theorem C169_liu nS Nt N1 N2 N3 W1 W2 W3 ops a b s1 s2 (g : nat -> nat -> nat -> R) i :
  (1 <= N1)%nat -> (1 <= N2)%nat -> (1 <= N3)%nat -> (1 <= W1)%nat -> (1 <= W2)%nat -> (1 <= W3)%nat ->
  length a = length b -> starts_with_step ops -> (1 <= steps ops)%nat ->
  liu_run (liu_init nS Nt N1 N2 N3 W1 W2 W3) (ops ++ [SetLoad a]) = Some s1 -> liu_run (liu_init nS Nt N1 N2 N3 W1 W2 W3) (ops ++ [SetLoad b]) = Some s2 ->
  liu_superposition g s2 i - liu_superposition g s1 i = sumn nS (fun j => g i j 0%nat * (nth j b 0 - nth j a 0)).
Proof. exact (liu_current nS Nt N1 N2 N3 W1 W2 W3 ops a b s1 s2 g i). Qed.
Print Assumptions C169_liu.

(** Two sources, four steps, loads already aggregated. *)
Definition before : list op := [Next; SetLoad [1; 5]; Next; SetLoad [4; -2]; Next; SetLoad [2; 2]; Next].
Example C169_example : starts_with_step before /\ (1 <= steps before)%nat
  /\ (exists s1 s2, cj_run (cj_init (cj_width_of 1 [1; 3; 7]) 2) (before ++ [SetLoad [3; 0]]) = Some s1
        /\ cj_run (cj_init (cj_width_of 1 [1; 3; 7]) 2) (before ++ [SetLoad [8; 1]]) = Some s2)
  /\ (exists s1 s2, mlaa_run (mlaa_init 2 10 1 1 1 1) (before ++ [SetLoad [3; 0]]) = Some s1
        /\ mlaa_run (mlaa_init 2 10 1 1 1 1) (before ++ [SetLoad [8; 1]]) = Some s2)
  /\ (exists s1 s2, liu_run (liu_init 2 10 1 2 2 1 1 1) (before ++ [SetLoad [3; 0]]) = Some s1
        /\ liu_run (liu_init 2 10 1 2 2 1 1 1) (before ++ [SetLoad [8; 1]]) = Some s2)
  /\ sumn 2 (fun j => 3 * (nth j [8; 1] 0 - nth j [3; 0] 0)) = 18.
Proof.
  split; [exact I|]. split; [cbn; lia|].
  do 3 (split; [do 2 eexists; split; cbv -[Rplus Rminus Rmult Ropp Rinv Rdiv IZR INR]; reflexivity|]).
  cbn. lra.
Qed.
