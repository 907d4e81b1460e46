(** Property C164: sources that share their loads. *)
From Verif Require Import Base LoadAgg_Model LoadAgg_Spec Group_Spec Group_Proofs.

(** ** C164: groups of sources with the same loads can be simulated as single
    sources with the responses of the members added, in any order. *)
Theorem C164_cj w phi n ops st : Forall (fun c => (c < n)%nat) phi ->
  cj_run (cj_init w n) ops = Some st ->
  exists st', cj_run (cj_init w (length phi)) (expand phi ops) = Some st'
  /\ forall g i, cj_superposition g st' i = cj_superposition (grouped phi g) st i.
Proof. intros P. exact (cj_group phi n P w ops st). Qed.
Print Assumptions C164_cj.

Theorem C164_mlaa phi n Nt N0 N1 N2 N3 ops st : Forall (fun c => (c < n)%nat) phi ->
  mlaa_run (mlaa_init n Nt N0 N1 N2 N3) ops = Some st ->
  exists st', mlaa_run (mlaa_init (length phi) Nt N0 N1 N2 N3) (expand phi ops) = Some st'
  /\ forall g i, mlaa_superposition g st' i = mlaa_superposition (grouped phi g) st i.
Proof. intros P. exact (mlaa_group phi n P Nt N0 N1 N2 N3 ops st). Qed.
Print Assumptions C164_mlaa.

Theorem C164_liu phi n Nt N1 N2 N3 W1 W2 W3 ops st : Forall (fun c => (c < n)%nat) phi ->
  liu_run (liu_init n Nt N1 N2 N3 W1 W2 W3) ops = Some st ->
  exists st', liu_run (liu_init (length phi) Nt N1 N2 N3 W1 W2 W3) (expand phi ops) = Some st'
  /\ forall g i, liu_superposition g st' i = liu_superposition (grouped phi g) st i.
Proof. intros P. exact (liu_group phi n P Nt N1 N2 N3 W1 W2 W3 ops st). Qed.
Print Assumptions C164_liu.

(** Three sources, the first and the last with the loads of the second group. *)
Example C164_example : Forall (fun c => (c < 2)%nat) [1; 0; 1]%nat
  /\ expand [1; 0; 1]%nat [Next; SetLoad [5; 7]; Next] = [Next; SetLoad [7; 5; 7]; Next]
  /\ (forall k, grouped [1; 0; 1]%nat (fun _ j k => INR (10 * j + k)) 0 1 k = INR k + INR (20 + k))
  /\ (exists st, cj_run (cj_init (cj_width_of 1 [1; 2; 4]) 2) [Next; SetLoad [5; 7]; Next] = Some st)
  /\ (exists st, mlaa_run (mlaa_init 2 10 1 1 1 1) [Next; SetLoad [5; 7]; Next] = Some st)
  /\ (exists st, liu_run (liu_init 2 10 1 2 2 1 1 1) [Next; SetLoad [5; 7]; Next] = Some st).
Proof.
  split; [repeat constructor|]. split; [reflexivity|]. split.
  { intros k. unfold grouped. cbn [length sumn nth Nat.eqb]. replace (10 * 0 + k)%nat with k by lia. replace (10 * 2 + k)%nat with (20 + k)%nat by lia. ring. }
  split; [eexists; reflexivity|].
  split; eexists; cbv -[Rplus Rminus Rmult Ropp Rinv Rdiv IZR INR]; reflexivity.
Qed.

(** Two sources exchanged: so are their parts in the answers. *)
Example C164_exchange : forall g i c k, (c < 2)%nat -> grouped [1; 0]%nat g i c k = g i (1 - c)%nat k.
Proof. intros g i c k H. unfold grouped. destruct c as [|[|c]]; [| |lia]; cbn [length sumn nth Nat.eqb Nat.sub]; ring. Qed.
