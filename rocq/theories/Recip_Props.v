(** Reciprocity of single U-tubes and coaxial pipes: C147, C148. *)
From Coq Require Import Reals Lra Lia List Bool Psatz.
From Coquelicot Require Import Coquelicot.
From Verif Require Import Base LinAlg Bore_Model Net_Model Net_Spec Pipe_Model Pipe_Spec Pipe_Main_Proofs Pipe_Flow_Proofs
  Pipe_Props Flow_Proofs Recip_Proofs.
Import ListNotations.
Local Open Scope R_scope.

Lemma turned u m cp n r : 0 < m -> u_reversible u = true -> cond u 0 1 = cond u 1 0 ->
  good_flow u m cp n r 0 1 -> good_flow u (- m) cp n r 1 0.
Proof.
  intros P V E (A & B & (C1 & C2) & D & F & Gr). split; [|split; [exact B|split; [|split; [exact D|split; [exact F|exact Gr]]]]].
  - right. repeat split; [lra|exact V].
  - unfold conducting. rewrite <- E. split; nra.
Qed.

Lemma turned_rate m cp : Rabs (- m) * cp = Rabs m * cp.
Proof. rewrite Rabs_Ropp. reflexivity. Qed.

(** Reversing the flow: for any two sets of temperatures, one in each direction, the heat
    extracted in one direction weighted by the wall temperatures of the other. *)
Theorem C147_reciprocal : forall u m cp n r Tin Sin Tb Sb, 0 < m -> u_reversible u = true -> cond u 0 1 = cond u 1 0 ->
  good_flow u m cp n r 0 1 ->
  sumn n (fun k => Sb k * get_borehole_heat u Tin n Tb m cp r k)
  - sumn n (fun k => Tb k * get_borehole_heat u Sin n Sb (- m) cp r k)
  = m * cp * (get_outlet_temperature u Tin n Tb m cp r * Sin - Tin * get_outlet_temperature u Sin n Sb (- m) cp r).
Proof.
  intros u m cp n r Tin Sin Tb Sb P V E G.
  replace (m * cp) with (Rabs m * cp) by (rewrite Rabs_pos_eq by lra; reflexivity).
  apply (pair_reciprocal u u m (- m) cp cp n r 0 1 1 0); auto using turned, turned_rate.
Qed.
Print Assumptions C147_reciprocal.

(** Hence the coefficients for the reversed flow are the transposed ones: the heat taken at
    segment k for one degree at the wall of segment l, the heat taken at segment k for one
    degree at the inlet and the share of the wall temperatures in the outlet temperature. *)
Theorem C147_transposed : forall u m cp n r k l, 0 < m -> u_reversible u = true -> cond u 0 1 = cond u 1 0 ->
  good_flow u m cp n r 0 1 -> (k < n)%nat -> (l < n)%nat ->
  snd (borehole_heat u (- m) cp n r) k l = snd (borehole_heat u m cp n r) l k
  /\ fst (borehole_heat u (- m) cp n r) k = - (m * cp * snd (outlet u m cp n r) k)
  /\ fst (borehole_heat u m cp n r) k = - (m * cp * snd (outlet u (- m) cp n r) k).
Proof.
  intros u m cp n r k l P V E G Hk Hl. pose proof (turned u m cp n r P V E G) as G'.
  split; [|split].
  - apply (transposed u u m (- m) cp cp n r 0 1 1 0); auto using turned_rate.
  - rewrite (inlet_heat u u (- m) m cp cp n r 1 0 0 1); auto using turned_rate.
    rewrite turned_rate, Rabs_pos_eq by lra. reflexivity.
  - rewrite (inlet_heat u u m (- m) cp cp n r 0 1 1 0); auto using turned_rate.
    rewrite Rabs_pos_eq by lra. reflexivity.
Qed.
Print Assumptions C147_transposed.

(** The share of the inlet temperature in the outlet temperature is the same in both directions. *)
Theorem C147_outlet : forall u m cp n r, 0 < m -> u_reversible u = true -> cond u 0 1 = cond u 1 0 ->
  good_flow u m cp n r 0 1 -> fst (outlet u (- m) cp n r) = fst (outlet u m cp n r).
Proof.
  intros u m cp n r P V E G.
  pose proof (C147_reciprocal u m cp n r 1 1 (fun _ => 0) (fun _ => 0) P V E G) as X.
  cbv beta in X.
  rewrite (sumn_scal n 0 (get_borehole_heat u 1 n (fun _ => 0) m cp r)), (sumn_scal n 0 (get_borehole_heat u 1 n (fun _ => 0) (- m) cp r)) in X.
  unfold get_outlet_temperature in X. rewrite !sumn_none in X.
  destruct G as (_ & _ & _ & C & _). apply (Rmult_eq_reg_l (m * cp)); [lra|]. apply Rgt_not_eq. apply Rmult_lt_0_compat; lra.
Qed.
Print Assumptions C147_outlet.

(** Equal legs: the borehole is its own reciprocal. *)
Theorem C148_reciprocal : forall u m cp n r d e Tin Sin Tb Sb, cond u d d = cond u e e ->
  good_flow u m cp n r d e -> 0 < m \/ u_reversible u = true ->
  sumn n (fun k => Sb k * get_borehole_heat u Tin n Tb m cp r k)
  - sumn n (fun k => Tb k * get_borehole_heat u Sin n Sb m cp r k)
  = Rabs m * cp * (get_outlet_temperature u Tin n Tb m cp r * Sin - Tin * get_outlet_temperature u Sin n Sb m cp r).
Proof.
  intros u m cp n r d e Tin Sin Tb Sb E G P.
  apply (pair_reciprocal u u m m cp cp n r d e d e); auto.
Qed.
Print Assumptions C148_reciprocal.

Theorem C148_symmetric : forall u m cp n r d e k l, cond u d d = cond u e e ->
  good_flow u m cp n r d e -> 0 < m \/ u_reversible u = true -> (k < n)%nat -> (l < n)%nat ->
  snd (borehole_heat u m cp n r) k l = snd (borehole_heat u m cp n r) l k
  /\ fst (borehole_heat u m cp n r) k = - (Rabs m * cp * snd (outlet u m cp n r) k).
Proof.
  intros u m cp n r d e k l E G P Hk Hl. split.
  - apply (transposed u u m m cp cp n r d e d e); auto.
  - apply (inlet_heat u u m m cp cp n r d e d e); auto.
Qed.
Print Assumptions C148_symmetric.

(** A coaxial pipe with two segments, of different legs, and a U-tube with three segments. *)
Example C147_example : good_flow ex_coaxial (3/10) 4000 2 None 0 1 /\ u_reversible ex_coaxial = true
  /\ cond ex_coaxial 0 1 = cond ex_coaxial 1 0 /\ cond ex_coaxial 0 0 <> cond ex_coaxial 1 1.
Proof.
  split; [exact (proj1 C26_coaxial_example)|]. split; [reflexivity|]. split; [reflexivity|].
  unfold cond; cbn. intros X. lra.
Qed.
Example C148_example : good_flow (ex_tube true) (- (3/10)) 4000 3 None 1 0
  /\ cond (ex_tube true) 1 1 = cond (ex_tube true) 0 0.
Proof. split; [exact (proj2 (proj2 C26_tube_example))|reflexivity]. Qed.
