(** Thermal resistances inside a borehole: C29, C33 - C35, C37, C69 - C71. *)
From Coq Require Import Reals Lra Lia List Bool ZArith Psatz.
From Verif Require Import Base LinAlg Bore_Model Net_Model Pipe_Model Pipe_Spec Pipe_Main_Proofs Res_Model Res_Spec
  Res_Proofs Res_Passive_Proofs Res_Geom_Proofs Res_Mult_Proofs Res_Inv_Proofs Res_Wall_Proofs.
From Coquelicot Require Import Coquelicot.
Import ListNotations.
Local Open Scope R_scope.

(** The borehole of the examples: radius 75 mm, two pipes of radius 25 mm whose
    axes are 100 mm apart, the same conductivity in the grout and in the ground. *)
Definition ex_pos : list (R * R) := (- (1/20), 0) :: (1/20, 0) :: nil.
Definition ex_args (Rfp : R) (J : nat) : rargs := mkrargs ex_pos (repeat (1/40) 2) (3/40) 2 2 (repeat Rfp 2) J.

Lemma sqrt_of x y : 0 <= y -> x = y ^ 2 -> sqrt x = y.
Proof. intros H ->. apply sqrt_pow2. auto. Qed.

Lemma ex_check Rfp : 0 < Rfp -> check_utube ex_pos (1/50) (1/40) (3/40) 2 2 Rfp 1 0 = true.
Proof.
  intros H. unfold check_utube, ex_pos. cbn [Nat.mul Nat.add seq forallb Nat.sub nth fst snd].
  rewrite (sqrt_of ((- (1/20)) ^ 2 + 0 ^ 2) (1/20)), (sqrt_of ((1/20) ^ 2 + 0 ^ 2) (1/20)),
    (sqrt_of ((- (1/20) - 1/20) ^ 2 + (0 - 0) ^ 2) (1/10)) by lra.
  rewrite !andb_true_iff, !Rltb_true, !Rleb_true, Z.leb_le. repeat split; try lra; lia.
Qed.

(** ** C33 *)

Example C33_example : exists Rm Rd, thermal_resistances (ex_args (1/10) 0) = Some (Rm, Rd)
  /\ delta_circuit 2 Rm = Some Rd /\ forall i j, Rm i j = Rm j i.
Proof.
  destruct (entries ex_pos (1/50) (1/40) (3/40) 2 2 (1/10) 0 eq_refl (ex_check (1/10) ltac:(lra))) as [E0 E1].
  change (mkrargs ex_pos (repeat (1 / 40) (length ex_pos)) (3 / 40) 2 2 (repeat (1 / 10) (length ex_pos)) 0) with (ex_args (1/10) 0) in E0, E1.
  destruct (two_pipes (ex_args (1/10) 0) eq_refl eq_refl E0 E1) as [Rd E]. exists (line_source (ex_args (1/10) 0)), Rd.
  split; [exact E|]. split; [|intros; apply line_source_sym].
  unfold thermal_resistances, resistance_matrix in E. cbn [ex_args a_J a_pos ex_pos length Nat.eqb] in E.
  destruct (delta_circuit 2 _) as [D|]; [injection E as <-; reflexivity|discriminate].
Qed.

(** The heat flows of the circuit are those of the matrix, and they exist for all
    temperatures. *)
Theorem C33_flows n Rm Rd : delta_circuit n Rm = Some Rd -> forall T Tb,
  (exists q, flows_of n Rm T Tb q)
  /\ forall q, flows_of n Rm T Tb q -> forall i, (i < n)%nat -> q i = circuit_flow n Rd T Tb i.
Proof.
  intros E T Tb. split; [exact (delta_exists n Rm Rd E T Tb)|]. intros q F i Hi. exact (delta_flow n Rm Rd E T Tb q i F Hi).
Qed.
Print Assumptions C33_flows.

(** The heat received by the borehole wall *)
Theorem C33_wall n Rm Rd T Tb q : delta_circuit n Rm = Some Rd ->
  (forall i j, (i < n)%nat -> (j < n)%nat -> Rm i j = Rm j i) -> flows_of n Rm T Tb q ->
  sumn n q = sumn n (fun i => conductance (Rd i i) * (T i - Tb)).
Proof. intros E. exact (wall_flow n Rm Rd E T Tb q). Qed.
Print Assumptions C33_wall.

(** The circuit is the same seen from both pipes. *)
Theorem C33_symmetric n Rm Rd : delta_circuit n Rm = Some Rd ->
  (forall i j, (i < n)%nat -> (j < n)%nat -> Rm i j = Rm j i) ->
  forall i j, (i < n)%nat -> (j < n)%nat -> Rd i j = Rd j i.
Proof. exact (delta_sym n Rm Rd). Qed.
Print Assumptions C33_symmetric.

(** The local borehole resistance is the one of the matrix when the fluid has the
    same temperature in all pipes. *)
Theorem C33_local n Rm Rd T Tb q : delta_circuit n Rm = Some Rd -> flows_of n Rm (fun _ => T) Tb q ->
  local_resistance n Rd <> 0 -> sumn n q = (T - Tb) / local_resistance n Rd.
Proof. intros E. exact (local_uniform n Rm Rd E T Tb q). Qed.
Print Assumptions C33_local.

(** ** C34 *)

Example C34_example : inside (ex_args (1/10) 0) /\ turned (PI / 2) (ex_args (1/10) 0) <> ex_args (1/10) 0.
Proof.
  split.
  - split; [cbn; lra|]. split; [cbn; lra|]. split.
    + intros i Hi. destruct i as [|[|i]]; [..|cbn in Hi; lia]; unfold p_x, p_y; cbn; lra.
    + intros i j Hi Hj N. destruct i as [|[|i]], j as [|[|j]]; cbn in Hi, Hj; try lia; unfold p_x, p_y; cbn; intros E; injection E; lra.
  - intros E. apply (f_equal (fun a => snd (nth 0%nat (a_pos a) (0, 0)))) in E. cbn in E. rewrite sin_PI2, cos_PI2 in E. lra.
Qed.

Theorem C34_symmetric a i j : a_J a = 0%nat -> resistance_matrix a i j = resistance_matrix a j i.
Proof. intros E. unfold resistance_matrix. rewrite E. apply line_source_sym. Qed.
Print Assumptions C34_symmetric.

Theorem C34_turned t a i j : a_J a = 0%nat -> (i < length (a_pos a))%nat -> (j < length (a_pos a))%nat ->
  resistance_matrix (turned t a) i j = resistance_matrix a i j.
Proof.
  intros E Hi Hj. unfold resistance_matrix. change (a_J (turned t a)) with (a_J a). rewrite E.
  apply line_source_turned; auto.
Qed.
Print Assumptions C34_turned.

(** The temperatures that the multipole method of order zero gives for heat flows
    q are those of the line source matrix. *)
Theorem C34_multipole a Tb q i : inside a -> a_J a = 0%nat -> (i < length (a_pos a))%nat ->
  fst (fst (fst (multipole (section_of a) Tb q 0))) i
  = Tb + sumn (length (a_pos a)) (fun j => resistance_matrix a i j * q j).
Proof.
  intros I E Hi. unfold multipole, mp_poles, fluid_T, resistance_matrix. rewrite E. cbn [Nat.eqb fst sumn].
  rewrite Rplus_0_r. f_equal. apply sumn_ext. intros j Hj. rewrite (line_source_R0 a i j I Hi Hj). reflexivity.
Qed.
Print Assumptions C34_multipole.

(** ** C35 *)

Example C35_example : check_utube ex_pos (1/50) (1/40) (3/40) 2 2 (1/10) 1 0 = true
  /\ check_utube ((- (1/100), 0) :: (1/100, 0) :: nil) (1/50) (1/40) (3/40) 2 2 (1/10) 1 0 = false.
Proof.
  split; [apply ex_check; lra|]. apply not_true_iff_false. rewrite check_utube_iff by lia.
  intros (_ & _ & _ & _ & _ & _ & _ & H). apply (H 0%nat 1%nat ltac:(lia) ltac:(lia) ltac:(lia) 0 0). cbn. lra.
Qed.

Theorem C35_utube pos r_in r_out rb ks kg Rfp n J : (0 < n)%nat ->
  (check_utube pos r_in r_out rb ks kg Rfp n J = true <->
   0 < ks /\ 0 < kg /\ 0 < Rfp /\ 0 < r_in < r_out /\ (0 <= J)%Z /\ 0 < rb /\ disks_fit pos (2 * n) r_out rb).
Proof. exact (check_utube_iff pos r_in r_out rb ks kg Rfp n J). Qed.
Print Assumptions C35_utube.

(** A single U-tube with J = 0 is built in exactly these cases: the resistance
    matrix can always be inverted. *)
Theorem C35_single pos r_in r_out b ks kg Rfp rev : length pos = 2%nat ->
  ((exists u, single_utube pos r_in r_out b ks kg Rfp 0 rev = Some u) <->
   0 < ks /\ 0 < kg /\ 0 < Rfp /\ 0 < r_in < r_out /\ 0 < br b /\ disks_fit pos 2 r_out (br b)).
Proof.
  intros L. split.
  - intros [u E]. unfold single_utube in E. destruct (check_utube _ _ _ _ _ _ _ _ _) eqn:C; [|discriminate].
    apply check_utube_iff in C; [|lia]. tauto.
  - intros H. destruct (single_passive pos r_in r_out b ks kg Rfp rev L) as [u [E _]]; [|exists u; exact E].
    apply check_utube_iff; [lia|]. change (2 * 1)%nat with 2%nat. intuition lia.
Qed.
Print Assumptions C35_single.

(** C35 for coaxial pipes: what the checks do guarantee; missing: the signs of
    the inner radius and of the resistances, the outer pipe inside the borehole. *)
Theorem C35_coaxial_partial pos r_in r_out rb ks kg Rff Rfp J : check_coaxial pos r_in r_out rb ks kg Rff Rfp J = true ->
  0 < ks /\ 0 < kg /\ (0 <= J)%Z /\ Rfp <> 0 /\ fst r_in <> 0 /\ snd r_in <> 0
  /\ fst r_in < fst r_out /\ snd r_in < snd r_out
  /\ pick r_out (i_inner r_out) < pick r_in (i_outer r_out)
  /\ sqrt (fst pos ^ 2 + snd pos ^ 2) + pick r_out (i_inner r_out) <= rb.
Proof. exact (check_coaxial_facts pos r_in r_out rb ks kg Rff Rfp J). Qed.
Print Assumptions C35_coaxial_partial.

(** All coaxial pipes that can be built are accepted. *)
Theorem C35_coaxial_accepts pos r_in r_out rb ks kg Rff Rfp J i o :
  (i = 0 /\ o = 1 \/ i = 1 /\ o = 0)%nat -> nested pos r_in r_out rb i o ->
  0 < ks -> 0 < kg -> 0 < Rff -> 0 < Rfp -> (0 <= J)%Z ->
  check_coaxial pos r_in r_out rb ks kg Rff Rfp J = true.
Proof. exact (check_coaxial_accepts pos r_in r_out rb ks kg Rff Rfp J i o). Qed.
Print Assumptions C35_coaxial_accepts.

Example C35_nested_example : nested (0, 0) (1/50, 1/20) (1/40, 3/50) (3/40) 0 1 /\ nested (0, 0) (1/20, 1/50) (3/50, 1/40) (3/40) 1 0.
Proof. unfold nested. cbn [pick Nat.eqb fst snd]. rewrite (sqrt_of _ 0) by lra. repeat split; lra. Qed.

Lemma coaxial_bool pos a b c d rb ks kg Rff Rfp J : c < d -> a < c -> b < d -> c < b -> a <> 0 -> b <> 0 -> Rfp <> 0 ->
  0 < ks -> 0 < kg -> (0 <= J)%Z -> sqrt (fst pos ^ 2 + snd pos ^ 2) + c <= rb ->
  check_coaxial pos (a, b) (c, d) rb ks kg Rff Rfp J = true.
Proof.
  intros H1 H2 H3 H4 H5 H6 H7 H8 H9 H10 H11. unfold check_coaxial. cbv zeta. cbn [fst snd].
  assert (T : forall x, x <> 0 -> truth x = true).
  { intros x Hx. unfold truth. assert (E : Reqb x 0 = false); [apply Reqb_false; exact Hx|rewrite E; reflexivity]. }
  assert (Ei : i_inner (c, d) = 0%nat) by (unfold i_inner; cbn; rewrite (proj2 (Rltb_false d c)) by lra; reflexivity).
  assert (Eo : i_outer (c, d) = 1%nat) by (unfold i_outer; cbn; rewrite (proj2 (Rltb_true c d)) by lra; reflexivity).
  rewrite Ei, Eo, !(T a), !(T b), !(T Rfp) by auto. cbn [andb b2r pick Nat.eqb fst snd].
  rewrite !andb_true_iff, orb_true_iff, !Rltb_true, !Rleb_true, Z.leb_le. repeat split; auto; try lra.
  destruct (truth Rff); cbn; lra.
Qed.

Theorem C35_coaxial_outside_refuted : exists pos r_in r_out rb ks kg Rff Rfp J,
  check_coaxial pos r_in r_out rb ks kg Rff Rfp J = true
  /\ rb < sqrt (fst pos ^ 2 + snd pos ^ 2) + pick r_out (i_outer r_out).
Proof.
  exists (0, 0), (1/50, 9/100), (1/40, 1/10), (3/40), 2, 2, (1/10), (1/10), 0%Z.
  assert (S : sqrt (fst (0, 0) ^ 2 + snd (0, 0) ^ 2) = 0) by (cbn [fst snd]; apply sqrt_of; lra). split.
  - apply coaxial_bool; try lra; try lia; rewrite S; lra.
  - rewrite S. unfold i_outer, pick. cbn [fst snd]. rewrite (proj2 (Rltb_true (1/40) (1/10))) by lra. cbn [Nat.eqb]. lra.
Qed.
Print Assumptions C35_coaxial_outside_refuted.

Theorem C35_coaxial_negative_refuted : exists pos r_in r_out rb ks kg Rff Rfp J,
  check_coaxial pos r_in r_out rb ks kg Rff Rfp J = true /\ fst r_in < 0 /\ Rff < 0 /\ Rfp < 0.
Proof.
  exists (0, 0), (- (1/50), 1/20), (1/40, 3/50), (3/40), 2, 2, (- (1/10)), (- (1/10)), 0%Z.
  assert (S : sqrt (fst (0, 0) ^ 2 + snd (0, 0) ^ 2) = 0) by (cbn [fst snd]; apply sqrt_of; lra).
  split; [|cbn; lra]. apply coaxial_bool; try lra; try lia; rewrite S; lra.
Qed.
Print Assumptions C35_coaxial_negative_refuted.

(** ** C37 *)

(** After calls whose arguments are either the same or told apart by the
    tolerances of the comparison, the result is that of a fresh call. *)
Theorem C37_history_partial l a : (forall b, In b (a :: l) -> 0 < a_rb b /\ 0 < a_ks b /\ 0 < a_kg b) ->
  (forall b s, In b (a :: l) -> In s l -> told_apart b s) ->
  snd (call_resistances (after_calls l) a) = thermal_resistances a.
Proof. exact (history l a). Qed.
Print Assumptions C37_history_partial.

Example C37_example : forall b s, In b (ex_args (1/10) 0 :: ex_args (1/5) 0 :: ex_args (1/10) 3 :: nil) ->
  In s (ex_args (1/5) 0 :: ex_args (1/10) 3 :: nil) -> told_apart b s.
Proof.
  intros b s Hb Hs. cbn in Hb, Hs.
  assert (F1 : far (1/10) (1/5)) by (unfold far; rewrite (Rabs_pos_eq (1/10)), (Rabs_pos_eq (1/5)), (Rabs_left (1/10 - 1/5)) by lra; lra).
  assert (F2 : far (1/5) (1/10)) by (unfold far; rewrite (Rabs_pos_eq (1/10)), (Rabs_pos_eq (1/5)), (Rabs_pos_eq (1/5 - 1/10)) by lra; lra).
  destruct Hb as [<-|[<-|[<-|[]]]], Hs as [<-|[<-|[]]]; try (left; reflexivity); right.
  all: try (do 3 right; left; cbn; lia).
  do 8 right. left. exists 0%nat. split; [cbn; lia|]. cbn. exact F1.
Qed.

(** A resistance that is larger by five millionths is taken for the stored one. *)
Theorem C37_tolerance_refuted : exists a s Rm Rd, thermal_resistances s <> None /\ thermal_resistances a = Some (Rm, Rd)
  /\ exists Rm' Rd', snd (call_resistances (after_calls (s :: nil)) a) = Some (Rm', Rd') /\ Rm' 0%nat 0%nat <> Rm 0%nat 0%nat.
Proof.
  set (x := 1/10 * (1 + 5 / 10 ^ 6)).
  assert (X : 0 < x) by (unfold x; lra).
  assert (G : forall y, 0 < y -> exists Rd, thermal_resistances (ex_args y 0) = Some (line_source (ex_args y 0), Rd)).
  { intros y Hy. destruct (entries ex_pos (1/50) (1/40) (3/40) 2 2 y 0 eq_refl (ex_check y Hy)) as [E0 E1].
    exact (two_pipes (ex_args y 0) eq_refl eq_refl E0 E1). }
  destruct (G x X) as [Ra Ea]. destruct (G (1/10) ltac:(lra)) as [Rs Es].
  exists (ex_args x 0), (ex_args (1/10) 0), (line_source (ex_args x 0)), Ra.
  split; [rewrite Es; discriminate|]. split; [exact Ea|]. exists (line_source (ex_args (1/10) 0)), Rs. split.
  - unfold after_calls. cbn [fold_left]. unfold call_resistances at 2. rewrite Es. cbn [fst]. unfold call_resistances.
    assert (S : same_inputs (ex_args x 0) (ex_args (1/10) 0) = true); [|rewrite S; reflexivity].
    unfold same_inputs, all_close, ex_args, ex_pos. cbn [a_pos a_rout a_rb a_ks a_kg a_Rfp a_J repeat length combine forallb fst snd Nat.eqb].
    rewrite !andb_true_iff, !negb_true_iff, !orb_false_iff, !Rltb_true, !Rleb_true, !Rltb_false.
    assert (Z : forall y, Rabs (y - y) = 0) by (intros y; replace (y - y) with 0 by ring; apply Rabs_R0).
    rewrite !Z. replace (x - 1/10) with (5 / 10 ^ 7) by (unfold x; field).
    pose proof (Rabs_pos (1/40)). pose proof (fun y => Rabs_pos (y * / 10 ^ 6)).
    repeat split; auto; try lra; try (unfold Rdiv; lra); rewrite !Rabs_pos_eq by lra; lra.
  - unfold line_source. cbn [Nat.eqb]. cbv zeta. unfold ex_args, p_x, p_y, ls_sigma. cbn [a_pos a_rout a_rb a_ks a_kg a_Rfp nth repeat].
    unfold x. lra.
Qed.
Print Assumptions C37_tolerance_refuted.

(** ** C69 *)

Theorem C69_turned t a : thermal_resistances (turned t a) = thermal_resistances a.
Proof. exact (turned_resistances t a). Qed.
Print Assumptions C69_turned.

Theorem C69_mirrored a : thermal_resistances (mirrored a) = thermal_resistances a.
Proof. exact (mirrored_resistances a). Qed.
Print Assumptions C69_mirrored.

Theorem C69_scaled c a : 0 < c -> thermal_resistances (scaled c a) = thermal_resistances a.
Proof. exact (scaled_resistances c a). Qed.
Print Assumptions C69_scaled.

(** The temperature field is turned and scaled with the pipes. *)
Theorem C69_field s rho t Tb q J : 0 < rho ->
  let la := Cmult (RtoC rho) (cos t, sin t) in
  let '(T, field, it, e) := multipole s Tb q J in
  let '(T', field', it', e') := multipole
    (mksection (s_n s) (fun i => Cmult la (s_z s i)) (fun i => rho * s_r s i) (s_Rfp s) (rho * s_rb s) (s_ks s) (s_kg s)) Tb q J in
  (forall m, T' m = T m) /\ (forall z, field' (Cmult la z) = field z) /\ it' = it /\ e' = e.
Proof.
  intros Hr. apply multipole_sim; [exact Hr|]. apply C_ext; cbn; [|ring].
  pose proof (sin2_cos2 t) as X. unfold Rsqr in X. lra.
Qed.
Print Assumptions C69_field.

Example C69_example : scaled 2 (ex_args (1/10) 3) <> ex_args (1/10) 3 /\ mirrored (turned (PI / 2) (ex_args (1/10) 3)) <> turned (PI / 2) (ex_args (1/10) 3).
Proof.
  split; intros E.
  - apply (f_equal a_rb) in E. cbn in E. lra.
  - apply (f_equal (fun a => snd (nth 0%nat (a_pos a) (0, 0)))) in E. cbn in E. rewrite sin_PI2, cos_PI2 in E. lra.
Qed.

(** ** C70 *)

(** Pipes that do not touch the wall, ground and grout of different conductivities. *)
Definition ex_section2 : section :=
  mksection 2 (fun i => if Nat.eqb i 0 then (- (1/25), 0) else (1/25, 0)) (fun _ => 1/40) (fun _ => 1/10) (3/40) 2 1.

Example C70_example : pipes_inside ex_section2 /\ outside_pipes ex_section2 (RtoC (3/40)) /\ Cmod (RtoC (3/40)) = s_rb ex_section2.
Proof.
  assert (M : forall x, Cmod (x, 0) = Rabs x) by (intros x; exact (Cmod_R x)).
  split; [|split].
  - split; [cbn; lra|]. split; [cbn; lra|]. split; [cbn; lra|]. intros n Hn. cbn [s_r s_z s_rb ex_section2] in *. split; [lra|].
    destruct (Nat.eqb n 0); rewrite M; [rewrite Rabs_left by lra|rewrite Rabs_pos_eq by lra]; lra.
  - intros n Hn. cbn [s_r s_z ex_section2].
    destruct (Nat.eqb n 0); [replace (Cminus (RtoC (3/40)) (- (1/25), 0)) with (RtoC (23/200)) by (apply C_ext; cbn; field)
      |replace (Cminus (RtoC (3/40)) (1/25, 0)) with (RtoC (7/200)) by (apply C_ext; cbn; field)]; rewrite Cmod_R, Rabs_pos_eq by lra; lra.
  - rewrite Cmod_R, Rabs_pos_eq by lra. reflexivity.
Qed.

(** The temperature is continuous everywhere outside the pipes, also across the
    borehole wall. *)
Theorem C70_continuous s Tb q J x y : pipes_inside s -> outside_pipes s (x, y) ->
  continuity_2d_pt (fun x y => snd (fst (fst (multipole s Tb q J))) (x, y)) x y.
Proof.
  intros I O. unfold multipole. destruct (mp_poles s q J) as [[P it] e]. cbn [fst snd].
  exact (field_cont s Tb q P J I (x, y) O).
Qed.
Print Assumptions C70_continuous.

(** The heat flux is the same on both sides of the wall: along each ray, the slopes
    on both sides are in the ratio of the conductivities. *)
Theorem C70_flux s Tb q J u : pipes_inside s -> Cmod u = 1 ->
  let T := fun r => snd (fst (fst (multipole s Tb q J))) (Cmult (RtoC r) u) in
  exists d_in d_out, left_slope T (s_rb s) d_in /\ right_slope T (s_rb s) d_out /\ s_kg s * d_in = s_ks s * d_out.
Proof.
  intros I U. unfold multipole. destruct (mp_poles s q J) as [[P it] e]. cbn [fst snd].
  exact (flux_wall s Tb q P J I u U).
Qed.
Print Assumptions C70_flux.

(** ** C71 *)

(** A single U-tube that can be built, with line source resistances, is a passive
    circuit: the hypotheses of C26 - C32 and C68 hold for all flow rates. *)
Theorem C71_passive pos r_in r_out b ks kg Rfp rev m cp n r :
  length pos = 2%nat -> 0 < ks -> 0 < kg -> 0 < Rfp -> 0 < r_in < r_out -> 0 < br b -> disks_fit pos 2 r_out (br b) ->
  m <> 0 -> 0 < cp -> 0 < bH b -> good_ratios n r ->
  exists u, single_utube pos r_in r_out b ks kg Rfp 0 rev = Some u
  /\ exists d e, good_flow u m cp n r d e.
Proof.
  intros L H1 H2 H3 H4 H5 H6 Hm Hc Hb Hr.
  assert (C : check_utube pos r_in r_out (br b) ks kg Rfp 1 0 = true).
  { apply check_utube_iff; [lia|]. change (2 * 1)%nat with 2%nat. intuition lia. }
  destruct (single_passive pos r_in r_out b ks kg Rfp rev L C) as (u & E & Eb & Er & N & K).
  exists u. split; [exact E|].
  assert (X : forall d e, (d = 0 /\ e = 1 \/ d = 1 /\ e = 0)%nat -> legs u m d e -> good_flow u m cp n r d e).
  { intros d e D G. split; [exact G|]. split; [exact N|]. split; [apply K; exact D|]. split; [exact Hc|]. rewrite Eb. split; [exact Hb|exact Hr]. }
  destruct (Rlt_le_dec 0 m) as [Pm|Pm].
  - exists 0%nat, 1%nat. apply X; [left; auto|]. left. repeat split; auto.
  - destruct rev.
    + exists 1%nat, 0%nat. apply X; [right; auto|]. right. repeat split; auto. lra.
    + exists 0%nat, 1%nat. apply X; [left; auto|]. left. repeat split; auto. right. split; [lra|auto].
Qed.
Print Assumptions C71_passive.

Example C71_example : length ex_pos = 2%nat /\ disks_fit ex_pos 2 (1/40) (3/40).
Proof.
  split; [reflexivity|]. pose proof (ex_check (1/10) ltac:(lra)) as E. apply check_utube_iff in E; [|lia]. apply E.
Qed.

(** C29 needs its hypothesis: a wide U-tube that can be built has a negative
    conductance between its legs, and the outlet temperature passes beyond the
    wall temperature. *)
Theorem C29_wide_spacing_refuted : exists pos r_in r_out b ks kg Rfp u m cp,
  single_utube pos r_in r_out b ks kg Rfp 0 true = Some u /\ good_flow u m cp 1 None 0 1
  /\ get_outlet_temperature u 1 1 (fun _ => 0) m cp None < 0.
Proof.
  set (mk := fun H => Bore H 4 (3/40) 0 0 0 0).
  destruct (entries ex_pos (1/50) (1/40) (3/40) 2 2 (1/10) 0 eq_refl (ex_check (1/10) ltac:(lra))) as [E0 E1].
  change (mkrargs ex_pos (repeat (1 / 40) (length ex_pos)) (3 / 40) 2 2 (repeat (1 / 10) (length ex_pos)) 0) with (ex_args (1/10) 0) in E0, E1.
  set (a := ex_args (1/10) 0) in *.
  assert (Neg : line_source a 0%nat 1%nat < 0).
  { unfold line_source. cbn [Nat.eqb]. cbv zeta.
    assert (Z : ls_sigma a = 0) by (unfold ls_sigma, a, ex_args; cbn; field). rewrite Z, Rmult_0_l, Rplus_0_r.
    replace (sqrt ((p_x a 0%nat - p_x a 1%nat) ^ 2 + (p_y a 0%nat - p_y a 1%nat) ^ 2)) with (1/10) by (symmetry; apply sqrt_of; [lra|]; unfold p_x, p_y, a, ex_args, ex_pos; cbn [a_pos nth fst snd]; field).
    change (a_rb a) with (3/40). change (a_kg a) with 2. replace (1/10/(3/40)) with (4/3) by field.
    assert (0 < ln (4/3)) by (rewrite <- ln_1; apply ln_increasing; lra).
    assert (0 < 1 / (2 * PI * 2)) by (apply Rdiv_lt_0_compat; [lra|]; pose proof PI_RGT_0; lra).
    replace (-1 / (2 * PI * 2)) with (- (1 / (2 * PI * 2))) by (field; pose proof PI_RGT_0; lra).
    assert (0 < 1 / (2 * PI * 2) * ln (4/3)) by (apply Rmult_lt_0_compat; auto). lra. }
  destruct (two_circuit (line_source a) (line_source_sym a 0%nat 1%nat) E0 E1) as (Rd & Eq & K & N).
  set (p := line_source a 0%nat 0%nat) in *. set (q := line_source a 1%nat 1%nat) in *. set (c := line_source a 0%nat 1%nat) in *.
  cbv zeta in K. destruct K as (D & K01 & K10 & K00 & K11). set (dt := p * q - c ^ 2) in *.
  assert (B : forall H, single_utube ex_pos (1/50) (1/40) (mk H) 2 2 (1/10) 0 true = Some (mkutube Rd (mk H) true)).
  { intros H. unfold single_utube. change (br (mk H)) with (3/40). cbn [Z.of_nat]. rewrite ex_check by lra.
    change (mkrargs ex_pos (repeat (1 / 40) (length ex_pos)) (3 / 40) 2 2 (repeat (1 / 10) (length ex_pos)) 0) with a.
    unfold thermal_resistances, resistance_matrix. change (length (a_pos a)) with 2%nat. change (a_J a) with 0%nat. cbn [Nat.eqb].
    rewrite Eq. reflexivity. }
  (* the variables of the model *)
  assert (Ov : forall r x, over r x = conductance r * / x).
  { intros r x. destruct r; cbn; [unfold Rdiv; rewrite Rinv_mult; ring|ring]. }
  set (v := model_vars (mkutube Rd (mk 1) true) 1 1).
  assert (V : v = vars_of ((q - c) / dt) ((p - c) / dt) (c / dt)).
  { unfold v, model_vars, update_vars, i_inlet, i_outlet, is_reversed. rewrite (proj2 (Rltb_false 1 0)) by lra. cbn [andb u_Rd].
    rewrite !Ov, K00, K11, K01. rewrite Rabs_pos_eq by lra. rewrite Rmult_1_r, Rinv_1, !Rmult_1_r. reflexivity. }
  assert (Cn : c < 0) by exact Neg. pose proof (Rabs_pos c) as Ac.
  set (S := (q - c) / dt + (p - c) / dt).
  assert (Sp : 0 < S) by (unfold S; apply Rplus_lt_0_compat; apply Rdiv_lt_0_compat; lra).
  set (rad := 1/4 * S ^ 2 + c / dt * S).
  assert (Rd1 : 0 < rad).
  { assert (rad = (p + q - 2 * c) * (p + q + 2 * c) / (4 * dt ^ 2)) as -> by (unfold rad, S; field; lra).
    rewrite Rabs_left in E0, E1 by lra.
    apply Rdiv_lt_0_compat; [apply Rmult_lt_0_compat; lra|]. apply Rmult_lt_0_compat; [lra|apply pow_lt; auto]. }
  assert (Cd : c / dt < 0). { assert (0 < - c / dt) by (apply Rdiv_lt_0_compat; lra). unfold Rdiv in *. lra. }
  set (g := sqrt rad).
  assert (Gp : 0 < g) by (apply sqrt_lt_R0; auto). assert (G2 : g ^ 2 = rad) by (apply pow2_sqrt; lra).
  assert (Gl : g < S / 2).
  { assert (g ^ 2 < (S / 2) ^ 2); [|nra]. rewrite G2. unfold rad. assert (c / dt * S < 0) by nra. nra. }
  set (A := 1 - 1/2 * S / g). set (Bc := 1 + 1/2 * S / g).
  assert (An : A < 0).
  { unfold A. assert (1 < 1/2 * S / g); [|lra]. apply Rmult_lt_reg_r with g; [auto|]. unfold Rdiv. rewrite Rmult_assoc, Rinv_l by lra. lra. }
  assert (Bp : 0 < Bc). { unfold Bc. assert (0 < 1/2 * S / g) by (apply Rdiv_lt_0_compat; lra). lra. }
  assert (AB : A + Bc = 2) by (unfold A, Bc; ring).
  set (x := - Bc / A). assert (Xp : 0 < x). { unfold x. replace (- Bc / A) with (Bc / - A) by (field; lra). apply Rdiv_lt_0_compat; lra. }
  set (H := x / (2 * g)). assert (Hp : 0 < H) by (apply Rdiv_lt_0_compat; lra).
  exists ex_pos, (1/50), (1/40), (mk H), 2, 2, (1/10), (mkutube Rd (mk H) true), 1, 1.
  split; [apply B|]. split.
  - destruct (single_passive ex_pos (1/50) (1/40) (mk H) 2 2 (1/10) true eq_refl (ex_check (1/10) ltac:(lra))) as (u & E & Eb & Er & Nu & Ku).
    rewrite B in E. injection E as <-.
    split; [left; repeat split; left; lra|]. split; [exact Nu|]. split; [apply Ku; left; auto|]. split; [lra|]. split; [exact Hp|cbn; lia].
  - unfold get_outlet_temperature, outlet. cbn [fst snd sumn].
    change (model_vars (mkutube Rd (mk H) true) 1 1) with v. change (bH (u_b (mkutube Rd (mk H) true))) with H.
    rewrite Rmult_0_r, Rplus_0_l, Rplus_0_r, Rmult_1_r. unfold out_in, cA, cB. rewrite V.
    unfold vars_of. cbn [v1 v2 vg]. fold S. fold rad. fold g. fold A. fold Bc.
    assert (Ex : exp (- 2 * g * H) < - A / Bc).
    { replace (- 2 * g * H) with (- x) by (unfold H; field; lra). rewrite exp_Ropp.
      replace (- A / Bc) with (/ x) by (unfold x; field; split; lra).
      apply Rinv_lt_contravar; [apply Rmult_lt_0_compat; [auto|apply exp_pos]|]. assert (Xn : x <> 0) by lra; pose proof (exp_ineq1 x Xn). lra. }
    pose proof (exp_pos (- 2 * g * H)) as Ep. set (e := exp (- 2 * g * H)) in *.
    assert (Num : A + Bc * e < 0).
    { assert (Bc * e < Bc * (- A / Bc)) by (apply Rmult_lt_compat_l; auto). replace (Bc * (- A / Bc)) with (- A) in * by (field; lra). lra. }
    assert (E1' : e < 1). { apply Rlt_trans with (- A / Bc); [auto|]. apply Rmult_lt_reg_r with Bc; [auto|]. unfold Rdiv. rewrite Rmult_assoc, Rinv_l by lra. lra. }
    assert (Den : 0 < Bc + A * e) by nra.
    assert (0 < - (A + Bc * e) / (Bc + A * e)) by (apply Rdiv_lt_0_compat; lra). unfold Rdiv in *. lra.
Qed.
Print Assumptions C29_wide_spacing_refuted.
