(** Single U-tubes and coaxial pipes: C26 - C32, C57, C68. *)
From Coq Require Import Reals Lra Lia List Bool Psatz.
From Coquelicot Require Import Coquelicot.
From Verif Require Import Base LinAlg Bore_Model Net_Model Net_Spec Net_Props Pipe_Model Pipe_Spec Pipe_Main_Proofs
  Pipe_Flow_Proofs Pipe_Unique_Proofs PipeCache_Model PipeCache_Spec PipeCache_Proofs.
Import ListNotations.
Local Open Scope R_scope.

(** The circuits of the examples: a single U-tube and a coaxial pipe, both of
    length 100 m. *)
Definition ex_bore : bore := Bore 100 4 (3/40) 0 0 0 0.
Definition ex_tube (rev : bool) : utube :=
  mkutube (fun i j => if Nat.eqb i j then Res 1 else Res (1/4)) ex_bore rev.
Definition ex_coaxial : utube := mkutube (coaxial_Rd 0 (1/8) (1/2)) ex_bore true.

Lemma ex_tube_good rev m n r d e : legs (ex_tube rev) m d e -> good_ratios n r ->
  good_flow (ex_tube rev) m 4000 n r d e.
Proof.
  intros L Hr. split; [exact L|]. split; [intros i j q; cbn; destruct (Nat.eqb i j); intros Q; injection Q as <-; lra|].
  split; [|split; [lra|split; [cbn; lra|exact Hr]]].
  destruct L as [[-> [-> _]]|[-> [-> _]]]; unfold conducting, cond; cbn; lra.
Qed.

Example C26_tube_example :
  good_flow (ex_tube false) (3/10) 4000 2 (Some [1/3; 2/3]) 0 1
  /\ good_flow (ex_tube false) (- (3/10)) 4000 2 (Some [1/3; 2/3]) 0 1
  /\ good_flow (ex_tube true) (- (3/10)) 4000 3 None 1 0.
Proof.
  assert (L : good_ratios 2 (Some [1/3; 2/3])).
  { split; [reflexivity|]. split; [repeat constructor; lra|cbn; lra]. }
  split; [|split]; apply ex_tube_good; auto; try (left; repeat split; lra).
  - left. repeat split. right. split; [lra|reflexivity].
  - right. repeat split. lra.
  - cbn. lia.
Qed.

Example C26_coaxial_example : good_flow ex_coaxial (3/10) 4000 2 None 0 1 /\ good_flow ex_coaxial (- (3/10)) 4000 2 None 1 0.
Proof.
  assert (N : no_short ex_coaxial).
  { intros i j q. cbn. unfold coaxial_Rd. destruct (Nat.eqb i j), (Nat.eqb i 0); intros Q; try discriminate; injection Q as <-; lra. }
  split; (split; [|split; [exact N|split; [|split; [lra|split; [cbn; lra|cbn; lia]]]]]).
  - left. repeat split. lra.
  - unfold conducting, cond; cbn. lra.
  - right. repeat split; lra.
  - unfold conducting, cond; cbn. lra.
Qed.

(** The condition on the circuit holds for all positive resistances, and for all
    coaxial pipes. *)
Theorem C26_positive_circuits u d e :
  (forall i j, exists q, u_Rd u i j = Res q /\ 0 < q) -> no_short u /\ conducting u d e.
Proof.
  intros P. split.
  - intros i j q Q. destruct (P i j) as [q' [Q' L]]. rewrite Q in Q'. injection Q' as <-. lra.
  - assert (C : forall i j, 0 < cond u i j).
    { intros i j. unfold cond. destruct (P i j) as [q [-> L]]. apply Rdiv_lt_0_compat; lra. }
    pose proof (C d d). pose proof (C e e). pose proof (C d e). unfold conducting. split; [lra|].
    assert (0 < cond u d d * cond u e e) by (apply Rmult_lt_0_compat; auto).
    assert (0 < cond u d e * (cond u d d + cond u e e)) by (apply Rmult_lt_0_compat; lra). lra.
Qed.
Print Assumptions C26_positive_circuits.

Theorem C26_coaxial_circuits i Rff Rfg b rev d e : (i < 2)%nat -> 0 < Rff -> 0 < Rfg ->
  (d < 2)%nat -> (e < 2)%nat -> d <> e ->
  no_short (mkutube (coaxial_Rd i Rff Rfg) b rev) /\ conducting (mkutube (coaxial_Rd i Rff Rfg) b rev) d e.
Proof.
  intros Hi Pf Pg Hd He N. split.
  - intros k l q. cbn. unfold coaxial_Rd. destruct (Nat.eqb k l), (Nat.eqb k i); intros Q; try discriminate; injection Q as <-; lra.
  - assert (0 < 1 / Rff) by (apply Rdiv_lt_0_compat; lra). assert (0 < 1 / Rfg) by (apply Rdiv_lt_0_compat; lra).
    assert (0 < 1 / Rff * (1 / Rfg)) by (apply Rmult_lt_0_compat; auto).
    unfold conducting, cond.
    destruct d as [|[|d]], e as [|[|e]], i as [|[|i]]; try lia; cbn; split; lra.
Qed.
Print Assumptions C26_coaxial_circuits.

(** C26: between two ends of segments, the profiles satisfy the energy balances. *)
Theorem C26_energy u m cp n r d e Tin Tb k z : good_flow u m cp n r d e ->
  (k < n)%nat -> depth u n r k < z < depth u n r (S k) ->
  energy_balance u d e (Rabs m * cp) (Tb k) (fun i z => get_temperature u Tin n Tb m cp r z i) z.
Proof. intros G. exact (energy u m cp n r d e G Tin Tb k z). Qed.
Print Assumptions C26_energy.

(** C26: ends of the legs. *)
Theorem C26_boundary u m cp n r d e Tin Tb : good_flow u m cp n r d e ->
  let T i z := get_temperature u Tin n Tb m cp r z i in
  T d 0 = Tin /\ T d (bH (u_b u)) = T e (bH (u_b u)) /\ T e 0 = get_outlet_temperature u Tin n Tb m cp r.
Proof. intros G. exact (boundary u m cp n r d e G Tin Tb). Qed.
Print Assumptions C26_boundary.

(** C26: no jump at the ends of the segments. *)
Theorem C26_continuous u m cp n r d e Tin Tb z : good_flow u m cp n r d e ->
  continuous (fun z => get_temperature u Tin n Tb m cp r z d) z
  /\ continuous (fun z => get_temperature u Tin n Tb m cp r z e) z.
Proof. intros G. exact (profile_continuous u m cp n r d e G Tin Tb z). Qed.
Print Assumptions C26_continuous.

(** C26: any other profiles with these properties are the ones returned. *)
Theorem C26_unique u m cp n r d e Tin Tb (X : nat -> R -> R) : good_flow u m cp n r d e ->
  (forall k z, (k < n)%nat -> depth u n r k < z < depth u n r (S k) ->
     energy_balance u d e (Rabs m * cp) (Tb k) X z) ->
  (forall z, 0 <= z <= bH (u_b u) -> continuous (X d) z /\ continuous (X e) z) ->
  X d 0 = Tin -> X d (bH (u_b u)) = X e (bH (u_b u)) ->
  (forall z, 0 <= z <= bH (u_b u) ->
     X d z = get_temperature u Tin n Tb m cp r z d /\ X e z = get_temperature u Tin n Tb m cp r z e)
  /\ X e 0 = get_outlet_temperature u Tin n Tb m cp r.
Proof.
  intros G E C B0 BH. split.
  - intros z. exact (unique u m cp n r d e G Tin Tb X E C B0 BH z).
  - exact (unique_outlet u m cp n r d e G Tin Tb X E C B0 BH).
Qed.
Print Assumptions C26_unique.

(** C27 *)
Theorem C27_equilibrium u m cp n r d e T0 Tb : good_flow u m cp n r d e ->
  (forall k, (k < n)%nat -> Tb k = T0) ->
  get_outlet_temperature u T0 n Tb m cp r = T0
  /\ (forall z, 0 <= z <= bH (u_b u) ->
        get_temperature u T0 n Tb m cp r z d = T0 /\ get_temperature u T0 n Tb m cp r z e = T0)
  /\ (forall k, (k < n)%nat -> get_borehole_heat u T0 n Tb m cp r k = 0)
  /\ get_fluid_heat u T0 n Tb m cp r = 0.
Proof.
  intros G U. destruct (equil u m cp n r d e G T0 Tb T0 eq_refl U) as [E1 E2].
  split; [exact E1|]. split; [exact E2|]. split.
  - intros k. exact (heat_zero u m cp n r d e G T0 Tb T0 k eq_refl U).
  - rewrite fluid_eq, E1. ring.
Qed.
Print Assumptions C27_equilibrium.

(** C27: the boreholes of a network meet the hypothesis of C21 - C24. *)
Theorem C27_neutral u m cp n r d e : good_flow u m cp n r d e -> pipe_neutral (net_pipe u) m cp n r.
Proof. exact (utube_neutral u m cp n r d e). Qed.
Print Assumptions C27_neutral.

(** C28: the rates of the segments add up to the rate of the fluid, if the flow is
    not a negative one that is not reversed. *)
Theorem C28_heat_balance_partial u m cp n r d e Tin Tb : good_flow u m cp n r d e ->
  0 < m \/ u_reversible u = true ->
  sumn n (get_borehole_heat u Tin n Tb m cp r) = Rabs m * cp * (get_outlet_temperature u Tin n Tb m cp r - Tin).
Proof. intros G. exact (heat_total u m cp n r d e G Tin Tb). Qed.
Print Assumptions C28_heat_balance_partial.

Theorem C28_fluid u m cp n r Tin Tb :
  get_fluid_heat u Tin n Tb m cp r = Rabs m * cp * (get_outlet_temperature u Tin n Tb m cp r - Tin).
Proof. exact (fluid_eq u m cp n r Tin Tb). Qed.
Print Assumptions C28_fluid.

Theorem C28_balanced u m cp n r d e : good_flow u m cp n r d e -> 0 < m \/ u_reversible u = true ->
  pipe_balanced (net_pipe u) m cp n r.
Proof. exact (utube_balanced u m cp n r d e). Qed.
Print Assumptions C28_balanced.

(** C28: a negative flow with reversible_flow=False. *)
Theorem C28_nonreversible_refuted : exists u m cp n r Tin Tb, good_flow u m cp n r 0 1 /\ u_reversible u = false
  /\ sumn n (get_borehole_heat u Tin n Tb m cp r) <> Rabs m * cp * (get_outlet_temperature u Tin n Tb m cp r - Tin).
Proof.
  exists (ex_tube false), (- (3/10)), 4000, 1%nat, None, 1, (fun _ => 0).
  assert (G : good_flow (ex_tube false) (- (3/10)) 4000 1 None 0 1).
  { apply ex_tube_good; [|cbn; lia]. left. repeat split. right. split; [lra|reflexivity]. }
  split; [exact G|]. split; [reflexivity|].
  rewrite (heat_total_neg _ _ _ _ _ _ _ G) by (try reflexivity; lra).
  assert (L := out_lt1 _ _ _ _ _ _ _ G). unfold get_outlet_temperature. cbn [sumn].
  set (a := fst (outlet (ex_tube false) (- (3 / 10)) 4000 1 None)) in *.
  rewrite Rabs_Ropp, Rabs_pos_eq by lra. lra.
Qed.
Print Assumptions C28_nonreversible_refuted.

(** C29 *)
Theorem C29_coefficients u m cp n r d e : good_flow u m cp n r d e -> 0 <= cond u d e ->
  0 <= fst (outlet u m cp n r) < 1 /\ forall k, (k < n)%nat -> 0 <= snd (outlet u m cp n r) k.
Proof. intros G. exact (coef_signs u m cp n r d e G). Qed.
Print Assumptions C29_coefficients.

Theorem C29_bounds u m cp n r d e Tin Tb lo hi : good_flow u m cp n r d e -> 0 <= cond u d e ->
  lo <= Tin <= hi -> (forall k, (k < n)%nat -> lo <= Tb k <= hi) ->
  lo <= get_outlet_temperature u Tin n Tb m cp r <= hi.
Proof. intros G. exact (out_bounds u m cp n r d e G Tin Tb lo hi). Qed.
Print Assumptions C29_bounds.

(** C30: reversible_flow=False; missing: the rates of the segments. *)
Theorem C30_nonreversible_partial u m cp n r Tin Tb : u_reversible u = false ->
  get_outlet_temperature u Tin n Tb (- m) cp r = get_outlet_temperature u Tin n Tb m cp r
  /\ (forall z i, get_temperature u Tin n Tb (- m) cp r z i = get_temperature u Tin n Tb m cp r z i)
  /\ get_fluid_heat u Tin n Tb (- m) cp r = get_fluid_heat u Tin n Tb m cp r
  /\ (forall Q, get_inlet_temperature u Q n Tb (- m) cp r = get_inlet_temperature u Q n Tb m cp r).
Proof.
  intros N. unfold get_outlet_temperature, get_temperature, get_fluid_heat, get_inlet_temperature.
  rewrite (outlet_sign u m cp n r N), (fluid_sign u m cp n r N), (inlet_sign u m cp n r N).
  repeat split. intros z i. rewrite (temperature_sign u m cp n r z N). reflexivity.
Qed.
Print Assumptions C30_nonreversible_partial.

(** C30: the rates of the segments change sign. *)
Theorem C30_nonreversible_heat u m cp n r Tin Tb k : u_reversible u = false ->
  get_borehole_heat u Tin n Tb (- m) cp r k = - get_borehole_heat u Tin n Tb m cp r k.
Proof. exact (heat_sign u m cp n r Tin Tb k). Qed.
Print Assumptions C30_nonreversible_heat.

Theorem C30_heat_refuted : exists u m cp n r Tin Tb k, good_flow u m cp n r 0 1 /\ u_reversible u = false
  /\ (k < n)%nat /\ get_borehole_heat u Tin n Tb (- m) cp r k <> get_borehole_heat u Tin n Tb m cp r k.
Proof.
  exists (ex_tube false), (3/10), 4000, 1%nat, None, 1, (fun _ => 0), 0%nat.
  assert (G : good_flow (ex_tube false) (3/10) 4000 1 None 0 1).
  { apply ex_tube_good; [|cbn; lia]. left. repeat split. left. lra. }
  split; [exact G|]. split; [reflexivity|]. split; [lia|].
  rewrite heat_sign by reflexivity.
  assert (Q := heat_total _ _ _ _ _ _ _ G 1 (fun _ => 0) ltac:(left; lra)).
  cbn [sumn] in Q. unfold get_outlet_temperature in Q. cbn [sumn] in Q.
  assert (L := out_lt1 _ _ _ _ _ _ _ G).
  set (a := fst (outlet (ex_tube false) (3 / 10) 4000 1 None)) in *.
  rewrite Rabs_pos_eq in Q by lra. intros E. lra.
Qed.
Print Assumptions C30_heat_refuted.

(** C30: reversible_flow=True: a negative flow is a positive one with the two pipes exchanged. *)
Theorem C30_reversible u m cp n r Tin Tb : m < 0 -> u_reversible u = true ->
  get_outlet_temperature u Tin n Tb m cp r = get_outlet_temperature (exchanged u) Tin n Tb (- m) cp r
  /\ (forall z i, (i < 2)%nat ->
        get_temperature u Tin n Tb m cp r z i = get_temperature (exchanged u) Tin n Tb (- m) cp r z (other i))
  /\ (forall k, get_borehole_heat u Tin n Tb m cp r k = get_borehole_heat (exchanged u) Tin n Tb (- m) cp r k).
Proof.
  intros N V. split; [unfold get_outlet_temperature; rewrite (outlet_exchanged u m cp n r N V); reflexivity|]. split.
  - intros z i Hi. destruct (temperature_exchanged u m cp n r z i N V Hi) as [A B]. unfold get_temperature.
    rewrite A. f_equal. apply sumn_ext. intros k _. rewrite B. reflexivity.
  - intros k. apply heat_exchanged; auto.
Qed.
Print Assumptions C30_reversible.

(** C31: for calls with distinguishable arguments and flows in one direction (or
    reversible_flow=False), every answer is that of a new object with the current
    resistances. *)
Theorem C31_history_partial l q u :
  (forall q' g, In q' (q :: l) -> call_of q' = Some g -> good_call1 g) ->
  (forall q1 q2 g h, In q1 (q :: l) -> In q2 (q :: l) -> call_of q1 = Some g -> call_of q2 = Some h -> distinct g h) ->
  (u_reversible u = false \/ forall q1 q2 g h, In q1 (q :: l) -> In q2 (q :: l) ->
     call_of q1 = Some g -> call_of q2 = Some h -> same_way g h) ->
  snd (ask q (after l (new_pobj u))) = answer_of (tube_after l u) q.
Proof.
  intros HG HD HW.
  apply (history (u_reversible u) (fun g => exists q', In q' (q :: l) /\ call_of q' = Some g)).
  - intros g [q' [I E]]. eauto.
  - intros g h [q1 [I1 E1]] [q2 [I2 E2]]. eauto.
  - destruct HW as [W|W]; [left; exact W|right]. intros g h [q1 [I1 E1]] [q2 [I2 E2]]. eauto.
  - reflexivity.
  - intros q' g I E. eauto.
Qed.
Print Assumptions C31_history_partial.

Definition ex_call (m : R) (n : nat) : call := mkcall m 4000 n None.

Example C31_example : let l := [AskOutlet (ex_call (3/10) 2); AskHeat (ex_call (1/5) 2); AskFluid (ex_call (3/10) 2);
    Update (coaxial_Rd 0 (1/8) (1/2)); AskInlet (ex_call (1/5) 3)] in
  let q := AskTemperature 10 (ex_call (1/5) 2) in
  (forall q' g, In q' (q :: l) -> call_of q' = Some g -> good_call1 g)
  /\ (forall q1 q2 g h, In q1 (q :: l) -> In q2 (q :: l) -> call_of q1 = Some g -> call_of q2 = Some h -> distinct g h)
  /\ (forall q1 q2 g h, In q1 (q :: l) -> In q2 (q :: l) -> call_of q1 = Some g -> call_of q2 = Some h -> same_way g h).
Proof.
  cbv zeta.
  assert (F : forall q g, In q (AskTemperature 10 (ex_call (1/5) 2) :: [AskOutlet (ex_call (3/10) 2); AskHeat (ex_call (1/5) 2);
      AskFluid (ex_call (3/10) 2); Update (coaxial_Rd 0 (1/8) (1/2)); AskInlet (ex_call (1/5) 3)]) ->
      call_of q = Some g -> exists m n, (m = 3/10 \/ m = 1/5) /\ g = ex_call m n).
  { intros q g I E. cbn in I. repeat (destruct I as [<-|I]; [cbn in E; injection E as <- || discriminate; eauto 6|]). contradiction. }
  split; [|split].
  - intros q g I E. destruct (F q g I E) as (m & n & _ & ->). split; cbn; [lra|exact Logic.I].
  - intros q1 q2 g h I1 I2 E1 E2. destruct (F q1 g I1 E1) as (m & n & Hm & ->). destruct (F q2 h I2 E2) as (m' & n' & Hm' & ->).
    intros _. cbn. split; [|left; reflexivity]. unfold apart.
    destruct Hm as [->| ->], Hm' as [->| ->]; [left; reflexivity| | |left; reflexivity]; right.
    + rewrite (Rabs_pos_eq (1/5 * 4000)) by lra. rewrite Rabs_pos_eq by lra. lra.
    + rewrite (Rabs_pos_eq (3/10 * 4000)) by lra. rewrite Rabs_left1 by lra. lra.
  - intros q1 q2 g h I1 I2 E1 E2. destruct (F q1 g I1 E1) as (m & n & Hm & ->). destruct (F q2 h I2 E2) as (m' & n' & Hm' & ->).
    unfold same_way. cbn. destruct Hm as [->| ->], Hm' as [->| ->]; split; intros; lra.
Qed.

(** C31: the direction of the flow is not part of what is stored. *)
Lemma near_refl x : x <> 0 -> near_mcp x x = true.
Proof.
  intros N. unfold near_mcp. apply Rltb_true. rewrite Rminus_diag_eq by reflexivity. rewrite Rabs_R0.
  pose proof (Rabs_pos_lt x N). unfold tol. nra.
Qed.
Lemma near_opp x y : x = - y -> near_mcp x y = false.
Proof.
  intros E. unfold near_mcp. apply Rltb_false. rewrite E. replace (- y - y) with (- 2 * y) by ring.
  rewrite Rabs_mult, (Rabs_left (-2)) by lra. pose proof (Rabs_pos y). unfold tol. nra.
Qed.

Definition fwd : call := ex_call (3/10) 1.
Definition bwd : call := ex_call (- (3/10)) 1.
Lemma stored_miss id g compute o o' v : q_store o id = None -> compute o = (o', v) -> v <> RError ->
  stored id g compute o = (set_stored id g v o', v).
Proof. intros S C N. unfold stored. rewrite S. cbn [option_map same_coefs]. rewrite C. destruct v; congruence. Qed.
Lemma stored_hit id g compute o k v : q_store o id = Some (k, v) -> same_coefs g (Some k) = Some true ->
  stored id g compute o = (o, v).
Proof. intros S C. unfold stored. rewrite S. cbn [option_map fst]. rewrite C. reflexivity. Qed.

Lemma stale_state : let o := after [AskOutlet fwd; AskHeat bwd; AskFluid fwd] (new_pobj (ex_tube true)) in
  q_tube o = ex_tube true /\ q_key o = Some (key_of bwd)
  /\ q_vars o = model_vars (ex_tube true) (c_m bwd) (c_cp bwd) /\ q_iin o = 0%nat.
Proof.
  assert (PP : same_coefs fwd (Some (key_of fwd)) = Some true).
  { unfold same_coefs. cbn [key_of k_mcp k_n k_r fwd ex_call c_m c_cp c_n c_r Nat.eqb]. rewrite near_refl by lra. reflexivity. }
  assert (NP : same_vars bwd (Some (key_of fwd)) = false).
  { unfold same_vars. cbn [key_of k_mcp k_n k_r fwd bwd ex_call c_m c_cp c_n c_r Nat.eqb]. rewrite near_opp by lra. reflexivity. }
  assert (I0 : i_inlet (ex_tube true) (c_m fwd) = 0%nat).
  { unfold i_inlet, is_reversed. cbn [fwd ex_call c_m]. rewrite (proj2 (Rltb_false _ _)) by lra. reflexivity. }
  unfold after. cbn [fold_left]. set (o0 := new_pobj (ex_tube true)).
  set (o1 := fst (ask (AskOutlet fwd) o0)). set (o2 := fst (ask (AskHeat bwd) o1)).
  assert (A1 : q_tube o1 = ex_tube true /\ q_key o1 = Some (key_of fwd) /\ q_store o1 6%nat = None /\ q_store o1 7%nat = None
     /\ exists c, q_store o1 4%nat = Some (key_of fwd, RScal c)).
  { unfold o1, o0. cbn [ask]. unfold q_outlet. erewrite stored_miss; [|reflexivity|reflexivity|discriminate].
    repeat split. eexists. reflexivity. }
  destruct A1 as (T1 & K1 & S16 & S17 & c & S14). clearbody o1.
  assert (A2 : q_tube o2 = ex_tube true /\ q_key o2 = Some (key_of bwd)
     /\ q_vars o2 = model_vars (ex_tube true) (c_m bwd) (c_cp bwd) /\ q_store o2 7%nat = None
     /\ q_store o2 4%nat = Some (key_of fwd, RScal c)).
  { unfold o2. cbn [ask]. unfold q_heat. erewrite stored_miss; [|exact S16|reflexivity|discriminate].
    cbn [fst]. unfold check_vars. change (q_key (set_dir bwd o1)) with (q_key o1). rewrite K1, NP.
    unfold set_stored, set_dir. cbn [q_tube q_key q_vars q_store Nat.eqb]. rewrite T1. auto. }
  destruct A2 as (T2 & K2 & V2 & S27 & S24). clearbody o2.
  cbn [ask]. unfold q_fluid.
  assert (Q : q_outlet fwd (set_dir fwd o2) = (set_dir fwd o2, RScal c)).
  { unfold q_outlet. eapply stored_hit; [exact S24|exact PP]. }
  erewrite stored_miss; [|exact S27|rewrite Q; reflexivity|discriminate].
  unfold set_stored, set_dir. cbn [fst q_tube q_key q_vars q_iin]. rewrite T2, I0. auto.
Qed.

Theorem C31_direction_refuted : exists u l q,
  (forall q' g, In q' (q :: l) -> call_of q' = Some g -> good_call1 g)
  /\ (forall q1 q2 g h, In q1 (q :: l) -> In q2 (q :: l) -> call_of q1 = Some g -> call_of q2 = Some h -> distinct g h)
  /\ snd (ask q (after l (new_pobj u))) <> answer_of u q.
Proof.
  exists (ex_tube true), [AskOutlet fwd; AskHeat bwd; AskFluid fwd], (AskTemperature 0 bwd).
  assert (F : forall q g, In q (AskTemperature 0 bwd :: [AskOutlet fwd; AskHeat bwd; AskFluid fwd]) -> call_of q = Some g -> g = fwd \/ g = bwd).
  { intros q g I E. cbn in I. repeat (destruct I as [<-|I]; [cbn in E; injection E as <-; auto|]). contradiction. }
  split; [|split].
  - intros q g I E. destruct (F q g I E) as [->| ->]; split; cbn; auto; lra.
  - intros q1 q2 g h I1 I2 E1 E2.
    destruct (F q1 g I1 E1) as [->| ->], (F q2 h I2 E2) as [->| ->]; intros _; cbn;
      (split; [|left; reflexivity]); unfold apart; try (left; reflexivity); right.
    + rewrite (Rabs_left1 (- (3/10) * 4000)) by lra. rewrite Rabs_pos_eq by lra. lra.
    + rewrite (Rabs_pos_eq (3/10 * 4000)) by lra. rewrite Rabs_left1 by lra. lra.
  - assert (NN : near_mcp (- (3/10) * 4000) (- (3/10) * 4000) = true) by (apply near_refl; lra).
    assert (I1 : i_inlet (ex_tube true) (- (3/10)) = 1%nat).
    { unfold i_inlet, is_reversed. rewrite (proj2 (Rltb_true _ _)) by lra. reflexivity. }
    assert (S : forall o, q_tube o = ex_tube true -> q_key o = Some (key_of bwd) ->
       q_vars o = model_vars (ex_tube true) (c_m bwd) (c_cp bwd) -> q_iin o = 0%nat ->
       fst (match snd (ask (AskTemperature 0 bwd) o) with RTemp c => c | _ => (fun _ => 0, fun _ _ => 0) end) 0%nat
       <> fst (match answer_of (ex_tube true) (AskTemperature 0 bwd) with RTemp c => c | _ => (fun _ => 0, fun _ _ => 0) end) 0%nat).
    { intros o Et Ek Ev Ei. cbn [ask snd q_temperature answer_of].
      assert (CV : check_vars bwd o = o).
      { unfold check_vars, same_vars. rewrite Ek. cbn [key_of k_mcp k_n k_r bwd ex_call c_m c_cp c_n c_r].
        rewrite NN. reflexivity. }
      unfold q_temperature. rewrite CV. cbn [snd]. unfold temp_coefs. rewrite Et, Ev, Ei.
      unfold temperature. change (c_m bwd) with (- (3/10)). change (c_cp bwd) with 4000. rewrite I1.
      cbn [temperature_at fst Nat.eqb].
      assert (G : good_flow (ex_tube true) (- (3/10)) 4000 1 None 1 0).
      { apply ex_tube_good; [|cbn; lia]. right. repeat split. lra. }
      destruct (boundary _ _ _ _ _ _ _ G 1 (fun _ => 0)) as [B0 [_ B1]].
      assert (L := out_lt1 _ _ _ _ _ _ _ G).
      unfold get_temperature, temperature in B0, B1. rewrite I1 in B0, B1.
      unfold get_outlet_temperature in B1.
      cbn [temperature_at fst snd Nat.eqb sumn] in B0, B1.
      set (a := t_in0 (model_vars (ex_tube true) (- (3/10)) 4000) (bH (u_b (ex_tube true))) 0) in *.
      set (b := t_in1 (model_vars (ex_tube true) (- (3/10)) 4000) (bH (u_b (ex_tube true))) 0) in *.
      set (c := fst (outlet (ex_tube true) (- (3/10)) 4000 1 None)) in *. lra. }
    destruct stale_state as (K1 & K2 & K3 & K4). intros E.
    apply (S (after [AskOutlet fwd; AskHeat bwd; AskFluid fwd] (new_pobj (ex_tube true))) K1 K2 K3 K4).
    rewrite E. reflexivity.
Qed.
Print Assumptions C31_direction_refuted.

(** C32 *)
Theorem C32_inverts u Q n Tb m cp r Tin :
  get_inlet_temperature u Q n Tb m cp r = Some Tin -> get_fluid_heat u Tin n Tb m cp r = Q.
Proof. exact (inlet_inverts u Q n Tb m cp r Tin). Qed.
Print Assumptions C32_inverts.

Theorem C32_defined u m cp n r d e Q Tb : good_flow u m cp n r d e ->
  exists Tin, get_inlet_temperature u Q n Tb m cp r = Some Tin.
Proof.
  intros G. destruct (inlet_some u m cp n r d e G) as [c E]. unfold get_inlet_temperature. rewrite E. cbn. eauto.
Qed.
Print Assumptions C32_defined.

(** C57: a network of one borehole. *)
Theorem C57_utube N u m cp d e : build_net 1 None = Some N -> good_flow u m cp 1 None d e ->
  0 < m \/ u_reversible u = true ->
  network_thermal_resistance N [net_pipe u] (bH (u_b u)) [m] [cp] = Some (effective_R u m cp).
Proof.
  intros B G P. rewrite (C57_single_borehole N (net_pipe u) (bH (u_b u)) m cp B).
  - reflexivity.
  - destruct G as [[(_ & _ & [L|[L _]])|(_ & _ & L & _)] _]; lra.
  - exact (utube_balanced u m cp 1 None d e G P).
Qed.
Print Assumptions C57_utube.

(** C57: meaning of the effective resistance of a borehole. *)
Theorem C57_meaning u m cp d e t T : good_flow u m cp 1 None d e -> 0 < m \/ u_reversible u = true ->
  let out := get_outlet_temperature u t 1 (fun _ => T) m cp None in
  (t + out) / 2 - T = effective_R u m cp * (Rabs m * cp * (t - out) / bH (u_b u)).
Proof.
  intros G P out.
  pose proof (one_segment_heat u m cp d e G P) as Q.
  pose proof (out_lt1 u m cp 1 None d e G) as L.
  pose proof (M_pos u m cp 1 None d e G) as Mp.
  assert (HP : 0 < bH (u_b u)) by (destruct G as (_ & _ & _ & _ & HP & _); exact HP).
  destruct (equil u m cp 1 None d e G 1 (fun _ => 1) 1 eq_refl (fun _ _ => eq_refl)) as [E _].
  unfold get_outlet_temperature in E, out. cbn [sumn] in E, out.
  unfold effective_R. rewrite Q. unfold out.
  set (a := fst (outlet u m cp 1 None)) in *. set (b := snd (outlet u m cp 1 None) 0%nat) in *.
  assert (b = 1 - a) as -> by lra. field. repeat split; try lra.
  intros Z. apply (Rmult_eq_reg_l (Rabs m * cp)) in Z || nra. nra.
Qed.
Print Assumptions C57_meaning.

(** C68: the effective resistance is the local one times eta / tanh eta, where eta is
    the length over the heat capacity rate times the root of
    (s/2)^2 + c s; s is the conductance to the wall and c the one between the legs. *)
Theorem C68_effective u m cp d e : good_flow u m cp 1 None d e -> 0 < m \/ u_reversible u = true ->
  let s := cond u d d + cond u e e in
  let eta := bH (u_b u) / (Rabs m * cp) * sqrt (1/4 * s ^ 2 + cond u d e * s) in
  effective_R u m cp = 1 / s * (eta * cosh eta / sinh eta) /\ local_R (u_Rd u) = 1 / s.
Proof.
  intros G P s eta. split; [exact (effective_formula u m cp d e G P)|].
  apply (local_eq u m cp d e G). destruct G as (_ & N & _). intros E. exact (N _ _ _ E eq_refl).
Qed.
Print Assumptions C68_effective.

(** C68: short circuits between the legs make it larger than the local one. *)
Theorem C68_bounds u m cp d e : good_flow u m cp 1 None d e -> 0 < m \/ u_reversible u = true ->
  let s := cond u d d + cond u e e in
  let eta := bH (u_b u) / (Rabs m * cp) * sqrt (1/4 * s ^ 2 + cond u d e * s) in
  local_R (u_Rd u) < effective_R u m cp <= local_R (u_Rd u) * (1 + eta).
Proof.
  intros G P s eta. destruct (C68_effective u m cp d e G P) as [_ E]. rewrite E.
  exact (effective_bounds u m cp d e G P).
Qed.
Print Assumptions C68_bounds.
