(* Sign of the flow, pipes in networks, effective resistance. *)
From Coq Require Import Reals Lra Lia List Bool Psatz.
From Coquelicot Require Import Coquelicot.
From Verif Require Import Base LinAlg Bore_Model Bore_Proofs Net_Model Net_Spec
  Pipe_Model Pipe_Spec Pipe_Alg_Proofs Pipe_Proofs Pipe_Main_Proofs.
Import ListNotations.
Local Open Scope R_scope.

(* ** Sign of the flow *)
Lemma vars_sign u m cp : u_reversible u = false -> model_vars u (- m) cp = model_vars u m cp.
Proof.
  intros E. unfold model_vars, i_inlet, i_outlet, is_reversed. rewrite E, !andb_false_r, Rabs_Ropp. reflexivity.
Qed.
Lemma index_sign u m : u_reversible u = false -> i_inlet u (- m) = i_inlet u m.
Proof. intros E. unfold i_inlet, is_reversed. rewrite E, !andb_false_r. reflexivity. Qed.

Lemma outlet_sign u m cp n r : u_reversible u = false -> outlet u (- m) cp n r = outlet u m cp n r.
Proof. intros E. unfold outlet. rewrite (vars_sign u m cp E). reflexivity. Qed.
Lemma temperature_sign u m cp n r z : u_reversible u = false -> temperature u (- m) cp n r z = temperature u m cp n r z.
Proof. intros E. unfold temperature. rewrite (vars_sign u m cp E), (index_sign u m E). reflexivity. Qed.
Lemma fluid_sign u m cp n r : u_reversible u = false -> fluid_heat u (- m) cp n r = fluid_heat u m cp n r.
Proof. intros E. unfold fluid_heat, fluid_from. rewrite (outlet_sign u m cp n r E), Rabs_Ropp. reflexivity. Qed.
Lemma inlet_sign u m cp n r : u_reversible u = false -> inlet u (- m) cp n r = inlet u m cp n r.
Proof. intros E. unfold inlet. rewrite (fluid_sign u m cp n r E). reflexivity. Qed.

Lemma heat_seg_any u m cp n r Tin Tb k : let T i z := get_temperature u Tin n Tb m cp r z i in
  let ed := segment_edges (u_b u) n r in
  get_borehole_heat u Tin n Tb m cp r k
  = m * cp * ((T 0%nat (nth (S k) ed 0) - T 0%nat (nth k ed 0)) - (T 1%nat (nth (S k) ed 0) - T 1%nat (nth k ed 0))).
Proof. intros T ed. apply heat_seg. Qed.

Lemma heat_sign u m cp n r Tin Tb k : u_reversible u = false ->
  get_borehole_heat u Tin n Tb (- m) cp r k = - get_borehole_heat u Tin n Tb m cp r k.
Proof.
  intros E. rewrite !heat_seg_any. unfold get_temperature. rewrite !(temperature_sign u m cp n r _ E). ring.
Qed.

Lemma vars_exchanged u m cp : m < 0 -> u_reversible u = true ->
  model_vars u m cp = model_vars (exchanged u) (- m) cp.
Proof.
  intros Hm E. unfold model_vars, i_inlet, i_outlet, is_reversed. rewrite E, Rabs_Ropp.
  replace (Rltb m 0) with true by (symmetry; apply Rltb_true; lra).
  replace (Rltb (- m) 0) with false by (symmetry; apply Rltb_false; lra). reflexivity.
Qed.

Lemma temperature_exchanged u m cp n r z i : m < 0 -> u_reversible u = true -> (i < 2)%nat ->
  fst (temperature u m cp n r z) i = fst (temperature (exchanged u) (- m) cp n r z) (other i)
  /\ forall k, snd (temperature u m cp n r z) i k = snd (temperature (exchanged u) (- m) cp n r z) (other i) k.
Proof.
  intros Hm E Hi. unfold temperature, temperature_at. rewrite (vars_exchanged u m cp Hm E). cbn [fst snd].
  assert (I1 : i_inlet u m = 1%nat).
  { unfold i_inlet, is_reversed. rewrite E. replace (Rltb m 0) with true by (symmetry; apply Rltb_true; lra). reflexivity. }
  assert (I2 : i_inlet (exchanged u) (- m) = 0%nat).
  { unfold i_inlet, is_reversed. replace (Rltb (- m) 0) with false by (symmetry; apply Rltb_false; lra). reflexivity. }
  rewrite I1, I2. destruct i as [|[|i]]; [| |lia]; cbn; auto.
Qed.

Lemma outlet_exchanged u m cp n r : m < 0 -> u_reversible u = true ->
  outlet u m cp n r = outlet (exchanged u) (- m) cp n r.
Proof. intros Hm E. unfold outlet. rewrite (vars_exchanged u m cp Hm E). reflexivity. Qed.

Lemma heat_exchanged u m cp n r Tin Tb k : m < 0 -> u_reversible u = true ->
  get_borehole_heat u Tin n Tb m cp r k = get_borehole_heat (exchanged u) Tin n Tb (- m) cp r k.
Proof.
  intros Hm E. rewrite !heat_seg_any. unfold get_temperature.
  change (segment_edges (u_b (exchanged u)) n r) with (segment_edges (u_b u) n r).
  set (ed := segment_edges (u_b u) n r).
  assert (X : forall z i, (i < 2)%nat ->
     fst (temperature u m cp n r z) i * Tin + sumn n (fun k => snd (temperature u m cp n r z) i k * Tb k)
     = fst (temperature (exchanged u) (- m) cp n r z) (other i) * Tin
       + sumn n (fun k => snd (temperature (exchanged u) (- m) cp n r z) (other i) k * Tb k)).
  { intros z i Hi. destruct (temperature_exchanged u m cp n r z i Hm E Hi) as [A B]. rewrite A. f_equal.
    apply sumn_ext. intros j _. rewrite B. reflexivity. }
  cbv zeta. rewrite !(X _ 0%nat), !(X _ 1%nat) by lia. cbn [other]. ring.
Qed.

(* ** Networks *)
Section Net.
Variables (u : utube) (m cp : R) (n : nat) (r : option (list R)) (d e : nat).
Hypothesis (G : good_flow u m cp n r d e).

Lemma utube_neutral : pipe_neutral (net_pipe u) m cp n r.
Proof.
  split.
  - destruct (equil u m cp n r d e G 1 (fun _ => 1) 1 eq_refl (fun _ _ => eq_refl)) as [E _].
    unfold get_outlet_temperature in E. cbn [net_pipe p_out].
    rewrite Rmult_1_r in E. transitivity (fst (outlet u m cp n r) + sumn n (fun k => snd (outlet u m cp n r) k * 1)); [|exact E].
    f_equal. apply sumn_ext. intros; ring.
  - intros k Hk. pose proof (heat_zero u m cp n r d e G 1 (fun _ => 1) 1 k eq_refl (fun _ _ => eq_refl) Hk) as E.
    unfold get_borehole_heat in E. cbn [net_pipe p_qb]. rewrite <- E. rewrite Rmult_1_r. f_equal.
    apply sumn_ext. intros; ring.
Qed.

Lemma utube_balanced : (0 < m \/ u_reversible u = true) -> pipe_balanced (net_pipe u) m cp n r.
Proof.
  intros P.
  assert (Q : forall Tin Tb, sumn n (fun k => fst (borehole_heat u m cp n r) k * Tin + sumn n (fun l => snd (borehole_heat u m cp n r) k l * Tb l))
     = fst (fluid_heat u m cp n r) * Tin + sumn n (fun k => snd (fluid_heat u m cp n r) k * Tb k)).
  { intros Tin Tb. pose proof (heat_total u m cp n r d e G Tin Tb P) as X.
    rewrite <- (fluid_eq u m cp n r Tin Tb) in X. exact X. }
  assert (F : p_qf (net_pipe u) m cp n r = fluid_heat u m cp n r) by reflexivity.
  split; [|intros l Hl]; rewrite F; cbn [net_pipe p_qb].
  - specialize (Q 1 (fun _ => 0)).
    rewrite (sumn_ext n _ (fst (borehole_heat u m cp n r))) in Q.
    2:{ intros k _. rewrite (sumn_zero n (fun l => _ * 0)); [ring|intros; ring]. }
    rewrite (sumn_zero n (fun l => _ * 0)) in Q by (intros; ring). lra.
  - specialize (Q 0 (fun j => if Nat.eqb j l then 1 else 0)).
    rewrite (sumn_ext n _ (fun k => snd (borehole_heat u m cp n r) k l)) in Q.
    2:{ intros k _. rewrite (sumn_single n l) by
          (auto; intros i Hi Hne; replace (Nat.eqb i l) with false by (symmetry; apply Nat.eqb_neq; lia); ring).
        rewrite Nat.eqb_refl. ring. }
    rewrite (sumn_single n l (fun k => snd (fluid_heat u m cp n r) k * _)) in Q by
          (auto; intros i Hi Hne; replace (Nat.eqb i l) with false by (symmetry; apply Nat.eqb_neq; lia); ring).
    rewrite Nat.eqb_refl in Q. lra.
Qed.
End Net.

(* ** Effective resistance *)
Lemma sinh_ge x : 0 <= x -> x <= sinh x.
Proof.
  intros [Hx|<-]; [|rewrite sinh_0; lra].
  destruct (MVT_cor2 sinh cosh 0 x Hx (fun c _ => derivable_pt_lim_sinh c)) as [c [E Hc]].
  rewrite sinh_0 in E. assert (1 <= cosh c).
  { unfold cosh. pose proof (exp_pos c). pose proof (exp_pos (- c)).
    assert (exp c * exp (- c) = 1) by (rewrite <- exp_plus, Rplus_opp_r; apply exp_0).
    assert (0 <= (exp c - 1)^2) by apply pow2_ge_0. nra. }
  nra.
Qed.

Lemma xcosh_ge x : 0 < x -> sinh x < x * cosh x.
Proof.
  intros Hx.
  assert (D : forall c, derivable_pt_lim (fun y => y * cosh y - sinh y) c (c * sinh c)).
  { intros c. replace (c * sinh c) with ((1 * cosh c + c * sinh c) - cosh c) by ring.
    apply (derivable_pt_lim_minus (fun y => y * cosh y) sinh); [|apply derivable_pt_lim_sinh].
    apply (derivable_pt_lim_mult (fun y => y) cosh); [apply derivable_pt_lim_id|apply derivable_pt_lim_cosh]. }
  destruct (MVT_cor2 _ _ 0 x Hx (fun c _ => D c)) as [c [E Hc]].
  rewrite sinh_0, cosh_0 in E. pose proof (sinh_ge c). assert (0 < c * sinh c) by nra. nra.
Qed.

Lemma xcosh_le x : 0 < x -> x * cosh x <= (1 + x) * sinh x.
Proof.
  intros Hx. assert (S := sinh_ge x (Rlt_le _ _ Hx)).
  assert (E : cosh x - sinh x = exp (- x)) by (unfold cosh, sinh; field).
  assert (exp (- x) < 1) by (rewrite <- exp_0; apply exp_increasing; lra).
  pose proof (exp_pos (- x)). nra.
Qed.

Section Eff.
Variables (u : utube) (m cp : R) (d e : nat).
Hypothesis (G : good_flow u m cp 1 None d e).
Hypothesis (P : 0 < m \/ u_reversible u = true).

Lemma one_segment_heat : fst (borehole_heat u m cp 1 None) O = Rabs m * cp * (fst (outlet u m cp 1 None) - 1).
Proof.
  destruct (utube_balanced u m cp 1 None d e G P) as [B _]. cbn [sumn] in B.
  change (fst (p_qb (net_pipe u) m cp 1 None)) with (fst (borehole_heat u m cp 1 None)) in B.
  change (p_qf (net_pipe u) m cp 1 None) with (fluid_heat u m cp 1 None) in B.
  unfold fluid_heat, fluid_from in B. cbn [fst] in B. cbn [fst]. lra.
Qed.

Let M := Rabs m * cp.
Let s := cond u d d + cond u e e.
Let eta := bH (u_b u) / M * sqrt (1/4 * s ^ 2 + cond u d e * s).

Lemma eta_pos : 0 < eta.
Proof.
  pose proof (M_pos u m cp 1 None d e G) as Mp. fold M in Mp. unfold eta.
  destruct G as [_ [_ [[S1 S2] [_ [HH _]]]]]. fold s in S1, S2.
  apply Rmult_lt_0_compat; [apply Rdiv_lt_0_compat; assumption|]. apply sqrt_lt_R0.
  assert (0 <= (cond u d d - cond u e e)^2) by apply pow2_ge_0. unfold s in *. nra.
Qed.

Lemma gamma_eta : vg (vars_of (cond u d d / M) (cond u e e / M) (cond u d e / M)) * bH (u_b u) = eta.
Proof.
  pose proof (M_pos u m cp 1 None d e G) as Mp. fold M in Mp. unfold eta, vars_of. cbn [vg].
  replace (1 / 4 * (cond u d d / M + cond u e e / M) ^ 2 + cond u d e / M * (cond u d d / M + cond u e e / M))
    with ((1/4 * s ^ 2 + cond u d e * s) / (M * M)) by (unfold s; field; lra).
  rewrite sqrt_div_alt by nra. rewrite sqrt_square by lra. field. lra.
Qed.

Lemma effective_formula : effective_R u m cp = 1 / s * (eta * cosh eta / sinh eta).
Proof.
  unfold effective_R. rewrite one_segment_heat. fold M.
  unfold outlet. rewrite (vars_eq u m cp 1 None d e G). fold M. cbn [fst].
  pose proof (M_pos u m cp 1 None d e G) as Mp. fold M in Mp.
  pose proof (b_det u m cp 1 None d e G) as Hdet. pose proof (b_sum u m cp 1 None d e G) as Hsum. fold M in Hdet, Hsum.
  pose proof eta_pos as Ep. pose proof gamma_eta as GE.
  assert (HH : 0 < bH (u_b u)) by apply G.
  pose proof (den_pos _ _ _ (bH (u_b u)) Hsum Hdet (Rlt_le _ _ HH)) as DP.
  pose proof (den_field _ _ _ (bH (u_b u)) Hsum Hdet (Rlt_le _ _ HH)) as DF.
  pose proof (g_pos _ _ _ Hdet) as GP.
  set (v := vars_of _ _ _) in *.
  assert (EE : exp (- 2 * vg v * bH (u_b u)) = exp (- eta) * exp (- eta)).
  { rewrite <- exp_plus. f_equal. rewrite <- GE. ring. }
  unfold out_in. rewrite EE in *.
  assert (X1 : exp eta * exp (- eta) = 1) by (rewrite <- exp_plus, Rplus_opp_r; apply exp_0).
  assert (X2 : exp (- eta) < 1) by (rewrite <- exp_0; apply exp_increasing; lra).
  pose proof (exp_pos (- eta)) as X3.
  assert (X4 : exp eta = / exp (- eta)) by (apply Rmult_eq_reg_r with (exp (- eta)); [|lra]; rewrite X1, Rinv_l; lra).
  unfold cosh, sinh. rewrite X4.
  unfold cA, cB in *. change (v1 v) with (cond u d d / M) in *. change (v2 v) with (cond u e e / M) in *.
  replace (cond u d d / M + cond u e e / M) with (s / M) in * by (unfold s; field; lra).
  assert (Sp : 0 < s) by (apply G).
  replace (bH (u_b u)) with (eta / vg v) by (rewrite <- GE; field; lra).
  set (E := exp (- eta)) in *. clearbody E eta. clear GE EE.
  generalize dependent (vg v). intros g. intros.
  assert (E * E < 1) by nra.
  assert (g * 2 * M * (1 + E * E) + s * (1 - E * E) <> 0).
  { assert (0 < g * 2 * M) by nra. nra. }
  field. repeat split; try lra; try nra.
  all: try (intros Z; nra).
Qed.

Lemma local_eq : (u_Rd u 0%nat 0%nat <> Res 0) -> local_R (u_Rd u) = 1 / s.
Proof.
  intros _. unfold local_R, over, s, cond. destruct G as [L [N _]].
  assert (X : forall i, match u_Rd u i i with Res r => 1 / (r * 1) | Infinite => 0 end
     = match u_Rd u i i with Res r => 1 / r | Infinite => 0 end).
  { intros i. destruct (u_Rd u i i) eqn:E; [rewrite Rmult_1_r|]; reflexivity. }
  rewrite !X. destruct L as [[-> [-> _]]|[-> [-> _]]]; f_equal; ring.
Qed.

Lemma effective_bounds : 1 / s < effective_R u m cp <= 1 / s * (1 + eta).
Proof.
  rewrite effective_formula. pose proof eta_pos as Ep.
  assert (Sp : 0 < s) by (apply G).
  assert (Q := sinh_ge eta (Rlt_le _ _ Ep)). assert (A := xcosh_ge eta Ep). assert (B := xcosh_le eta Ep).
  assert (I : 0 < 1 / s) by (apply Rdiv_lt_0_compat; lra).
  assert (J : 1 < eta * cosh eta / sinh eta).
  { apply Rmult_lt_reg_r with (sinh eta); [lra|]. unfold Rdiv. rewrite Rmult_assoc, Rinv_l by lra. lra. }
  assert (K : eta * cosh eta / sinh eta <= 1 + eta).
  { apply Rmult_le_reg_r with (sinh eta); [lra|]. unfold Rdiv. rewrite Rmult_assoc, Rinv_l by lra. lra. }
  split; nra.
Qed.
End Eff.
