(* Properties of the queries of a U-tube. *)
From Coq Require Import Reals Lra Lia List Bool Psatz.
From Coquelicot Require Import Coquelicot.
From Verif Require Import Base LinAlg Bore_Model Bore_Proofs Net_Model Net_Spec
  Pipe_Model Pipe_Spec Pipe_Alg_Proofs Pipe_Proofs.
Import ListNotations.
Local Open Scope R_scope.

Lemma ratios_length n r : good_ratios n r -> length (default_ratios n r) = n.
Proof. destruct r as [l|]; cbn; [tauto|]. intros _. apply repeat_length. Qed.

Lemma ratios_nonneg n r i : good_ratios n r -> 0 <= nth i (default_ratios n r) 0.
Proof.
  destruct r as [l|]; cbn [good_ratios default_ratios].
  - intros [_ [F _]]. destruct (Nat.lt_ge_cases i (length l)).
    + rewrite Forall_forall in F. apply F, nth_In. assumption.
    + rewrite nth_overflow; [lra|assumption].
  - intros Hn. destruct (Nat.lt_ge_cases i n).
    + rewrite nth_indep with (d' := 1 / INR n) by (rewrite repeat_length; assumption).
      rewrite nth_repeat. apply Rmult_le_pos; [lra|]. left; apply Rinv_0_lt_compat, lt_0_INR; exact Hn.
    + rewrite nth_overflow; [lra|rewrite repeat_length; assumption].
Qed.

Lemma ratios_sum n r : good_ratios n r -> Rsum (default_ratios n r) = 1.
Proof.
  destruct r as [l|]; [cbn; tauto|]. cbn [good_ratios]. intros Hn. apply default_ratios_sum. lia.
Qed.

Section Tube.
Variables (u : utube) (m cp : R) (n : nat) (r : option (list R)) (d e : nat).
Hypothesis (G : good_flow u m cp n r d e).
Let H := bH (u_b u).
Let ed := segment_edges (u_b u) n r.
Let M := Rabs m * cp.
Let b1 := cond u d d / M.
Let b2 := cond u e e / M.
Let b12 := cond u d e / M.

Lemma M_pos : 0 < M.
Proof.
  destruct G as [L [_ [_ [C _]]]]. unfold M. apply Rmult_lt_0_compat; [|exact C].
  apply Rabs_pos_lt. destruct L as [[_ [_ [L|[L _]]]]|[_ [_ [L _]]]]; lra.
Qed.

Lemma over_cond i j : over (u_Rd u i j) M = cond u i j / M.
Proof.
  destruct G as [_ [N _]]. pose proof M_pos as P. unfold over, cond.
  destruct (u_Rd u i j) as [x|] eqn:E; [|unfold Rdiv; ring].
  specialize (N _ _ _ E). field. split; lra.
Qed.

Lemma legs_index : i_inlet u m = d /\ i_outlet u m = e /\ d <> e /\ (d < 2)%nat /\ (e < 2)%nat.
Proof.
  destruct G as [L _]. unfold i_inlet, i_outlet, is_reversed.
  destruct L as [[-> [-> [L|[L L']]]]|[-> [-> [L L']]]].
  - replace (Rltb m 0) with false by (symmetry; apply Rltb_false; lra). cbn. lia.
  - rewrite L', andb_false_r. lia.
  - rewrite L'. replace (Rltb m 0) with true by (symmetry; apply Rltb_true; lra). cbn. lia.
Qed.

Lemma vars_eq : model_vars u m cp = vars_of b1 b2 b12.
Proof.
  unfold model_vars, update_vars. destruct legs_index as [-> [-> _]]. fold M.
  rewrite !over_cond. reflexivity.
Qed.

Lemma b_sum : 0 < b1 + b2.
Proof.
  pose proof M_pos. destruct G as [_ [_ [[A _] _]]]. unfold b1, b2.
  replace (cond u d d / M + cond u e e / M) with ((cond u d d + cond u e e) / M) by (field; lra).
  apply Rdiv_lt_0_compat; lra.
Qed.

Lemma b_det : 0 < b1 * b2 + b12 * (b1 + b2).
Proof.
  pose proof M_pos. destruct G as [_ [_ [[_ A] _]]]. unfold b1, b2, b12.
  replace (cond u d d / M * (cond u e e / M) + cond u d e / M * (cond u d d / M + cond u e e / M))
    with ((cond u d d * cond u e e + cond u d e * (cond u d d + cond u e e)) / (M * M)) by (field; lra).
  apply Rdiv_lt_0_compat; [exact A|nra].
Qed.

Lemma H_pos : 0 < H. Proof. apply G. Qed.
Lemma H_nn : 0 <= H. Proof. left; apply H_pos. Qed.
Lemma r_good : good_ratios n r. Proof. apply G. Qed.

Lemma ed_nth k : (k <= n)%nat -> nth k ed 0 = H * sumn k (fun i => nth i (default_ratios n r) 0).
Proof. intros Hk. apply edges_nth. rewrite ratios_length by apply r_good. exact Hk. Qed.

Lemma ed_0 : nth 0 ed 0 = 0.
Proof. rewrite ed_nth by lia. cbn [sumn]. ring. Qed.
Lemma ed_n : nth n ed 0 = H.
Proof.
  rewrite ed_nth by lia. rewrite <- (ratios_length n r r_good) at 1.
  rewrite <- Rsum_sumn, (ratios_sum n r r_good). ring.
Qed.
Lemma ed_step k : (k < n)%nat -> nth k ed 0 <= nth (S k) ed 0.
Proof.
  intros Hk. rewrite !ed_nth by lia. cbn [sumn].
  pose proof (ratios_nonneg n r k r_good). pose proof H_pos. nra.
Qed.

Lemma ed_depth k : (k <= n)%nat -> nth k ed 0 = depth u n r k.
Proof.
  intros Hk. rewrite ed_nth by exact Hk. unfold depth. fold H. f_equal.
  change (match r with Some l => l | None => repeat (1 / INR n) n end) with (default_ratios n r).
  rewrite Rsum_sumn, firstn_length, ratios_length by apply r_good.
  replace (Nat.min k n) with k by lia. apply sumn_ext. intros i Hi. symmetry. apply nth_firstn. exact Hi.
Qed.

Variables (Tin : R) (Tb : nat -> R).
Let T i z := get_temperature u Tin n Tb m cp r z i.

Lemma T_d z : T d z = t_in0 (vars_of b1 b2 b12) H z * Tin + sumn n (fun k => t_b0 (vars_of b1 b2 b12) H ed z k * Tb k).
Proof.
  unfold T, get_temperature, temperature, temperature_at. rewrite vars_eq.
  destruct legs_index as [-> _]. cbn [fst snd]. rewrite Nat.eqb_refl. reflexivity.
Qed.
Lemma T_e z : T e z = t_in1 (vars_of b1 b2 b12) H z * Tin + sumn n (fun k => t_b1 (vars_of b1 b2 b12) H ed z k * Tb k).
Proof.
  unfold T, get_temperature, temperature, temperature_at. rewrite vars_eq.
  destruct legs_index as [-> [_ [Hne _]]]. cbn [fst snd].
  replace (Nat.eqb e d) with false by (symmetry; apply Nat.eqb_neq; lia). reflexivity.
Qed.
Lemma out_eq : get_outlet_temperature u Tin n Tb m cp r
  = out_in (vars_of b1 b2 b12) H * Tin + sumn n (fun k => out_b (vars_of b1 b2 b12) H ed k * Tb k).
Proof. unfold get_outlet_temperature, outlet. rewrite vars_eq. reflexivity. Qed.

Lemma energy k z : (k < n)%nat -> depth u n r k < z < depth u n r (S k) ->
  energy_balance u d e M (Tb k) T z.
Proof.
  intros Hk Hz. rewrite <- !ed_depth in Hz by lia.
  destruct (profile_der b1 b2 b12 H b_sum b_det H_nn n ed ed_step Tin Tb k z Hk Hz) as [D0 D1].
  pose proof M_pos as P.
  exists (- (b1 + b12) * T d z + b12 * T e z + b1 * Tb k).
  exists (- b12 * T d z + (b2 + b12) * T e z - b2 * Tb k).
  split; [|split; [|split]].
  - apply (der_eq _ (T d) z _ _ D0); [intros y; symmetry; apply T_d|rewrite T_d, T_e; reflexivity].
  - apply (der_eq _ (T e) z _ _ D1); [intros y; symmetry; apply T_e|rewrite T_d, T_e; reflexivity].
  - unfold b1, b12. field. lra.
  - unfold b2, b12. field. lra.
Qed.

Lemma profile_continuous (z : R) : continuous (T d) z /\ continuous (T e) z.
Proof.
  destruct (profile_cont b1 b2 b12 H b_sum b_det n ed Tin Tb z) as [D0 D1].
  split.
  - eapply continuous_ext; [|exact D0]. intros y. symmetry; apply T_d.
  - eapply continuous_ext; [|exact D1]. intros y. symmetry; apply T_e.
Qed.

Lemma boundary : T d 0 = Tin /\ T d H = T e H /\ T e 0 = get_outlet_temperature u Tin n Tb m cp r.
Proof.
  rewrite out_eq, !T_d, !T_e.
  apply (profile_ends b1 b2 b12 H b_sum b_det H_nn n ed ed_0 ed_n ed_step).
Qed.

Lemma equil T0 : Tin = T0 -> (forall k, (k < n)%nat -> Tb k = T0) ->
  get_outlet_temperature u Tin n Tb m cp r = T0
  /\ forall z, 0 <= z <= H -> T d z = T0 /\ T e z = T0.
Proof.
  intros E HT. split.
  - rewrite out_eq, E. rewrite (sumn_ext n _ (fun k => out_b (vars_of b1 b2 b12) H ed k * T0)).
    2:{ intros k Hk. rewrite HT by exact Hk. reflexivity. }
    rewrite sumn_scal_r.
    rewrite <- (Rmult_1_l T0) at 3.
    rewrite <- (out_sum b1 b2 b12 H b_sum b_det H_nn n ed ed_0 ed_n ed_step). ring.
  - intros z Hz.
    destruct (coef_sum b1 b2 b12 H b_sum b_det H_nn n ed ed_0 ed_n z Hz) as [S0 S1].
    rewrite T_d, T_e, E. split.
    + rewrite (sumn_ext n _ (fun k => t_b0 (vars_of b1 b2 b12) H ed z k * T0)).
      2:{ intros k Hk. rewrite HT by exact Hk. reflexivity. }
      rewrite sumn_scal_r. rewrite <- (Rmult_1_l T0) at 3. rewrite <- S0. ring.
    + rewrite (sumn_ext n _ (fun k => t_b1 (vars_of b1 b2 b12) H ed z k * T0)).
      2:{ intros k Hk. rewrite HT by exact Hk. reflexivity. }
      rewrite sumn_scal_r. rewrite <- (Rmult_1_l T0) at 3. rewrite <- S1. ring.
Qed.

(* Heat *)
Lemma heat_seg k : get_borehole_heat u Tin n Tb m cp r k
  = m * cp * ((T 0%nat (nth (S k) ed 0) - T 0%nat (nth k ed 0)) - (T 1%nat (nth (S k) ed 0) - T 1%nat (nth k ed 0))).
Proof.
  unfold get_borehole_heat, borehole_heat, heat_from. fold ed. cbn [fst snd sumn m_flow_pipe].
  unfold T, get_temperature. set (c := temperature u m cp n r).
  set (z := nth (S k) ed 0). set (y := nth k ed 0).
  rewrite (sumn_ext n _ (fun l => m * cp * (snd (c z) 0%nat l * Tb l) - m * cp * (snd (c y) 0%nat l * Tb l)
     - (m * cp * (snd (c z) 1%nat l * Tb l) - m * cp * (snd (c y) 1%nat l * Tb l)))) by (intros; ring).
  rewrite !sumn_minus, !sumn_scal. ring.
Qed.

Lemma heat_legs k : (0 < m \/ u_reversible u = true) ->
  get_borehole_heat u Tin n Tb m cp r k
  = M * ((T d (nth (S k) ed 0) - T d (nth k ed 0)) - (T e (nth (S k) ed 0) - T e (nth k ed 0))).
Proof.
  intros P. rewrite heat_seg. unfold M. destruct G as [L _].
  destruct L as [[-> [-> [L|[L L']]]]|[-> [-> [L L']]]].
  - rewrite Rabs_pos_eq by lra. ring.
  - rewrite L' in P. destruct P; [lra|discriminate].
  - rewrite Rabs_left by lra. ring.
Qed.

Lemma heat_legs_neg k : m < 0 -> u_reversible u = false ->
  get_borehole_heat u Tin n Tb m cp r k
  = - M * ((T d (nth (S k) ed 0) - T d (nth k ed 0)) - (T e (nth (S k) ed 0) - T e (nth k ed 0))).
Proof.
  intros P Q. rewrite heat_seg. unfold M. destruct G as [L _].
  destruct L as [[-> [-> [L|[L L']]]]|[-> [-> [L L']]]].
  - lra.
  - rewrite Rabs_left by lra. ring.
  - rewrite Q in L'. discriminate.
Qed.

Lemma tele : sumn n (fun k => (T d (nth (S k) ed 0) - T d (nth k ed 0)) - (T e (nth (S k) ed 0) - T e (nth k ed 0)))
  = get_outlet_temperature u Tin n Tb m cp r - Tin.
Proof.
  rewrite sumn_minus, (sumn_telescope n (fun k => T d (nth k ed 0))), (sumn_telescope n (fun k => T e (nth k ed 0))).
  rewrite ed_0, ed_n. destruct boundary as [B0 [B1 B2]]. lra.
Qed.

Lemma heat_total : (0 < m \/ u_reversible u = true) ->
  sumn n (get_borehole_heat u Tin n Tb m cp r) = Rabs m * cp * (get_outlet_temperature u Tin n Tb m cp r - Tin).
Proof.
  intros P. rewrite (sumn_ext n _ (fun k => M * ((T d (nth (S k) ed 0) - T d (nth k ed 0)) - (T e (nth (S k) ed 0) - T e (nth k ed 0)))))
    by (intros; apply heat_legs; exact P).
  rewrite sumn_scal, tele. reflexivity.
Qed.

Lemma heat_total_neg : m < 0 -> u_reversible u = false ->
  sumn n (get_borehole_heat u Tin n Tb m cp r) = - (Rabs m * cp * (get_outlet_temperature u Tin n Tb m cp r - Tin)).
Proof.
  intros P Q. rewrite (sumn_ext n _ (fun k => - M * ((T d (nth (S k) ed 0) - T d (nth k ed 0)) - (T e (nth (S k) ed 0) - T e (nth k ed 0)))))
    by (intros; apply heat_legs_neg; assumption).
  rewrite sumn_scal, tele. unfold M. ring.
Qed.

Lemma heat_zero T0 k : Tin = T0 -> (forall k, (k < n)%nat -> Tb k = T0) -> (k < n)%nat ->
  get_borehole_heat u Tin n Tb m cp r k = 0.
Proof.
  intros E HT Hk. rewrite heat_seg. destruct (equil T0 E HT) as [_ Q].
  assert (R1 := ed_range H n ed ed_0 ed_n ed_step k (Nat.lt_le_incl _ _ Hk)).
  assert (R2 := ed_range H n ed ed_0 ed_n ed_step (S k) Hk).
  destruct (Q _ R1) as [X1 X2]. destruct (Q _ R2) as [X3 X4].
  destruct G as [L _]. destruct L as [[Ed [Ee _]]|[Ed [Ee _]]]; rewrite Ed, Ee in *; rewrite X1, X2, X3, X4; ring.
Qed.

Lemma fluid_eq : get_fluid_heat u Tin n Tb m cp r = Rabs m * cp * (get_outlet_temperature u Tin n Tb m cp r - Tin).
Proof.
  unfold get_fluid_heat, fluid_heat, fluid_from, get_outlet_temperature. cbn [fst snd].
  rewrite (sumn_ext n _ (fun k => Rabs m * cp * (snd (outlet u m cp n r) k * Tb k))) by (intros; ring).
  rewrite sumn_scal. ring.
Qed.

Lemma out_bounds lo hi : 0 <= cond u d e ->
  lo <= Tin <= hi -> (forall k, (k < n)%nat -> lo <= Tb k <= hi) ->
  lo <= get_outlet_temperature u Tin n Tb m cp r <= hi.
Proof.
  intros Hc Hi Hb. rewrite out_eq.
  pose proof (out_sum b1 b2 b12 H b_sum b_det H_nn n ed ed_0 ed_n ed_step) as S1.
  assert (N0 : 0 <= out_in (vars_of b1 b2 b12) H).
  { apply out_in_nonneg; [apply b_sum|apply b_det|apply H_nn|].
    unfold b12. apply Rmult_le_pos; [exact Hc|left; apply Rinv_0_lt_compat, M_pos]. }
  assert (Nk : forall k, (k < n)%nat -> 0 <= out_b (vars_of b1 b2 b12) H ed k).
  { intros. apply (out_b_nonneg b1 b2 b12 H b_sum b_det H_nn n ed ed_step); assumption. }
  set (a := out_in (vars_of b1 b2 b12) H) in *. set (w := out_b (vars_of b1 b2 b12) H ed) in *.
  assert (L1 : sumn n (fun k => w k * lo) <= sumn n (fun k => w k * Tb k)).
  { apply sumn_le. intros k Hk. specialize (Nk k Hk). specialize (Hb k Hk). nra. }
  assert (L2 : sumn n (fun k => w k * Tb k) <= sumn n (fun k => w k * hi)).
  { apply sumn_le. intros k Hk. specialize (Nk k Hk). specialize (Hb k Hk). nra. }
  rewrite sumn_scal_r in L1, L2. replace (sumn n w) with (1 - a) in * by lra. nra.
Qed.

Lemma coef_signs : 0 <= cond u d e ->
  0 <= fst (outlet u m cp n r) < 1 /\ forall k, (k < n)%nat -> 0 <= snd (outlet u m cp n r) k.
Proof.
  intros Hc. unfold outlet. rewrite vars_eq. cbn [fst snd]. fold H ed. repeat split.
  - apply out_in_nonneg; [apply b_sum|apply b_det|apply H_nn|].
    unfold b12. apply Rmult_le_pos; [exact Hc|left; apply Rinv_0_lt_compat, M_pos].
  - apply out_in_lt1; [apply b_sum|apply b_det|apply H_nn|apply H_pos].
  - intros. apply (out_b_nonneg b1 b2 b12 H b_sum b_det H_nn n ed ed_step); assumption.
Qed.

Lemma out_lt1 : fst (outlet u m cp n r) < 1.
Proof.
  unfold outlet. rewrite vars_eq. cbn [fst].
  apply out_in_lt1; [apply b_sum|apply b_det|apply H_nn|apply H_pos].
Qed.

Lemma inlet_some : exists c, inlet u m cp n r = Some c.
Proof.
  unfold inlet, inlet_from, fluid_heat, fluid_from. cbn [fst snd].
  destruct (Reqb _ 0) eqn:E; [|eexists; reflexivity].
  apply Reqb_true in E. pose proof out_lt1. pose proof M_pos as P. unfold M in P. nra.
Qed.
End Tube.

Lemma inlet_inverts u Q n Tb m cp r Tin :
  get_inlet_temperature u Q n Tb m cp r = Some Tin -> get_fluid_heat u Tin n Tb m cp r = Q.
Proof.
  unfold get_inlet_temperature, inlet, inlet_from, get_fluid_heat.
  generalize (fluid_heat u m cp n r); intros q. destruct (Reqb (fst q) 0) eqn:E; [discriminate|].
  apply Reqb_false in E. cbn [option_map fst snd]. intros X; injection X as Y. rewrite <- Y. clear Y.
  rewrite (sumn_ext n (fun k => - / fst q * snd q k * Tb k) (fun k => - / fst q * (snd q k * Tb k))) by (intros; ring).
  rewrite sumn_scal. field. exact E.
Qed.
