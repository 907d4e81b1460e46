(** Properties of the solution of the g-function equations: C44 - C47, C78, C79, C80. *)
From Verif Require Import Base LinAlg Bore_Model Net_Model Solve_Model Solve_Spec Solve_Rec_Proofs Solve_Loop_Proofs Solve_Eq_Proofs Solve_Sol_Proofs Solve_Extra_Proofs.

(** A grid with steps of different lengths, loads on it. *)
Definition ex_time : list R := [1; 3; 4].
Definition ex_load : list R := [6; 2; 5].
Lemma ex_grid : grid ex_time.
Proof. split; [discriminate|]. intros [|[|[|k]]] Hk; unfold at_time, ex_time in *; cbn in *; try lra; lia. Qed.

(** Two sources of different lengths, and their responses. *)
Definition ex_H : vec := fun i => match i with O => 1 | _ => 2 end.
Definition ex_resp : nat -> nat -> R -> R := fun i j t => match i, j with O, O => 4 * t | O, _ => 2 * t | _, O => t | _, _ => 3 * t end.
Lemma ex_definite : forall t, In t ex_time -> definite 2 ex_H (fun i j => ex_resp i j t).
Proof.
  intros t Ht x [i [Hi Hx]]. assert (0 < t) by (destruct Ht as [<-|[<-|[<-|[]]]]; lra).
  unfold ex_H, ex_resp. cbn [sumn].
  assert (0 < x O * x O + x 1%nat * x 1%nat).
  { destruct i as [|[|i]]; [| |lia]; pose proof (Rsqr_pos_lt _ Hx) as P; unfold Rsqr in P; pose proof (Rle_0_sqr (x O)) as A; pose proof (Rle_0_sqr (x 1%nat)) as B; unfold Rsqr in *; lra. }
  replace (_ + _) with (t * (2 * (x O * x O + x 1%nat * x 1%nat) + 2 * ((x O + x 1%nat) * (x O + x 1%nat)) + 2 * (x 1%nat * x 1%nat))) by ring.
  pose proof (Rle_0_sqr (x O + x 1%nat)). pose proof (Rle_0_sqr (x 1%nat)). unfold Rsqr in *. apply Rmult_lt_0_compat; lra.
Qed.
Lemma ex_solved : exists Q g, solve_ubwt 2 ex_H (on_grid ex_resp) ex_time 0 = Some (Q, g).
Proof. apply ubwt_some; [lia|apply ex_grid|apply ex_definite]. Qed.

(** * C44 *)

(** The reconstruction is defined on every grid: each reconstructed load is the mean of
    the loads over the same interval of time. *)
Theorem C44_mean : forall time Q, grid time -> length Q = length time ->
  exists q, reconstruct time Q = Some q /\ length q = length time /\
  forall k, (k < length time)%nat -> nth k q 0 = mean_load time Q k.
Proof.
  intros time Q G L. eexists. split; [apply reconstruct_mean; auto|]. split; [rewrite map_length, seq_length; auto|].
  intros k Hk. rewrite nth_map_seq by auto. reflexivity.
Qed.
Print Assumptions C44_mean.
Theorem C44_conserves : forall time Q q, grid time -> length Q = length time -> reconstruct time Q = Some q ->
  sumn (length time) (fun k => nth k q 0 * (reversed_time time (S k) - reversed_time time k))
  = sumn (length time) (fun k => nth k Q 0 * (at_time time (S k) - at_time time k)).
Proof. exact rec_conserves. Qed.
Print Assumptions C44_conserves.
Theorem C44_range : forall time Q q m M, grid time -> length Q = length time -> (forall x, In x Q -> m <= x <= M) ->
  reconstruct time Q = Some q -> forall x, In x q -> m <= x <= M.
Proof. exact rec_range. Qed.
Print Assumptions C44_range.
Theorem C44_constant : forall time c, grid time -> reconstruct time (repeat c (length time)) = Some (repeat c (length time)).
Proof. exact rec_constant. Qed.
Print Assumptions C44_constant.
Theorem C44_equal : forall time d Q, grid time -> equal_steps time d -> length Q = length time -> reconstruct time Q = Some Q.
Proof. exact rec_equal. Qed.
Print Assumptions C44_equal.
(** steps of 1, 2 and 1, loads 6, 2, 5: the mean loads over [0,1], [1,3], [3,4] *)
Example C44_ex : grid ex_time /\ length ex_load = length ex_time /\ (exists q, reconstruct ex_time ex_load = Some q) /\ equal_steps [2; 4; 6] 2.
Proof.
  split; [apply ex_grid|]. split; auto. split; [destruct (C44_mean ex_time ex_load ex_grid eq_refl) as [q [E _]]; eauto|].
  intros [|[|[|k]]] Hk; unfold at_time; cbn in *; try lra; lia.
Qed.

(** * C45 *)

(** The load increment at the start of the k-th reconstructed step counts with the
    response at the time that has elapsed since. *)
Theorem C45_times : forall n time (resp : nat -> nat -> R -> R) Q i, (0 < n)%nat -> length Q = n -> (forall q, In q Q -> length q = length time) ->
  temporal_superposition n (fun i j k => resp i j (at_time time (S k))) Q i
  = sumn n (fun j => sumn (length time) (fun k =>
      (nth k (nth j Q []) 0 - match k with O => 0 | S l => nth l (nth j Q []) 0 end)
      * resp i j (end_time time - reversed_time time k))).
Proof. exact superposition_time. Qed.
Print Assumptions C45_times.
Example C45_ex : length [ex_load; ex_load] = 2%nat /\ (forall q, In q [ex_load; ex_load] -> length q = length ex_time).
Proof. split; auto. intros q [<-|[<-|[]]]; auto. Qed.

(** * C46 *)

Theorem C46_ubwt : forall n H trf time thr Q g k, solve_ubwt n H trf time thr = Some (Q, g) -> (k < length time)%nat ->
  sumn n (fun i => H i * nth k Q zero_vec i) = sumn n H.
Proof. exact ubwt_normal. Qed.
Print Assumptions C46_ubwt.
Theorem C46_mift : forall n H trf k_s Hi Fs time thr g Q T f k, solve_mift n H trf k_s Hi Fs time thr = Some (g, Q, T) ->
  (f < length Fs)%nat -> (k < length time)%nat ->
  sumn n (fun i => H i * nth k (nth f Q []) zero_vec i) = sumn n H.
Proof. exact mift_normal. Qed.
Print Assumptions C46_mift.
(** The wall temperatures of all the sources are equal to the g-function. *)
Theorem C46_uniform : forall n H resp time Q g p i, (0 < n)%nat -> grid time -> solve_ubwt n H (on_grid resp) time 0 = Some (Q, g) ->
  (p < length time)%nat -> (i < n)%nat -> superposed n resp time Q p i (nth p g 0).
Proof. exact ubwt_superposed. Qed.
Print Assumptions C46_uniform.
Example C46_ex : exists Q g, solve_ubwt 2 ex_H (on_grid ex_resp) ex_time 0 = Some (Q, g).
Proof. exact ex_solved. Qed.

(** * C47 *)

(** The results below the threshold and above it, in terms of the results without
    threshold on the grid of the threshold and the times above it; either both are
    defined or none is. *)
Theorem C47_uhtr : forall n H trf time thr, sorted time -> positive time -> 0 < thr ->
  let (g, T) := solve_uhtr n H trf time thr in
  let (g', T') := solve_uhtr n H trf (kept time thr) 0 in
  length g = length time /\ length T = length time /\
  linear_then time thr (fun k => nth k g 0) (fun k => nth k g' 0) /\
  forall i, linear_then time thr (fun k => nth k T zero_vec i) (fun k => nth k T' zero_vec i).
Proof. exact uhtr_linear. Qed.
Print Assumptions C47_uhtr.
Theorem C47_ubwt : forall n H trf time thr, sorted time -> positive time -> 0 < thr ->
  match solve_ubwt n H trf time thr, solve_ubwt n H trf (kept time thr) 0 with
  | Some (Q, g), Some (Q', g') =>
      length g = length time /\ length Q = length time /\
      linear_then time thr (fun k => nth k g 0) (fun k => nth k g' 0) /\
      forall i, linear_then time thr (fun k => nth k Q zero_vec i - 1) (fun k => nth k Q' zero_vec i - 1)
  | None, None => True
  | _, _ => False
  end.
Proof. exact ubwt_linear. Qed.
Print Assumptions C47_ubwt.
Theorem C47_mift_one : forall n H trf k_s Hi F time thr, sorted time -> positive time -> 0 < thr ->
  match solve_mift n H trf k_s Hi [F] time thr, solve_mift n H trf k_s Hi [F] (kept time thr) 0 with
  | Some (g, Q, T), Some (g', Q', T') =>
      linear_then time thr (g O O) (g' O O) /\
      (forall i, linear_then time thr (fun k => nth k (nth 0 Q []) zero_vec i - 1) (fun k => nth k (nth 0 Q' []) zero_vec i - 1)) /\
      (forall i, linear_then time thr (fun k => nth k (nth 0 T []) zero_vec i) (fun k => nth k (nth 0 T' []) zero_vec i))
  | None, None => True
  | _, _ => False
  end.
Proof. exact mift_linear. Qed.
Print Assumptions C47_mift_one.
Example C47_ex : sorted ex_time /\ positive ex_time /\ kept ex_time (7/2) = [7/2; 4] /\ kept ex_time (1/2) = ex_time.
Proof.
  destruct (grid_positive ex_time ex_grid) as [P S]. refine (conj S (conj P _)). unfold kept, ex_time. cbn [existsb filter].
  destruct (Rleb 1 (7/2)) eqn:A; [|apply Rleb_false in A; lra].
  destruct (Rltb (7/2) 1) eqn:B1; [apply Rltb_true in B1; lra|]. destruct (Rltb (7/2) 3) eqn:B2; [apply Rltb_true in B2; lra|]. destruct (Rltb (7/2) 4) eqn:B3; [|apply Rltb_false in B3; lra].
  destruct (Rleb 1 (1/2)) eqn:C1; [apply Rleb_true in C1; lra|]. destruct (Rleb 3 (1/2)) eqn:C2; [apply Rleb_true in C2; lra|]. destruct (Rleb 4 (1/2)) eqn:C3; [apply Rleb_true in C3; lra|]. split; reflexivity.
Qed.

(** Several mass flow rates: the solution fails as soon as there are times below the
    threshold, unless their number happens to be that of the mass flow rates. *)
Theorem C47_mift_fails : forall n H trf k_s Hi Fs time thr, (2 <= length Fs)%nat -> (0 < p_long time thr)%nat -> p_long time thr <> length Fs ->
  solve_mift n H trf k_s Hi Fs time thr = None.
Proof. exact mift_crash. Qed.
Print Assumptions C47_mift_fails.

(** One source and two mass flow rates that differ by the resistance of the field. *)
Definition ex_flow (r : R) : flow := mkflow (fun _ => -1) (fun _ _ => 1) (-1) (fun _ => 1) 1 r.
Definition ex_flows : list flow := [ex_flow 0; ex_flow 1].
Definition ex_one : vec := fun _ => 1.

Lemma ex_p_long : p_long [1; 2] (3/2) = 1%nat /\ p_long [1; 2] 2 = 2%nat.
Proof.
  unfold p_long. cbn [searchsorted_right].
  destruct (Rleb 1 (3/2)) eqn:A; [|apply Rleb_false in A; lra]. destruct (Rleb 2 (3/2)) eqn:B; [apply Rleb_true in B; lra|].
  destruct (Rleb 1 2) eqn:C; [|apply Rleb_false in C; lra]. destruct (Rleb 2 2) eqn:D; [|apply Rleb_false in D; lra]. auto.
Qed.

Lemma ex_pair a b : 0 < a -> a < b -> grid [a; b] /\ sorted [a; b] /\ positive [a; b].
Proof.
  intros A B. assert (G : grid [a; b]) by (split; [discriminate|]; intros [|[|k]] Hk; unfold at_time; cbn in *; try lra; lia).
  destruct (grid_positive _ G) as [P S]. auto.
Qed.

Lemma ex_mift time : grid time -> exists r, solve_mift 1 ex_one (on_grid ex_resp) 1 ex_one ex_flows time 0 = Some r.
Proof.
  intros G. destruct (mift_one_some ex_one ex_resp 1 ex_one ex_flows time) as [rs E]; auto; try (unfold ex_one; lra).
  - intros F [<-|[<-|[]]]; cbn; lra.
  - rewrite mift_zero by (apply grid_positive; auto). rewrite E. eauto.
Qed.

(** The failure of the solution although there is one for the grid with the threshold. *)
Theorem C47_mift_refuted : exists n H resp k_s Hi Fs time thr, sorted time /\ positive time /\ 0 < thr /\
  solve_mift n H (on_grid resp) k_s Hi Fs time thr = None /\
  exists r, solve_mift n H (on_grid resp) k_s Hi Fs (kept time thr) 0 = Some r.
Proof.
  exists 1%nat, ex_one, ex_resp, 1, ex_one, ex_flows, [1; 2], (3/2).
  destruct (ex_pair 1 2 ltac:(lra) ltac:(lra)) as [_ [S P]]. refine (conj S (conj P (conj _ (conj _ _)))); [lra| |].
  - apply mift_crash; rewrite ?(proj1 ex_p_long); cbn; lia.
  - apply ex_mift. unfold kept. cbn [existsb filter].
    destruct (Rleb 1 (3/2)) eqn:A; [|apply Rleb_false in A; lra]. destruct (Rltb (3/2) 1) eqn:B; [apply Rltb_true in B; lra|]. destruct (Rltb (3/2) 2) eqn:C; [|apply Rltb_false in C; lra].
    apply ex_pair; lra.
Qed.
Print Assumptions C47_mift_refuted.

(** As many times below the threshold as mass flow rates: no failure, but wrong values. *)
Theorem C47_mift_values_refuted : exists n H resp k_s Hi Fs time thr g Q T g' Q' T', sorted time /\ positive time /\ 0 < thr /\
  solve_mift n H (on_grid resp) k_s Hi Fs time thr = Some (g, Q, T) /\
  solve_mift n H (on_grid resp) k_s Hi Fs (kept time thr) 0 = Some (g', Q', T') /\
  exists i j, (i < length Fs)%nat /\ (j < length Fs)%nat /\ ~ linear_then time thr (g i j) (g' i j).
Proof.
  destruct (ex_pair 1 2 ltac:(lra) ltac:(lra)) as [_ [S P]].
  assert (K : kept [1; 2] 2 = [2]).
  { unfold kept. cbn [existsb filter]. destruct (Rleb 1 2) eqn:A; [|apply Rleb_false in A; lra]. destruct (Rltb 2 1) eqn:B; [apply Rltb_true in B; lra|]. destruct (Rltb 2 2) eqn:C; [apply Rltb_true in C; lra|]. auto. }
  assert (G : grid [2]) by (split; [discriminate|]; intros [|k] Hk; unfold at_time; cbn in *; try lra; lia).
  destruct (ex_mift [2] G) as [[[g' Q'] T'] E].
  destruct (mift_one_some ex_one ex_resp 1 ex_one ex_flows [2]) as [rs Ers]; auto; try (unfold ex_one; lra).
  { intros F [<-|[<-|[]]]; cbn; lra. }
  assert (E2 : exists g Q T, solve_mift 1 ex_one (on_grid ex_resp) 1 ex_one ex_flows [1; 2] 2 = Some (g, Q, T) /\ g 0%nat 1%nat 0%nat = g' 1%nat 0%nat 0%nat * 1 / 2).
  { pose proof E as E'. rewrite mift_zero in E' by (apply grid_positive; auto). rewrite Ers in E'. injection E' as Eg _ _.
    rewrite mift_all. assert (TL : time_long [1; 2] 2 = [2]) by (unfold time_long; rewrite (proj2 ex_p_long); reflexivity). rewrite TL, Ers.
    unfold linearise_all. rewrite (proj2 ex_p_long). cbn [Nat.ltb Nat.leb length ex_flows Nat.eqb]. do 3 eexists. split; [reflexivity|].
    cbn [Nat.ltb Nat.leb nth]. replace (g_runs 1 ex_one 1 ex_flows (p_zero [1; 2] 2) (map (pad [1; 2] 2) rs) 1 0 (2 - 1)) with (g' 1%nat 0%nat 0%nat); auto.
    rewrite <- Eg. unfold g_runs, p_zero. rewrite (proj2 ex_p_long). cbn [Nat.eqb Nat.ltb Nat.leb Nat.sub]. f_equal.
    destruct rs as [|r0 rs]; auto. cbn [map nth]. unfold pad, p_zero. rewrite (proj2 ex_p_long).
    assert (Z : p_long [2] 0 = 0%nat) by (unfold p_long; cbn; destruct (Rleb 2 0) eqn:A; auto; apply Rleb_true in A; lra). rewrite Z. reflexivity. }
  destruct E2 as [g [Q [T [E2 V]]]].
  exists 1%nat, ex_one, ex_resp, 1, ex_one, ex_flows, [1; 2], 2, g, Q, T, g', Q', T'. refine (conj S (conj P (conj _ (conj E2 (conj _ _))))); [lra| |].
  { rewrite K. exact E. }
  exists 0%nat, 1%nat. refine (conj _ (conj _ _)); [cbn; lia|cbn; lia|]. intros L. destruct (L 0%nat ltac:(cbn; lia)) as [L1 _]. specialize (L1 ltac:(cbn; lra)). cbn [nth] in L1.
  assert (GE : g' 1%nat 0%nat 0%nat = g' 0%nat 1%nat 0%nat) by lra.
  assert (TT : forall f, (f < 2)%nat -> nth 0 (nth f T' []) zero_vec O = 8).
  { intros f Hf. destruct (mift_superposed 1 ex_one ex_resp 1 ex_one ex_flows [2] g' Q' T' f 0 ltac:(lia) G E Hf ltac:(cbn; lia)) as [W _].
    pose proof (mift_normal _ _ _ _ _ _ _ _ _ _ _ f 0 E Hf ltac:(cbn; lia)) as N. cbn [sumn] in N. unfold ex_one in N.
    assert (LQ : length (nth f Q' []) = 1%nat).
    { pose proof E as E'. rewrite mift_zero in E' by (apply grid_positive; auto). rewrite Ers in E'. injection E' as _ EQ _. rewrite <- EQ.
      destruct (runs_nth 1 ex_one (on_grid ex_resp) 1 ex_one ex_flows [2] rs f Ers Hf) as [Lr Er]. rewrite map_map.
      rewrite (nth_map _ _ f ([], []) []) by (rewrite Lr; auto).
      destruct (nth f rs ([], [])) as [a b] eqn:Ef. destruct (run_length _ _ _ _ _ _ (zero_vec, 0) Er) as [La _]. unfold pad. cbn [fst snd].
      assert (Z : p_long [2] 0 = 0%nat) by (unfold p_long; cbn; destruct (Rleb 2 0) eqn:A; auto; apply Rleb_true in A; lra). unfold p_zero. rewrite Z. cbn [repeat Nat.sub app]. exact La. }
    assert (V8 := superposed_constant 1 ex_resp [2] (nth f Q' []) 0 0 (nth 0 (nth f T' []) zero_vec O) (fun _ => 1) G LQ ltac:(cbn; lia)).
    rewrite V8; [unfold ex_resp, at_time; cbn [sumn nth]; lra| |apply W; lia].
    intros k j Hk Hj. replace k with 0%nat by lia. replace j with 0%nat by lia. change (nth 0 (nth f Q' []) zero_vec 0%nat = 1). lra. }
  destruct (mift_superposed 1 ex_one ex_resp 1 ex_one ex_flows [2] g' Q' T' 0 0 ltac:(lia) G E ltac:(cbn; lia) ltac:(cbn; lia)) as [_ [_ C0]].
  destruct (mift_superposed 1 ex_one ex_resp 1 ex_one ex_flows [2] g' Q' T' 1 0 ltac:(lia) G E ltac:(cbn; lia) ltac:(cbn; lia)) as [_ [_ C1]].
  rewrite (C0 1%nat), (C1 0%nat) in GE by (cbn; lia). unfold cross, effective, H_total, ex_flows in GE. cbn [sumn nth ex_flow f_R f_mcp f_net_b f_net_in] in GE.
  rewrite !TT in GE by lia. pose proof PI_RGT_0. lra.
Qed.
Print Assumptions C47_mift_values_refuted.

(** * C78 *)

(** The equations solved at each time of the grid: the wall temperatures are the sum of
    the effect of the present loads (responses interpolated at the length of the step)
    and of the mean of the past loads over the reversed steps. *)
Theorem C78_ubwt : forall n H resp time Q g p i, (0 < n)%nat -> grid time -> solve_ubwt n H (on_grid resp) time 0 = Some (Q, g) ->
  (p < length time)%nat -> (i < n)%nat -> superposed n resp time Q p i (nth p g 0).
Proof. exact ubwt_superposed. Qed.
Print Assumptions C78_ubwt.
Theorem C78_mift : forall n H resp k_s Hi Fs time g Q T f p, (0 < n)%nat -> grid time -> solve_mift n H (on_grid resp) k_s Hi Fs time 0 = Some (g, Q, T) ->
  (f < length Fs)%nat -> (p < length time)%nat -> (forall F, In F Fs -> f_mcp F <> 0 /\ f_net_in F <> 0) ->
  let Qf := nth p (nth f Q []) zero_vec in
  let Tf := nth p (nth f T []) zero_vec in
  (forall i, (i < n)%nat -> superposed n resp time (nth f Q []) p i (Tf i)) /\
  (exists Tin, effective_temperature n H k_s (nth f Fs flow0) Tin (g f f p) /\
    forall i, (i < n)%nat -> Qf i + f_in (nth f Fs flow0) i / (2 * PI * k_s * Hi i) * Tin
                             + sumn n (fun j => f_b (nth f Fs flow0) i j / (2 * PI * k_s * Hi i) * Tf j) = 0) /\
  (forall e, (e < length Fs)%nat -> e <> f -> exists Tin, effective_temperature n H k_s (nth e Fs flow0) Tin (g e f p) /\
    f_net_in (nth e Fs flow0) * Tin + sumn n (fun j => f_net_b (nth e Fs flow0) j * Tf j) = - (2 * PI * k_s * sumn n H)).
Proof.
  intros n H resp k_s Hi Fs time g Q T f p Hn G E Hf Hp HF. cbv zeta.
  destruct (mift_superposed n H resp k_s Hi Fs time g Q T f p Hn G E Hf Hp) as [S [[Tin [Eg W]] X]]. split; auto. split.
  - exists Tin. split; auto. apply effective_meets; auto. apply HF, nth_In; auto.
  - intros e He Ne. rewrite (X e He Ne). destruct (HF (nth e Fs flow0)) as [F1 F2]; [apply nth_In; auto|]. apply cross_meets; auto.
Qed.
Print Assumptions C78_mift.
(** Equal steps: superposition in time without approximation. *)
Theorem C78_equal : forall n resp time d Q p i T, grid time -> equal_steps time d -> length Q = length time -> (p < length time)%nat ->
  superposed n resp time Q p i T -> T = duhamel n resp time Q p i.
Proof. exact superposed_duhamel. Qed.
Print Assumptions C78_equal.
(** Constant loads: exact on every grid, whatever the steps. *)
Theorem C78_constant : forall n resp time Q p i T (q : nat -> R), grid time -> length Q = length time -> (p < length time)%nat ->
  (forall k j, (k <= p)%nat -> (j < n)%nat -> nth k Q (fun _ => 0) j = q j) ->
  superposed n resp time Q p i T -> T = sumn n (fun j => q j * resp i j (nth p time 0)).
Proof. intros n resp time Q p i T q G L Hp E S. rewrite (superposed_constant n resp time Q p i T q G L Hp E S). reflexivity. Qed.
Print Assumptions C78_constant.
Example C78_ex : (exists Q g, solve_ubwt 2 ex_H (on_grid ex_resp) ex_time 0 = Some (Q, g) /\ length Q = length ex_time /\
    superposed 2 ex_resp ex_time Q 2 1 (nth 2 g 0)) /\
  exists r, solve_mift 1 ex_one (on_grid ex_resp) 1 ex_one ex_flows ex_time 0 = Some r.
Proof.
  split; [|apply ex_mift, ex_grid]. destruct ex_solved as [Q [g E]]. exists Q, g. split; auto.
  destruct (ubwt_lengths _ _ _ _ _ _ _ E) as [L _]. split; auto. apply (C78_ubwt 2 ex_H ex_resp ex_time Q g); auto. apply ex_grid.
Qed.

(** * C79 *)

(** With network coefficients that are the sums of those of the segments, the value for
    the wall temperatures and the fluid of the same mass flow rate is the one that the
    formula for different mass flow rates gives. *)
Theorem C79_diagonal : forall n H resp k_s Hi Fs time g Q T f p, (0 < n)%nat -> grid time -> solve_mift n H (on_grid resp) k_s Hi Fs time 0 = Some (g, Q, T) ->
  (f < length Fs)%nat -> (p < length time)%nat ->
  let F := nth f Fs flow0 in
  k_s <> 0 -> (forall i, (i < n)%nat -> Hi i = H i /\ H i <> 0) -> f_net_in F <> 0 ->
  f_net_in F = sumn n (f_in F) -> (forall k, (k < n)%nat -> f_net_b F k = sumn n (fun i => f_b F i k)) ->
  g f f p = cross n H k_s F (nth p (nth f T []) zero_vec).
Proof.
  intros n H resp k_s Hi Fs time g Q T f p Hn G E Hf Hp F Hk HH HF S1 S2.
  destruct (mift_superposed n H resp k_s Hi Fs time g Q T f p Hn G E Hf Hp) as [_ [[Tin [-> W]] _]].
  eapply cross_diagonal; eauto. apply (C46_mift _ _ _ _ _ _ _ _ _ _ _ f p E Hf Hp).
Qed.
Print Assumptions C79_diagonal.
Example C79_ex : (exists r, solve_mift 1 ex_one (on_grid ex_resp) 1 ex_one ex_flows ex_time 0 = Some r) /\
  f_net_in (ex_flow 0) = sumn 1 (f_in (ex_flow 0)) /\ (forall k, (k < 1)%nat -> f_net_b (ex_flow 0) k = sumn 1 (fun i => f_b (ex_flow 0) i k)).
Proof. split; [apply ex_mift, ex_grid|]. cbn. split; [lra|]. intros; lra. Qed.

(** * C80 *)

(** A solution exists when the responses are those of a definite matrix at every time. *)
Theorem C80_exists : forall n H resp time, (0 < n)%nat -> grid time -> (forall t, In t time -> definite n H (fun i j => resp i j t)) ->
  exists Q g, solve_ubwt n H (on_grid resp) time 0 = Some (Q, g).
Proof. exact ubwt_some. Qed.
Print Assumptions C80_exists.
(** Sources that all feel the same sum of responses extract heat at the same rate, and
    the g-function is that sum, on every grid: the two conditions of uniform heat
    extraction rate and uniform temperature coincide. *)
Theorem C80_symmetric : forall n H resp time Q g, (0 < n)%nat -> grid time -> solve_ubwt n H (on_grid resp) time 0 = Some (Q, g) ->
  (forall k i, (k < length time)%nat -> (i < n)%nat -> sumn n (fun j => resp i j (nth k time 0)) = sumn n (fun j => resp O j (nth k time 0))) ->
  sumn n H <> 0 ->
  forall p, (p < length time)%nat -> (forall i, (i < n)%nat -> nth p Q zero_vec i = 1) /\
    nth p g 0 = nth p (fst (solve_uhtr n H (on_grid resp) time 0)) 0.
Proof.
  intros n H resp time Q g Hn G E U HH p Hp. destruct (uniform_rows n H resp time Q g Hn G E U p Hp) as [A B]. split; auto. rewrite B.
  pose proof (uhtr_values n H (on_grid resp) time p (proj1 (grid_positive time G)) Hp) as V.
  destruct (solve_uhtr n H (on_grid resp) time 0) as [gu Tu]. destruct V as [V1 V2]. cbn [fst]. rewrite V2.
  rewrite (sumn_ext n (fun i => H i * nth p Tu zero_vec i) (fun i => H i * sumn n (fun j => resp O j (nth p time 0)))).
  - set (c := sumn n (fun j => resp O j (nth p time 0))). rewrite (sumn_scal_r n c H). field. auto.
  - intros i Hi. rewrite V1. unfold on_grid. rewrite (U p i Hp Hi). auto.
Qed.
Print Assumptions C80_symmetric.
(** Step response with reciprocity: a uniform temperature gives a smaller value than
    uniform heat extraction rates. *)
Theorem C80_below : forall n H resp t Q g, (0 < n)%nat -> 0 < t -> solve_ubwt n H (on_grid resp) [t] 0 = Some (Q, g) ->
  definite n H (fun i j => resp i j t) -> (forall i j, (i < n)%nat -> (j < n)%nat -> H i * resp i j t = H j * resp j i t) -> 0 < sumn n H ->
  nth 0 g 0 <= nth 0 (fst (solve_uhtr n H (on_grid resp) [t] 0)) 0.
Proof. exact ubwt_below. Qed.
Print Assumptions C80_below.
Example C80_below_ex : definite 2 ex_H (fun i j => ex_resp i j 1) /\ (forall i j, (i < 2)%nat -> (j < 2)%nat -> ex_H i * ex_resp i j 1 = ex_H j * ex_resp j i 1) /\ 0 < sumn 2 ex_H.
Proof.
  split; [apply ex_definite; left; auto|]. split; [|cbn; lra].
  intros [|[|i]] [|[|j]] Hi Hj; unfold ex_H, ex_resp; try lra; lia.
Qed.
Definition ex_sym : nat -> nat -> R -> R := fun i j t => if Nat.eqb i j then 2 * t else t.
Example C80_ex : (exists Q g, solve_ubwt 2 ex_H (on_grid ex_sym) ex_time 0 = Some (Q, g)) /\
  (forall k i, (k < 3)%nat -> (i < 2)%nat -> sumn 2 (fun j => ex_sym i j (nth k ex_time 0)) = sumn 2 (fun j => ex_sym O j (nth k ex_time 0))).
Proof.
  split.
  - apply C80_exists; [lia|apply ex_grid|]. intros t Ht x [i [Hi Hx]]. assert (0 < t) by (destruct Ht as [<-|[<-|[<-|[]]]]; lra).
    unfold ex_H, ex_sym. cbn [sumn Nat.eqb].
    assert (0 < x O * x O + x 1%nat * x 1%nat).
    { destruct i as [|[|i]]; [| |lia]; pose proof (Rsqr_pos_lt _ Hx) as P; unfold Rsqr in P; pose proof (Rle_0_sqr (x O)) as A; pose proof (Rle_0_sqr (x 1%nat)) as B; unfold Rsqr in *; lra. }
    pose proof (Rle_0_sqr (x O + x 1%nat)) as A. pose proof (Rle_0_sqr (x 1%nat)) as A1. unfold Rsqr in *.
    match goal with |- 0 < ?e => replace e with (t * ((x O * x O + x 1%nat * x 1%nat) / 2 + 3/2 * ((x O + x 1%nat) * (x O + x 1%nat)) + 2 * (x 1%nat * x 1%nat))) by field end.
    apply Rmult_lt_0_compat; lra.
  - intros k [|[|i]] Hk Hi; [| |lia]; unfold ex_sym; cbn [sumn Nat.eqb]; ring.
Qed.
