(** Proofs on the time steps of the load aggregation methods. *)
From Verif Require Import Base LoadAgg_Model LoadAgg_Spec TimeGrid_Model TimeGrid_Spec TimeGrid_Proofs Steps_Model.
From Verif Require Import LoadAgg_CJ_Proofs LoadAgg_MLAA_Proofs LoadAgg_Liu_Proofs.

Lemma ceil_bounds x : IZR (- Int_part (- x)) - 1 < x <= IZR (- Int_part (- x)).
Proof. destruct (base_Int_part (- x)) as [A B]. rewrite opp_IZR. lra. Qed.

Lemma total_steps_pos dt tmax : 0 < dt -> 0 < tmax ->
  (1 <= total_steps dt tmax)%nat /\ tmax <= INR (total_steps dt tmax) * dt < tmax + dt.
Proof.
  intros Hd Ht. unfold total_steps. pose proof (ceil_bounds (tmax / dt)) as [A B].
  assert (P : 0 < tmax / dt) by (apply Rdiv_lt_0_compat; lra).
  assert (Q : (0 < - Int_part (- (tmax / dt)))%Z) by (apply lt_IZR; lra).
  assert (E : tmax = tmax / dt * dt) by (field; lra).
  rewrite INR_IZR_INZ, Z2Nat.id by lia. split; [lia|]. split.
  - rewrite E at 1. apply Rmult_le_compat_r; lra.
  - apply Rlt_le_trans with ((tmax / dt + 1) * dt); [apply Rmult_lt_compat_r; lra|]. rewrite Rmult_plus_distr_r, <- E. lra.
Qed.

Lemma total_steps_neg dt tmax : 0 < dt -> tmax <= 0 -> total_steps dt tmax = 0%nat.
Proof.
  intros Hd Ht. unfold total_steps. pose proof (ceil_bounds (tmax / dt)) as [A B].
  assert (P : tmax / dt <= 0). { unfold Rdiv. assert (0 < / dt) by (apply Rinv_0_lt_compat; lra). nra. }
  assert (Q : (- Int_part (- (tmax / dt)) < 1)%Z) by (apply lt_IZR; lra). lia.
Qed.

Lemma total_steps_least dt tmax n : 0 < dt -> (tmax <= INR n * dt <-> (total_steps dt tmax <= n)%nat).
Proof.
  intros Hd. destruct (Rlt_le_dec 0 tmax) as [Ht|Ht].
  - destruct (total_steps_pos dt tmax Hd Ht) as [A [B B']]. split; intros E.
    + destruct (le_lt_dec (total_steps dt tmax) n) as [L|L]; [exact L|]. exfalso.
      assert (INR (S n) <= INR (total_steps dt tmax)) by (apply le_INR; lia). rewrite S_INR in H. nra.
    + assert (INR (total_steps dt tmax) <= INR n) by (apply le_INR; lia). nra.
  - rewrite (total_steps_neg dt tmax Hd Ht). split; intros _; [lia|]. pose proof (pos_INR n). nra.
Qed.

Lemma sumn_one n : sumn n (fun _ => 1) = INR n.
Proof. induction n as [|n IH]; [reflexivity|]. cbn [sumn]. rewrite IH, S_INR. lra. Qed.

Lemma sim_times_length dt tmax : length (sim_times dt tmax) = total_steps dt tmax.
Proof. unfold sim_times. rewrite map_length, seq_length. reflexivity. Qed.
Lemma sim_times_nth dt tmax k : (k < total_steps dt tmax)%nat -> nth k (sim_times dt tmax) 0 = INR (S k) * dt.
Proof.
  intros H. unfold sim_times. rewrite (nth_indep _ 0 (INR (0 + 1) * dt)) by (rewrite map_length, seq_length; exact H).
  rewrite (map_nth (fun i => INR (i + 1) * dt)), seq_nth by exact H. do 2 f_equal. lia.
Qed.
Lemma last_at (l : list R) n : length l = S n -> last l 0 = nth n l 0.
Proof.
  revert n. induction l as [|x l IH]; intros n H; [discriminate|]. injection H as H.
  destruct l as [|y l]; [cbn in H; subst; reflexivity|]. destruct n as [|n]; [discriminate|].
  change (last (x :: y :: l) 0) with (last (y :: l) 0). rewrite (IH n H). reflexivity.
Qed.

Lemma sim_grid dt tmax : 0 < dt -> grid_of dt tmax (fun _ => 1) (sim_times dt tmax).
Proof.
  intros Hd. split; [|split; [|split]].
  - rewrite sim_times_length. intros k Hk. rewrite sim_times_nth by exact Hk. rewrite sumn_one. ring.
  - rewrite sim_times_length. intros k Hk. rewrite sim_times_nth by lia.
    apply Rnot_le_lt. intros E. apply total_steps_least in E; [lia|exact Hd].
  - intros Ht. destruct (total_steps_pos dt tmax Hd Ht) as [A [B _]].
    pose proof (sim_times_length dt tmax) as L. destruct (total_steps dt tmax) as [|n] eqn:E; [lia|]. split.
    + intros N. rewrite N in L. discriminate.
    + rewrite (last_at _ n L), sim_times_nth by lia. exact B.
  - intros Ht. pose proof (sim_times_length dt tmax) as L. rewrite (total_steps_neg dt tmax Hd Ht) in L.
    destruct (sim_times dt tmax); [reflexivity|discriminate].
Qed.

Lemma cj_steps_low cpl k : (k < cpl)%nat -> cj_steps cpl k = 1.
Proof. intros H. unfold cj_steps. rewrite Nat.div_small by exact H. reflexivity. Qed.
Lemma sumn_cj_steps cpl n : (n <= cpl)%nat -> sumn n (cj_steps cpl) = INR n.
Proof. intros H. rewrite <- sumn_one. apply sumn_ext. intros k Hk. apply cj_steps_low. lia. Qed.

Lemma cj_one_level f dt tmax cpl time : 0 < dt -> (1 <= cpl)%nat -> (total_steps dt tmax <= cpl)%nat ->
  time_ClaessonJaved f dt tmax cpl = Some time -> time = sim_times dt tmax.
Proof.
  intros Hd Hc Hn E. destruct (cjt_main dt tmax cpl Hd Hc) as [r [G [_ U]]]. rewrite (U f time E).
  apply (grid_unique dt tmax (cj_steps cpl)); [exact Hd|intros; apply cj_steps_ge1|exact G|].
  destruct (sim_grid dt tmax Hd) as [A B]. split; [|exact B].
  intros k Hk. rewrite (A k Hk). rewrite sumn_one, sumn_cj_steps; [reflexivity|]. rewrite sim_times_length in Hk. lia.
Qed.

Lemma cj_cells f dt tmax cpl time n : 0 < dt -> 0 < tmax -> (1 <= cpl)%nat ->
  time_ClaessonJaved f dt tmax cpl = Some time -> (n <= cpl)%nat -> (n <= total_steps dt tmax)%nat -> (n <= length time)%nat.
Proof.
  intros Hd Ht Hc E H1 H2. destruct (cjt_main dt tmax cpl Hd Hc) as [r [G [_ U]]]. rewrite (U f time E).
  destruct G as [A [_ [B _]]]. destruct (B Ht) as [N L].
  destruct (le_lt_dec n (length r)) as [Y|Y]; [exact Y|]. exfalso.
  destruct (length r) as [|m] eqn:El; [destruct r; [exact (N eq_refl)|discriminate]|].
  rewrite (last_at r m El), (A m) in L by lia. rewrite sumn_cj_steps in L by lia.
  rewrite Rmult_comm in L. apply total_steps_least in L; [lia|exact Hd].
Qed.

Lemma cj_uniform f dt tmax cpl time m : 0 < dt -> (1 <= cpl)%nat ->
  time_ClaessonJaved f dt tmax cpl = Some time -> (m <= cpl)%nat -> (m <= length time)%nat ->
  forall k, (S k < m)%nat -> nth (S k) time 0 - nth k time 0 = dt.
Proof.
  intros Hd Hc E H1 H2 k Hk. destruct (cjt_main dt tmax cpl Hd Hc) as [r [[A _] [_ U]]]. rewrite (U f time E) in *.
  rewrite !A by lia. rewrite !sumn_cj_steps by lia. rewrite (S_INR (S k)). ring.
Qed.

(** ** Units of time. *)
Lemma Rltb_scale c x y : 0 < c -> Rltb (c * x) (c * y) = Rltb x y.
Proof. intros Hc. destruct (Rltb x y) eqn:E; [apply Rltb_true in E; apply Rltb_true|apply Rltb_false in E; apply Rltb_false]; nra. Qed.

Lemma gloop_scale c f dt tmax w t i : 0 < c ->
  gloop f (c * dt) (c * tmax) w (c * t) i = option_map (map (Rmult c)) (gloop f dt tmax w t i).
Proof.
  intros Hc. revert t i. induction f as [|f IH]; intros t i; cbn [gloop]; rewrite Rltb_scale by exact Hc; [destruct (Rltb t tmax); reflexivity|].
  destruct (Rltb t tmax); [|reflexivity].
  replace (c * t + w i * (c * dt)) with (c * (t + w i * dt)) by ring. rewrite IH.
  destruct (gloop f dt tmax w (t + w i * dt) (S i)); reflexivity.
Qed.

Lemma cj_scale c f dt tmax cpl : 0 < c -> (1 <= cpl)%nat ->
  time_ClaessonJaved f (c * dt) (c * tmax) cpl = option_map (map (Rmult c)) (time_ClaessonJaved f dt tmax cpl).
Proof.
  intros Hc Hp. unfold time_ClaessonJaved. rewrite !cjt_gloop by exact Hp. rewrite <- (gloop_scale c) by exact Hc. now rewrite Rmult_0_r.
Qed.
Lemma mp_scale c f dt tmax nec : 0 < c ->
  time_MarcottePasquier f (c * dt) (c * tmax) nec = option_map (map (Rmult c)) (time_MarcottePasquier f dt tmax nec).
Proof.
  intros Hc. unfold time_MarcottePasquier. rewrite !mpt_gloop by reflexivity. rewrite <- (gloop_scale c) by exact Hc. now rewrite Rmult_0_r.
Qed.

Lemma upd_map (h : R -> R) l k x : map h (upd l k x) = upd (map h l) k (h x).
Proof. revert k. induction l as [|y l IH]; intros [|k]; cbn; [reflexivity..|]. f_equal. apply IH. Qed.

Lemma geo_scale c f dt tmax Nt : 0 < c -> dt <> 0 ->
  time_geometric f (c * dt) (c * tmax) Nt = option_map (map (Rmult c)) (time_geometric f dt tmax Nt).
Proof.
  intros Hc Hd. unfold time_geometric. replace (INR Nt * (c * dt)) with (c * (INR Nt * dt)) by ring. rewrite Rltb_scale by exact Hc.
  destruct (Rltb (INR Nt * dt) tmax).
  - destruct (Nt =? 0)%nat; [reflexivity|]. replace (c * tmax / (c * dt)) with (tmax / dt) by (field; lra).
    destruct (geo_loop f (tmax / dt) Nt (10 ^ 99) 2) as [r|]; [|reflexivity]. cbn [option_map]. f_equal.
    rewrite upd_map, map_map. f_equal. apply map_ext. intros j. unfold Rdiv. ring.
  - cbn [option_map]. f_equal. rewrite map_map. apply map_ext. intros j. ring.
Qed.

Lemma width_scale c dt time : 0 < c -> dt <> 0 -> cj_width_of (c * dt) (map (Rmult c) time) = cj_width_of dt time.
Proof.
  intros Hc Hd. unfold cj_width_of. f_equal.
  induction time as [|x l IH]; [reflexivity|]. destruct l as [|y l]; [reflexivity|].
  change (map (Rmult c) (x :: y :: l)) with (c * x :: c * y :: map (Rmult c) l).
  change (diffs (c * x :: c * y :: map (Rmult c) l)) with ((c * y - c * x) :: diffs (map (Rmult c) (y :: l))).
  change (diffs (x :: y :: l)) with ((y - x) :: diffs (y :: l)). cbn [map]. cbn [map] in IH. f_equal; [field; lra|exact IH].
Qed.

Lemma steps_scale c dt tmax : 0 < c -> dt <> 0 -> total_steps (c * dt) (c * tmax) = total_steps dt tmax.
Proof. intros Hc Hd. unfold total_steps. replace (c * tmax / (c * dt)) with (tmax / dt) by (field; lra). reflexivity. Qed.
Lemma sim_scale c dt tmax : 0 < c -> dt <> 0 -> sim_times (c * dt) (c * tmax) = map (Rmult c) (sim_times dt tmax).
Proof. intros Hc Hd. unfold sim_times. rewrite steps_scale, map_map by assumption. apply map_ext. intros i. ring. Qed.

(** ** Every step begun before the horizon can be taken. *)
Lemma begun dt tmax n : 0 < dt -> 0 < tmax -> (INR n - 1) * dt < tmax -> (n <= total_steps dt tmax)%nat.
Proof.
  intros Hd Ht H. destruct n as [|n]; [lia|]. rewrite S_INR in H.
  destruct (le_lt_dec (S n) (total_steps dt tmax)) as [Y|Y]; [exact Y|]. exfalso.
  assert (Q : (total_steps dt tmax <= n)%nat) by lia. apply total_steps_least in Q; [|exact Hd]. lra.
Qed.

Lemma three_agree f dt tmax cpl time nS N0 N1 N2 N3 M1 M2 M3 W1 W2 W3 ops s1 s2 s3 (g : nat -> nat -> nat -> R) i :
  0 < dt -> 0 < tmax -> (1 <= cpl)%nat -> (1 <= N0)%nat -> (1 <= N1)%nat -> (1 <= N2)%nat -> (1 <= N3)%nat ->
  (1 <= M1)%nat -> (1 <= M2)%nat -> (1 <= M3)%nat -> (1 <= W1)%nat -> (1 <= W2)%nat -> (1 <= W3)%nat ->
  time_ClaessonJaved f dt tmax cpl = Some time -> starts_with_step ops -> (1 <= steps ops)%nat ->
  (INR (steps ops) - 1) * dt < tmax -> (steps ops <= cpl)%nat -> (steps ops <= N0)%nat -> (steps ops < M1 + W1)%nat ->
  cj_run (cj_init (cj_width_of dt time) nS) ops = Some s1 ->
  mlaa_run (mlaa_init nS (total_steps dt tmax) N0 N1 N2 N3) ops = Some s2 ->
  liu_run (liu_init nS (total_steps dt tmax) M1 M2 M3 W1 W2 W3) ops = Some s3 ->
  cj_superposition g s1 i = mlaa_superposition g s2 i /\ mlaa_superposition g s2 i = liu_superposition g s3 i.
Proof.
  intros Hd Ht Hc H0 H1 H2 H3 J1 J2 J3 X1 X2 X3 E Hs Hn Hb L1 L2 L3 R1 R2 R3.
  pose proof (begun dt tmax (steps ops) Hd Ht Hb) as B.
  pose proof (cj_cells f dt tmax cpl time (steps ops) Hd Ht Hc E L1 B) as Lt.
  destruct (cjt_good dt tmax cpl f time Hd Ht Hc E) as [G _].
  rewrite (cj_exact_lemma dt time nS ops s1 g (steps ops) i G Lt (cj_uniform f dt tmax cpl time (steps ops) Hd Hc E L1 Lt) Hs (le_n _) R1).
  rewrite (mlaa_exact_lemma nS (total_steps dt tmax) N0 N1 N2 N3 ops s2 g i H0 H1 H2 H3 R2 Hs (conj Hn L2)).
  rewrite (liu_exact_lemma nS (total_steps dt tmax) M1 M2 M3 W1 W2 W3 ops s3 g i J1 J2 J3 X1 X2 X3 R3 Hs (conj Hn L3)).
  split; reflexivity.
Qed.
