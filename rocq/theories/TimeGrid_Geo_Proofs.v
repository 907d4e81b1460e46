(** Proofs on [time_geometric]. *)
From Verif Require Import Base TimeGrid_Model TimeGrid_Spec TimeGrid_Proofs.

Lemma geom_sum r n : r <> 1 -> sumn n (fun i => r ^ i) = (1 - r ^ n) / (1 - r).
Proof.
  intros H. induction n as [|n IH]; [cbn; field; lra|].
  cbn [sumn]. rewrite IH. cbn [pow]. field. lra.
Qed.

Lemma pow_1z_bound n z : 0 <= z -> INR n * z <= 1 -> (1 + z) ^ n <= 1 + INR n * z + (INR n * z) ^ 2.
Proof.
  intros Hz. induction n as [|n IH]; intros H; [cbn; lra|].
  rewrite S_INR in *. pose proof (pos_INR n) as Pn.
  assert (H' : INR n * z <= 1) by nra. specialize (IH H').
  cbn [pow] in *.
  set (a := INR n) in *.
  assert ((1 + z) * (1 + z) ^ n <= (1 + z) * (1 + a * z + a * z * (a * z * 1))).
  { apply Rmult_le_compat_l; lra. }
  assert (0 <= z * z) by nra.
  assert (z * z * (a * (a * z)) <= z * z * (a * 1)).
  { apply Rmult_le_compat_l; [assumption|]. apply Rmult_le_compat_l; assumption. }
  nra.
Qed.

Section Geo.
Variables (T : R) (N : nat).
Hypothesis HN : (1 <= N)%nat.
Hypothesis HT : INR N < T.

Lemma T_pos : 1 < T.
Proof. apply le_INR in HN. cbn in HN. lra. Qed.

Lemma geo_base r : 1 < r -> 1 < 1 + T * (r - 1).
Proof. intros. pose proof T_pos. nra. Qed.

Lemma geo_next_gt1 r : 1 < r -> 1 < geo_next T N r.
Proof.
  intros H. unfold geo_next. rewrite <- (Rpower_O (1 + T * (r - 1))) at 1.
  2:{ pose proof (geo_base r H); lra. }
  apply Rpower_lt; [apply geo_base; exact H|].
  apply Rdiv_lt_0_compat; [lra|]. apply lt_0_INR; lia.
Qed.

Lemma geo_next_pow r : 1 < r -> geo_next T N r ^ N = 1 + T * (r - 1).
Proof.
  intros H. rewrite <- Rpower_pow by (pose proof (geo_next_gt1 r H); lra).
  unfold geo_next. rewrite Rpower_mult.
  replace (1 / INR N * INR N) with 1. 2:{ field. apply not_0_INR; lia. }
  apply Rpower_1. pose proof (geo_base r H); lra.
Qed.

Lemma geo_next_le r s : 1 < r -> r <= s -> geo_next T N r <= geo_next T N s.
Proof.
  intros H L. unfold geo_next. apply Rle_Rpower_l.
  - apply Rlt_le, Rdiv_lt_0_compat; [lra|]. apply lt_0_INR; lia.
  - pose proof (geo_base r H). pose proof T_pos. split; nra.
Qed.

Lemma pow_le_inv x y : 0 < x -> 0 < y -> x ^ N <= y ^ N -> x <= y.
Proof.
  intros Hx Hy H. destruct (Rle_lt_dec x y) as [L|L]; [exact L|exfalso].
  assert (y ^ N < x ^ N); [|lra].
  destruct N as [|n]; [lia|]. clear - Hx Hy L.
  induction n as [|n IH]; [cbn; lra|].
  change (y * y ^ (S n) < x * x ^ (S n)).
  pose proof (pow_lt y (S n) Hy). nra.
Qed.

(** Points above / below their image. *)
Lemma geo_next_ge z : 1 < z -> z ^ N <= 1 + T * (z - 1) -> z <= geo_next T N z.
Proof.
  intros H L. apply pow_le_inv; [lra| pose proof (geo_next_gt1 z H); lra|].
  rewrite geo_next_pow by exact H. exact L.
Qed.
Lemma geo_next_le_self z : 1 < z -> 1 + T * (z - 1) <= z ^ N -> geo_next T N z <= z.
Proof.
  intros H L. apply pow_le_inv; [pose proof (geo_next_gt1 z H); lra|lra|].
  rewrite geo_next_pow by exact H. exact L.
Qed.

(** The result of the loop is the image of a close point which satisfies any
    invariant of the iteration. *)
Lemma geo_loop_inv (P : R -> Prop) :
  (forall r, 1 < r -> P r -> P (geo_next T N r)) ->
  forall f dr r r', 1 < r -> P r -> geo_loop f T N dr r = Some r' -> / 10 ^ 10 < Rabs dr ->
  exists r0, 1 < r0 /\ P r0 /\ r' = geo_next T N r0 /\ Rabs (r' - r0) <= / 10 ^ 10.
Proof.
  intros HP. induction f as [|f IH]; intros dr r r' Hr Pr H Hd.
  - cbn [geo_loop] in H. apply Rltb_true in Hd. rewrite Hd in H. discriminate.
  - cbn [geo_loop] in H. apply Rltb_true in Hd. rewrite Hd in H.
    replace (r + (geo_next T N r - r)) with (geo_next T N r) in H by ring.
    destruct (Rlt_dec (/ 10 ^ 10) (Rabs (geo_next T N r - r))) as [L|L].
    + apply (IH _ _ _ (geo_next_gt1 r Hr) (HP r Hr Pr) H L).
    + assert (E : Rltb (/ 10 ^ 10) (Rabs (geo_next T N r - r)) = false) by (apply Rltb_false; lra).
      assert (r' = geo_next T N r) by (destruct f; cbn [geo_loop] in H; rewrite E in H; congruence).
      subst r'. exists r. split; [exact Hr|]. split; [exact Pr|]. split; [reflexivity|lra].
Qed.

Fixpoint geo_iter (n : nat) : R := match n with O => 2 | S k => geo_next T N (geo_iter k) end.

Lemma geo_iter_gt1 n : 1 < geo_iter n.
Proof. induction n; cbn [geo_iter]; [lra|apply geo_next_gt1; exact IHn]. Qed.

Lemma geo_loop_stops n : Rabs (geo_iter (S n) - geo_iter n) <= / 10 ^ 10 ->
  forall d k dr, (n = k + d)%nat -> exists r, geo_loop (S d) T N dr (geo_iter k) = Some r.
Proof.
  intros Hn. induction d as [|d IH]; intros k dr E.
  - rewrite Nat.add_0_r in E. subst k. cbn [geo_loop]. destruct (Rltb _ (Rabs dr)); [|eauto].
    cbn [geo_iter] in Hn.
    assert (E : Rltb (/ 10 ^ 10) (Rabs (geo_next T N (geo_iter n) - geo_iter n)) = false)
      by (apply Rltb_false; exact Hn).
    rewrite E. eauto.
  - set (d1 := S d) in *. cbn [geo_loop]. destruct (Rltb _ (Rabs dr)); [|eauto].
    replace (geo_iter k + (geo_next T N (geo_iter k) - geo_iter k)) with (geo_iter (S k)) by (cbn; ring).
    apply IH. unfold d1 in E. lia.
Qed.

Lemma geo_loop_mono f f' dr r x :
  geo_loop f T N dr r = Some x -> (f <= f')%nat -> geo_loop f' T N dr r = Some x.
Proof.
  revert f' dr r. induction f as [|f IH]; intros f' dr r H L.
  - cbn [geo_loop] in H. destruct f'; cbn [geo_loop]; destruct (Rltb _ (Rabs dr)); try discriminate; exact H.
  - destruct f' as [|f']; [lia|]. cbn [geo_loop] in *. destruct (Rltb _ (Rabs dr)); [|exact H].
    apply IH; [exact H|lia].
Qed.

Lemma cv_close (u : nat -> R) l : Un_cv u l -> exists n, Rabs (u (S n) - u n) <= / 10 ^ 10.
Proof.
  intros C. destruct (C (/ 2 * / 10 ^ 10)) as [n Hn].
  { apply Rlt_gt, Rmult_lt_0_compat; [lra|]. apply Rinv_0_lt_compat, pow_lt; lra. }
  exists n. pose proof (Hn n (Nat.le_refl n)) as A. pose proof (Hn (S n) ltac:(lia)) as B.
  unfold R_dist in *.
  replace (u (S n) - u n) with ((u (S n) - l) - (u n - l)) by ring.
  pose proof (Rabs_triang (u (S n) - l) (- (u n - l))) as Tr. rewrite Rabs_Ropp in Tr.
  unfold Rminus at 1. lra.
Qed.

Lemma geo_terminates : (2 <= N)%nat -> exists n, Rabs (geo_iter (S n) - geo_iter n) <= / 10 ^ 10.
Proof.
  intros H2. destruct (Rle_lt_dec 2 (geo_next T N 2)) as [L|L].
  - assert (G : forall n, geo_iter n <= geo_iter (S n)).
    { induction n as [|n IH]; [exact L|].
      change (geo_next T N (geo_iter n) <= geo_next T N (geo_iter (S n))).
      apply geo_next_le; [apply geo_iter_gt1|exact IH]. }
    assert (HT2 : 2 < T) by (apply le_INR in H2; cbn in H2; lra).
    assert (Hb : geo_next T N (1 + T) <= 1 + T).
    { apply geo_next_le_self; [lra|].
      apply Rle_trans with ((1 + T) ^ 2); [cbn; nra|].
      apply Rle_pow; [lra|exact H2]. }
    assert (B : forall n, geo_iter n <= 1 + T).
    { induction n as [|n IH]; [cbn; lra|]. cbn [geo_iter].
      apply Rle_trans with (geo_next T N (1 + T)); [|exact Hb].
      apply geo_next_le; [apply geo_iter_gt1|exact IH]. }
    destruct (growing_cv geo_iter G) as [l Hl].
    { exists (1 + T). intros x [n Hx]. subst. apply B. }
    exact (cv_close _ _ Hl).
  - assert (G : forall n, geo_iter (S n) <= geo_iter n).
    { induction n as [|n IH]; [cbn; lra|].
      change (geo_next T N (geo_iter (S n)) <= geo_next T N (geo_iter n)).
      apply geo_next_le; [apply geo_iter_gt1|exact IH]. }
    destruct (decreasing_cv geo_iter G) as [l Hl].
    { exists 0. intros x [n Hx]. subst. unfold opp_seq. pose proof (geo_iter_gt1 n). lra. }
    exact (cv_close _ _ Hl).
Qed.

(** All iterates stay away from one as soon as tmax >= (N + 1) dt. *)
Lemma geo_floor : INR N + 1 <= T ->
  forall r, 1 < r -> 1 + / (INR N * INR N) <= r -> 1 + / (INR N * INR N) <= geo_next T N r.
Proof.
  intros H1 r Hr L. assert (Pn : 1 <= INR N) by (apply le_INR in HN; cbn in HN; exact HN).
  set (z := / (INR N * INR N)) in *.
  assert (Pz : 0 < z) by (apply Rinv_0_lt_compat; nra).
  assert (Nz : INR N * z = / INR N) by (unfold z; field; lra).
  assert (iN : / INR N <= 1) by (rewrite <- Rinv_1; apply Rinv_le_contravar; lra).
  apply Rle_trans with (geo_next T N (1 + z)).
  - apply geo_next_ge; [lra|].
    eapply Rle_trans; [apply pow_1z_bound; [lra|rewrite Nz; exact iN]|].
    rewrite Nz.
    assert ((/ INR N) ^ 2 = z) by (unfold z; field; lra).
    assert ((INR N + 1) * z <= T * z) by (apply Rmult_le_compat_r; lra).
    replace (1 + z - 1) with z by ring. nra.
  - apply geo_next_le; lra.
Qed.
End Geo.

Definition geo_times (dt tmax r : R) (Nt : nat) : list R :=
  upd (map (fun j => dt * (1 - r ^ (j + 1)) / (1 - r)) (seq 0 Nt)) (Nt - 1) tmax.

Lemma geo_times_nth dt tmax r Nt j : r <> 1 -> (S j < Nt)%nat ->
  nth j (geo_times dt tmax r Nt) 0 = dt * sumn (S j) (fun i => r ^ i).
Proof.
  intros H L. unfold geo_times. rewrite nth_upd_neq by lia. rewrite nth_map_seq by lia.
  rewrite geom_sum by exact H. rewrite Nat.add_1_r. field. lra.
Qed.
Lemma geo_times_last dt tmax r Nt : (1 <= Nt)%nat -> nth (Nt - 1) (geo_times dt tmax r Nt) 0 = tmax.
Proof.
  intros H. unfold geo_times. apply nth_upd_eq. rewrite map_length, seq_length. lia.
Qed.
Lemma geo_times_length dt tmax r Nt : length (geo_times dt tmax r Nt) = Nt.
Proof. unfold geo_times. rewrite upd_length, map_length, seq_length. reflexivity. Qed.

Lemma Rlt_1_2 : 1 < 2.
Proof. lra. Qed.

Lemma ratio_gt dt tmax Nt : 0 < dt -> INR Nt * dt < tmax -> INR Nt < tmax / dt.
Proof.
  intros Hd H. apply (Rmult_lt_reg_r dt); [exact Hd|].
  replace (tmax / dt * dt) with tmax by (field; lra). exact H.
Qed.

Lemma e99 : / 10 ^ 10 < Rabs (10 ^ 99).
Proof.
  rewrite Rabs_right. 2:{ apply Rle_ge, pow_le; lra. }
  apply Rlt_le_trans with 1.
  - rewrite <- Rinv_1. apply Rinv_lt_contravar; [|apply Rlt_pow_R1; [lra|lia]].
    rewrite Rmult_1_l. apply pow_lt; lra.
  - apply pow_R1_Rle; lra.
Qed.

Lemma tg_long_inv f dt tmax Nt time (P : R -> Prop) : 0 < dt -> (1 <= Nt)%nat -> INR Nt * dt < tmax ->
  (forall r, 1 < r -> P r -> P (geo_next (tmax / dt) Nt r)) -> P 2 ->
  time_geometric f dt tmax Nt = Some time ->
  exists r0 r, 1 < r0 /\ 1 < r /\ P r0 /\ P r /\ r ^ Nt = 1 + tmax / dt * (r0 - 1)
    /\ Rabs (r - r0) <= / 10 ^ 10 /\ time = geo_times dt tmax r Nt.
Proof.
  intros Hd HN Hl HP P2 H. unfold time_geometric in H.
  assert (E : Rltb (INR Nt * dt) tmax = true) by (apply Rltb_true; exact Hl). rewrite E in H.
  destruct (Nat.eqb_spec Nt 0); [lia|].
  destruct (geo_loop f (tmax / dt) Nt (10 ^ 99) 2) as [r|] eqn:G; [|discriminate].
  pose proof (ratio_gt dt tmax Nt Hd Hl) as HT.
  destruct (geo_loop_inv (tmax / dt) Nt HN HT P HP f _ _ _ Rlt_1_2 P2 G e99)
    as (r0 & R1 & R2 & R3 & R4).
  exists r0, r. split; [exact R1|]. split; [subst r; apply geo_next_gt1; assumption|].
  split; [exact R2|]. split; [subst r; apply HP; assumption|].
  split; [subst r; apply geo_next_pow; assumption|]. split; [exact R4|]. inversion H; reflexivity.
Qed.

(** Closed form and residual of the last step. *)
Lemma tg_long f dt tmax Nt time : 0 < dt -> (1 <= Nt)%nat -> INR Nt * dt < tmax ->
  time_geometric f dt tmax Nt = Some time ->
  exists r, 1 < r /\ length time = Nt
   /\ (forall j, (S j < Nt)%nat -> nth j time 0 = dt * sumn (S j) (fun i => r ^ i))
   /\ nth (Nt - 1) time 0 = tmax
   /\ (r - 1) * Rabs (tmax - dt * sumn Nt (fun i => r ^ i)) <= tmax * / 10 ^ 10.
Proof.
  intros Hd HN Hl H.
  destruct (tg_long_inv f dt tmax Nt time (fun _ => True) Hd HN Hl ltac:(auto) I H)
    as (r0 & r & R0 & R1 & _ & _ & E & A & Et).
  exists r. split; [exact R1|]. subst time. split; [apply geo_times_length|].
  split; [intros j Hj; apply geo_times_nth; [lra|exact Hj]|].
  split; [apply geo_times_last; exact HN|].
  assert (Pt : 0 < tmax). { pose proof (pos_INR Nt). nra. }
  rewrite geom_sum by lra. rewrite E.
  replace (tmax - dt * ((1 - (1 + tmax / dt * (r0 - 1))) / (1 - r))) with (tmax * (r - r0) / (r - 1)).
  2:{ field. split; lra. }
  unfold Rdiv. rewrite !Rabs_mult, (Rabs_right tmax), (Rabs_right (/ (r - 1))) by
    (first [lra | apply Rle_ge, Rlt_le, Rinv_0_lt_compat; lra]).
  replace ((r - 1) * (tmax * Rabs (r - r0) * / (r - 1))) with (tmax * Rabs (r - r0)) by (field; lra).
  apply Rmult_le_compat_l; lra.
Qed.

(** Strictly increasing up to the end for ordinary arguments. *)
Lemma tg_increasing f dt tmax Nt time : 0 < dt -> (1 <= Nt <= 316)%nat -> (INR Nt + 1) * dt <= tmax ->
  time_geometric f dt tmax Nt = Some time -> strictly_increasing time.
Proof.
  intros Hd HN Hl H.
  assert (Pn : 1 <= INR Nt) by (apply (le_INR 1); lia).
  assert (Hl' : INR Nt * dt < tmax) by nra.
  set (T := tmax / dt) in *.
  assert (HT : INR Nt + 1 <= T).
  { apply (Rmult_le_reg_r dt); [exact Hd|]. unfold T. replace (tmax / dt * dt) with tmax by (field; lra). exact Hl. }
  set (z := / (INR Nt * INR Nt)).
  assert (Pz : 0 < z) by (apply Rinv_0_lt_compat; nra).
  assert (z1 : z <= 1) by (unfold z; rewrite <- Rinv_1; apply Rinv_le_contravar; nra).
  destruct (tg_long_inv f dt tmax Nt time (fun r => 1 + z <= r) Hd ltac:(lia) Hl'
    (geo_floor T Nt ltac:(lia) ltac:(lra) HT) ltac:(lra) H)
    as (r0 & r & R0 & R1 & _ & Z & E & A & Et). fold T in E.
  subst time. intros k Hk. rewrite geo_times_length in Hk.
  rewrite geo_times_nth by (lra || lia).
  destruct (Nat.eq_dec (S k) (Nt - 1)) as [K|K].
  - rewrite K at 2. rewrite geo_times_last by lia.
    destruct Nt as [|n]; [lia|]. assert (n = S k) by lia. subst n.
    rewrite geom_sum by lra.
    assert (Pr : r ^ (S k) = (1 + T * (r0 - 1)) / r). { rewrite <- E. cbn [pow]. field. lra. }
    rewrite Pr.
    replace (dt * ((1 - (1 + T * (r0 - 1)) / r) / (1 - r))) with (dt * ((T * (r0 - 1) + 1 - r) / (r * (r - 1)))).
    2:{ field. split; lra. }
    replace tmax with (dt * T) by (unfold T; field; lra).
    apply Rmult_lt_compat_l; [exact Hd|].
    apply (Rmult_lt_reg_r (r * (r - 1))); [nra|].
    replace ((T * (r0 - 1) + 1 - r) / (r * (r - 1)) * (r * (r - 1))) with (T * (r0 - 1) + 1 - r)
      by (field; split; lra).
    assert (Hz2 : / 10 ^ 10 < z * z).
    { unfold z. rewrite <- Rinv_mult. apply Rinv_lt_contravar.
      - apply Rmult_lt_0_compat; [|apply pow_lt; lra]. assert (0 < INR (S (S k)) * INR (S (S k))) by nra. nra.
      - assert (INR (S (S k)) <= 316). { replace 316 with (INR 316) by (rewrite INR_IZR_INZ; reflexivity). apply le_INR. lia. }
        set (a := INR (S (S k))) in *. assert (a * a <= 99856) by nra. assert (0 <= a * a) by nra.
        apply Rle_lt_trans with (99856 * 99856); [nra|lra]. }
    apply Rabs_def2 in A || idtac.
    assert (A' : r0 <= r + / 10 ^ 10).
    { pose proof (Rle_abs (- (r - r0))). rewrite Rabs_Ropp in H0. lra. }
    set (x := r - 1) in *. assert (z <= x) by (unfold x; lra).
    assert (z * z <= x * x) by nra.
    replace r with (1 + x) by (unfold x; ring).
    assert (T * (r0 - 1) <= T * (x + z * z)) by (apply Rmult_le_compat_l; unfold x; lra).
    assert (T * (z * z) <= T * (x * x)) by (apply Rmult_le_compat_l; lra).
    nra.
  - rewrite geo_times_nth by (lra || lia). cbn [sumn].
    pose proof (pow_lt r (S k) ltac:(lra)). nra.
Qed.

Lemma tg_runs dt tmax Nt : 0 < dt -> (2 <= Nt)%nat ->
  exists n time, forall f, (n <= f)%nat -> time_geometric f dt tmax Nt = Some time.
Proof.
  intros Hd HN. unfold time_geometric. destruct (Rltb (INR Nt * dt) tmax) eqn:E.
  2:{ exists 0%nat. eexists. intros; reflexivity. }
  apply Rltb_true in E. destruct (Nat.eqb_spec Nt 0); [lia|].
  pose proof (ratio_gt dt tmax Nt Hd E) as HT.
  destruct (geo_terminates _ Nt ltac:(lia) HT HN) as [m Hn].
  edestruct geo_loop_stops with (n := m) (d := m) (k := 0%nat) (dr := 10 ^ 99) as [r Hr]; try eassumption; try reflexivity; try lia.
  exists (S m). eexists. intros f Hf.
  assert (M : geo_loop f (tmax / dt) Nt (10 ^ 99) 2 = Some r).
  { change 2 with (geo_iter (tmax / dt) Nt 0). eapply geo_loop_mono; try eassumption; lia. }
  rewrite M. reflexivity.
Qed.

Lemma tg_short f dt tmax Nt : tmax <= INR Nt * dt ->
  exists time, time_geometric f dt tmax Nt = Some time /\ length time = Nt
    /\ forall j, (j < Nt)%nat -> nth j time 0 = INR (S j) * dt.
Proof.
  intros H. unfold time_geometric.
  assert (E : Rltb (INR Nt * dt) tmax = false) by (apply Rltb_false; exact H). rewrite E.
  eexists. split; [reflexivity|]. split; [rewrite map_length, seq_length; reflexivity|].
  intros j Hj. rewrite nth_map_seq by exact Hj. rewrite Nat.add_1_r. ring.
Qed.

(** * Horizon just above the uniform grid: the last time falls back *)
Lemma geo_loop_inv_step T N (HN : (1 <= N)%nat) (HT : INR N < T) (P : R -> Prop) :
  (forall r, 1 < r -> P r -> / 10 ^ 10 < Rabs (geo_next T N r - r) -> P (geo_next T N r)) ->
  forall f dr r r', 1 < r -> P r -> geo_loop f T N dr r = Some r' -> / 10 ^ 10 < Rabs dr ->
  exists r0, 1 < r0 /\ P r0 /\ r' = geo_next T N r0 /\ Rabs (r' - r0) <= / 10 ^ 10.
Proof.
  intros HP. induction f as [|f IH]; intros dr r r' Hr Pr H Hd.
  - cbn [geo_loop] in H. apply Rltb_true in Hd. rewrite Hd in H. discriminate.
  - cbn [geo_loop] in H. apply Rltb_true in Hd. rewrite Hd in H.
    replace (r + (geo_next T N r - r)) with (geo_next T N r) in H by ring.
    destruct (Rlt_dec (/ 10 ^ 10) (Rabs (geo_next T N r - r))) as [L|L].
    + apply (IH _ _ _ (geo_next_gt1 T N HN HT r Hr) (HP r Hr Pr L) H L).
    + assert (E : Rltb (/ 10 ^ 10) (Rabs (geo_next T N r - r)) = false) by (apply Rltb_false; lra).
      assert (r' = geo_next T N r) by (destruct f; cbn [geo_loop] in H; rewrite E in H; congruence).
      subst r'. exists r. split; [exact Hr|]. split; [exact Pr|]. split; [reflexivity|lra].
Qed.

Lemma geo_stops_early T N z : (1 <= N)%nat -> INR N < T -> 0 < z -> INR N * z <= 1 ->
  INR N * (z * z) <= / 10 ^ 10 ->
  forall r, 1 < r -> 1 + z <= r -> / 10 ^ 10 < Rabs (geo_next T N r - r) -> 1 + z <= geo_next T N r.
Proof.
  intros HN HT Pz Nz1 Nz2 r Hr Zr Hs.
  pose proof (geo_next_gt1 T N HN HT r Hr) as G1. pose proof (geo_next_pow T N HN HT r Hr) as GP.
  destruct (Rle_lt_dec (1 + z) (geo_next T N r)) as [L|L]; [exact L|exfalso].
  set (s := geo_next T N r) in *. set (e := / 10 ^ 10) in *.
  assert (Pe : 0 < e) by (apply Rinv_0_lt_compat, pow_lt; lra).
  rewrite Rabs_left1 in Hs by lra.
  set (y := s - 1). assert (Ey : s = 1 + y) by (unfold y; ring).
  assert (Py : 0 < y < z) by (unfold y; lra).
  assert (PN : 1 <= INR N) by (apply (le_INR 1); exact HN).
  rewrite Ey in GP.
  pose proof (pow_1z_bound N y ltac:(lra) ltac:(nra)) as B. rewrite GP in B.
  assert (r - 1 > y + e) by (unfold y; lra).
  assert (INR N * (y + e) < T * (r - 1)).
  { apply Rlt_trans with (INR N * (r - 1)); [apply Rmult_lt_compat_l; lra|apply Rmult_lt_compat_r; lra]. }
  assert (INR N * e < (INR N * y) ^ 2) by nra.
  assert (e < INR N * (y * y)). { apply (Rmult_lt_reg_l (INR N)); [lra|]. cbn in H1. nra. }
  assert (INR N * (y * y) < INR N * (z * z)) by (apply Rmult_lt_compat_l; nra).
  lra.
Qed.

Lemma geom_lower n x : 0 <= x -> INR n + x * (INR n * (INR n - 1) / 2) <= sumn n (fun i => (1 + x) ^ i).
Proof.
  intros Hx. assert (B : forall i, 1 + INR i * x <= (1 + x) ^ i).
  { induction i as [|i IH]; [cbn; lra|]. rewrite S_INR. cbn [pow].
    pose proof (pos_INR i). assert (0 <= INR i * x) by nra.
    assert ((1 + x) * (1 + INR i * x) <= (1 + x) * (1 + x) ^ i) by (apply Rmult_le_compat_l; lra). nra. }
  induction n as [|n IH]; [cbn; lra|]. rewrite S_INR. cbn [sumn]. specialize (B n). nra.
Qed.

Lemma tg_not_increasing_n k : INR (S (S k)) = 4000 -> exists f time,
  time_geometric f 1 4000.1 (S (S k)) = Some time /\ length time = S (S k)
  /\ nth (S k) time 0 < nth k time 0.
Proof.
  intros I4.
  destruct (tg_runs 1 4000.1 (S (S k)) ltac:(lra) ltac:(lia)) as (n & time & H).
  specialize (H n (Nat.le_refl n)). exists n, time. split; [exact H|].
  unfold time_geometric in H. rewrite I4 in H.
  assert (E : Rltb (4000 * 1) 4000.1 = true) by (apply Rltb_true; lra). rewrite E in H.
  change (S (S k) =? 0)%nat with false in H. cbv beta iota in H.
  assert (HN : (1 <= S (S k))%nat) by lia.
  assert (Hk : (S k < S (S k))%nat) by lia.
  assert (Hk1 : (S (S k) - 1 = S k)%nat) by lia.
  assert (I3 : INR (S k) = 3999) by (rewrite S_INR in I4; lra).
  set (N := S (S k)) in *.
  destruct (geo_loop n (4000.1 / 1) N (10 ^ 99) 2) as [r|] eqn:G; [|discriminate].
  assert (HT : INR N < 4000.1 / 1) by (rewrite I4; lra).
  set (z := 158 / 10 ^ 9).
  assert (Ez : z = 158 / 10 ^ 9) by reflexivity.
  assert (Pz : 0 < z) by (rewrite Ez; apply Rdiv_lt_0_compat; [lra|apply pow_lt; lra]).
  destruct (geo_loop_inv_step _ _ HN HT (fun r => 1 + z <= r)
    (geo_stops_early _ _ z HN HT Pz ltac:(rewrite I4, Ez; lra) ltac:(rewrite I4, Ez; lra))
    n _ _ _ Rlt_1_2 ltac:(cbv beta; rewrite Ez; lra) G e99) as (r0 & R1 & R2 & R3 & R4).
  cbv beta in R2. clearbody z.
  assert (X : 1 + z - / 10 ^ 10 <= r).
  { pose proof (Rle_abs (- (r - r0))). rewrite Rabs_Ropp in H0. lra. }
  assert (Et : time = geo_times 1 4000.1 r N) by (inversion H; reflexivity).
  clear H G R4 R3 E n.
  split; [rewrite Et; apply geo_times_length|].
  assert (1 < r) by (rewrite Ez in X; lra).
  pose proof (geo_times_nth 1 4000.1 r N k ltac:(lra) Hk) as A.
  pose proof (geo_times_last 1 4000.1 r N HN) as B. rewrite Hk1 in B.
  rewrite Et, A, B. clear A B Et.
  pose proof (geom_lower (S k) (r - 1) ltac:(lra)) as L.
  replace (1 + (r - 1)) with r in L by ring. rewrite I3 in L.
  rewrite Ez in X. set (s := sumn (S k) (fun i => r ^ i)) in *. clearbody s. lra.
Qed.

Lemma tg_not_increasing : exists f k time, INR (S (S k)) = 4000 /\
  time_geometric f 1 4000.1 (S (S k)) = Some time /\ nth (S k) time 0 < nth k time 0.
Proof.
  set (k := Z.to_nat 3998).
  assert (E : INR (S (S k)) = 4000).
  { rewrite !S_INR. unfold k. rewrite INR_IZR_INZ, Z2Nat.id by lia. lra. }
  clearbody k. destruct (tg_not_increasing_n k E) as (f & time & H & _ & L).
  exists f, k, time. auto.
Qed.
