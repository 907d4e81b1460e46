(** ClaessonJaved under a load that never decreases. *)
From Verif Require Import Base LoadAgg_Model LoadAgg_Spec LoadAgg_CJ_Proofs TimeGrid_Model TimeGrid_Spec TimeGrid_Proofs Under_Spec.

(** ** Sequences that never increase *)
Definition down (A : nat -> R) : Prop := forall a b, (a <= b)%nat -> A b <= A a.

Lemma down_step (A : nat -> R) : (forall a, A (S a) <= A a) -> down A.
Proof. intros H a b L. induction L as [|b L IH]; [lra|]. pose proof (H b). lra. Qed.

(** Product of the sums of two such sequences. *)
Lemma chebyshev (A h : nat -> R) n : down A -> down h ->
  sumn n A * sumn n h <= INR n * sumn n (fun a => A a * h a).
Proof.
  intros DA Dh.
  assert (K : forall m, (m <= n)%nat ->
     sumn m A * sumn m h <= INR m * sumn m (fun a => A a * h a)).
  2:{ apply K; lia. }
  induction m as [|m IH]; intros L; [cbn; lra|].
  cbn [sumn]. rewrite S_INR. pose proof (IH ltac:(lia)) as I. clear IH.
  assert (J : sumn m A * h m + A m * sumn m h <= sumn m (fun a => A a * h a) + INR m * (A m * h m)).
  { rewrite (Rmult_comm (sumn m A)), <- !sumn_scal, <- sumn_const, <- !sumn_plus.
    apply sumn_le. intros a La. pose proof (DA a m ltac:(lia)). pose proof (Dh a m ltac:(lia)). nra. }
  nra.
Qed.

(** ** Cells *)
Section Cells.
Variable L : nat -> nat.                     (* edges of the cells, in steps *)
Hypothesis L0 : L 0%nat = 0%nat.
Hypothesis L1 : L 1%nat = 1%nat.
Hypothesis Linc : forall k, (L k < L (S k))%nat.

Definition cw (k : nat) : R := INR (L (S k) - L k).
Lemma cw_pos k : 1 <= cw k.
Proof. unfold cw. change 1 with (INR 1). apply le_INR. pose proof (Linc k). lia. Qed.

(** Sum over a cell. *)
Definition cell (f : nat -> R) (k : nat) : R := sumn (L (S k) - L k) (fun a => f (L k + a)%nat).
Lemma cell_prefix f k : sumn (L (S k)) f = sumn (L k) f + cell f k.
Proof.
  unfold cell. rewrite <- sumn_split. f_equal. pose proof (Linc k). lia.
Qed.
Lemma cell_sum f n : sumn n (cell f) = sumn (L n) f.
Proof.
  induction n as [|n IH]; [rewrite L0; reflexivity|]. cbn [sumn]. rewrite IH. symmetry. apply cell_prefix.
Qed.

Lemma cell_low A k : down A -> cw k * A (L (S k) - 1)%nat <= cell A k.
Proof.
  intros D. unfold cell, cw. rewrite <- sumn_const. apply sumn_le. intros a La. apply D. lia.
Qed.
Lemma cell_high A k : down A -> cell A k <= cw k * A (L k).
Proof.
  intros D. unfold cell, cw. rewrite <- sumn_const. apply sumn_le. intros a La. apply D. lia.
Qed.

(** Mean of the response over a cell. *)
Definition phi (h : nat -> R) (k : nat) : R := cell h k / cw k.
Lemma phi_down h k : down h -> phi h (S k) <= phi h k.
Proof.
  intros D. unfold phi.
  pose proof (cell_high h (S k) D) as P. pose proof (cell_low h k D) as Q.
  pose proof (cw_pos k) as W1. pose proof (cw_pos (S k)) as W2.
  pose proof (D (L (S k) - 1)%nat (L (S k)) ltac:(lia)) as M.
  apply Rle_trans with (h (L (S k))).
  - apply (Rmult_le_reg_r (cw (S k))); [lra|]. unfold Rdiv. rewrite Rmult_assoc, Rinv_l by lra. lra.
  - apply (Rmult_le_reg_r (cw k)); [lra|]. unfold Rdiv. rewrite Rmult_assoc, Rinv_l by lra. nra.
Qed.
Lemma phi_nonneg h k : (forall a, 0 <= h a) -> 0 <= phi h k.
Proof.
  intros D. unfold phi. pose proof (cw_pos k). apply Rmult_le_pos.
  - apply sumn_nonneg. intros; apply D.
  - left. apply Rinv_0_lt_compat. lra.
Qed.

Lemma abel_le (f P Q : nat -> R) n : P 0%nat = 0 -> Q 0%nat = 0 ->
  (forall k, f (S k) <= f k) -> (forall k, 0 <= f k) -> (forall k, (k <= n)%nat -> P k <= Q k) ->
  sumn n (fun k => f k * (P (S k) - P k)) <= sumn n (fun k => f k * (Q (S k) - Q k)).
Proof.
  intros P0 Q0 D N H.
  assert (K : forall m, (m <= n)%nat ->
    sumn m (fun k => f k * (P (S k) - P k)) - f m * P m
    <= sumn m (fun k => f k * (Q (S k) - Q k)) - f m * Q m).
  { induction m as [|m IH]; intros Lm; [cbn; rewrite P0, Q0; lra|].
    cbn [sumn]. pose proof (IH ltac:(lia)) as I. pose proof (H (S m) Lm). pose proof (D m). nra. }
  pose proof (K n ltac:(lia)). pose proof (H n ltac:(lia)). pose proof (N n). nra.
Qed.

(** Loads spread over the cells, none ahead of the true ones. *)
Lemma spread (A h : nat -> R) (P : nat -> R) n N : down A -> (forall a, 0 <= A a) -> down h -> (forall a, 0 <= h a) ->
  (forall a, (N <= a)%nat -> A a = 0) ->
  P 0%nat = 0 -> (forall k, (k <= n)%nat -> P k <= sumn (L k) A) ->
  sumn n (fun k => phi h k * (P (S k) - P k)) <= sumn N (fun a => A a * h a).
Proof.
  intros DA NA Dh Nh Z P0 H.
  apply Rle_trans with (sumn n (fun k => phi h k * (sumn (L (S k)) A - sumn (L k) A))).
  - apply (abel_le (phi h) P (fun k => sumn (L k) A) n); auto.
    + rewrite L0. reflexivity.
    + intros k. apply phi_down. exact Dh.
    + intros k. apply phi_nonneg. exact Nh.
  - apply Rle_trans with (sumn n (cell (fun a => A a * h a))).
    + apply sumn_le. intros k Lk. rewrite cell_prefix. unfold phi.
      pose proof (cw_pos k) as W.
      pose proof (chebyshev (fun a => A (L k + a)%nat) (fun a => h (L k + a)%nat) (L (S k) - L k)) as C.
      cbv beta in C. fold (cell A k) in C. fold (cell h k) in C. fold (cw k) in C.
      change (sumn (L (S k) - L k) (fun a => A (L k + a)%nat * h (L k + a)%nat)) with (cell (fun a => A a * h a) k) in C.
      apply (Rmult_le_reg_l (cw k)); [lra|].
      replace (cw k * (cell h k / cw k * (sumn (L k) A + cell A k - sumn (L k) A))) with (cell A k * cell h k)
        by (field; lra).
      apply C; intros a b La; [apply DA|apply Dh]; lia.
    + rewrite cell_sum.
      destruct (Nat.le_gt_cases (L n) N) as [Q|Q].
      * replace N with (L n + (N - L n))%nat by lia. rewrite sumn_split.
        assert (0 <= sumn (N - L n) (fun i => A (L n + i)%nat * h (L n + i)%nat)).
        { apply sumn_nonneg. intros i Li. apply Rmult_le_pos; auto. }
        lra.
      * replace (L n) with (N + (L n - N))%nat by lia. rewrite sumn_split.
        rewrite (sumn_zero (L n - N)); [lra|]. intros i Li. rewrite Z by lia. lra.
Qed.

(** ** The invariant of the simulation *)
Variable w : list R.
Hypothesis Hw : forall k, (k < length w)%nat -> nth k w 0 = cw k.
Hypothesis Hn : (0 < length w)%nat.

Definition aged (h : list R) (a : nat) : R := nth a (rev h) 0.
Definition filled (row : list R) (k : nat) : R := sumn k (fun i => nth i w 0 * nth i row 0).

Lemma w0 : nth 0 w 0 = 1.
Proof. rewrite Hw by exact Hn. unfold cw. rewrite L0, L1. reflexivity. Qed.

(** The row is behind the true loads. *)
Definition behind (row h : list R) : Prop :=
  nth 0 row 0 = last h 0 /\ forall k, (k <= length w)%nat -> filled row k <= sumn (L k) (aged h).

Lemma aged_app h v a : aged (h ++ [v]) a = match a with O => v | S b => aged h b end.
Proof. unfold aged. rewrite rev_app_distr. destruct a; reflexivity. Qed.

Lemma filled_next row k : length row = length w -> (S k <= length w)%nat ->
  filled (cj_row_next w row) (S k) = filled row (S k) - nth k row 0.
Proof.
  intros Lr. induction k as [|k IH]; intros Lk; unfold filled in *.
  - cbn [sumn]. rewrite (nth_row_next_0 w row Hn Lr w0). rewrite w0. lra.
  - cbn [sumn] in *. rewrite IH by lia. rewrite (nth_row_next_S w row k) by (auto; lia).
    rewrite (Hw (S k)) by lia. pose proof (cw_pos (S k)). field. lra.
Qed.

Lemma behind_next row h : length row = length w -> behind row h -> down (aged h) ->
  behind (cj_row_next w row) (h ++ [0]).
Proof.
  intros Lr (H0 & H) D. split.
  - rewrite last_app_one. apply nth_row_next_0; auto. apply w0.
  - intros k Lk. destruct k as [|k]; [rewrite L0; unfold filled; cbn; lra|].
    rewrite filled_next by auto.
    pose proof (Linc k) as Lp.
    assert (E : sumn (L (S k)) (aged (h ++ [0])) = sumn (L (S k) - 1) (aged h)).
    { replace (L (S k)) with (S (L (S k) - 1)) at 1 by lia. rewrite sumn_S_l, aged_app.
      rewrite (sumn_ext _ (fun i => aged (h ++ [0]) (S i)) (aged h)); [lra|].
      intros i _. rewrite aged_app. reflexivity. }
    rewrite E.
    assert (E2 : sumn (L (S k)) (aged h) = sumn (L (S k) - 1) (aged h) + aged h (L (S k) - 1)%nat).
    { replace (L (S k)) with (S (L (S k) - 1)) at 1 by lia. reflexivity. }
    pose proof (H (S k) Lk) as I1. pose proof (H k ltac:(lia)) as I0.
    pose proof (cell_low (aged h) k D) as C. rewrite cell_prefix in E2, I1.
    assert (F : filled row (S k) = filled row k + cw k * nth k row 0).
    { unfold filled. cbn [sumn]. rewrite (Hw k) by lia. reflexivity. }
    pose proof (cw_pos k) as W. set (q := nth k row 0) in *. set (c := cw k) in *.
    set (x := aged h (L (S k) - 1)%nat) in *. set (s := sumn (L k) (aged h)) in *. set (y := cell (aged h) k) in *.
    set (fk := filled row k) in *. set (fs := filled row (S k)) in *.
    assert (G : c * (fs - q) <= c * (s + y - x)) by nra.
    apply Rmult_le_reg_l in G; [|lra]. lra.
Qed.

Lemma behind_set row h v : length row = length w -> behind row h ->
  behind (upd row 0 v) (removelast h ++ [v]).
Proof.
  intros Lr (H0 & H). split.
  - rewrite last_app_one. destruct row; [cbn in Lr; lia|]. reflexivity.
  - intros k Lk. destruct k as [|k]; [rewrite L0; unfold filled; cbn; lra|].
    pose proof (H (S k) Lk) as I.
    assert (F : filled (upd row 0 v) (S k) = filled row (S k) - nth 0 row 0 + v).
    { unfold filled. rewrite !sumn_S_l, w0.
      rewrite (sumn_ext k _ (fun i => nth (S i) w 0 * nth (S i) row 0)).
      - destruct row; [cbn in Lr; lia|]. cbn. lra.
      - intros i _. destruct row; [cbn in Lr; lia|]. reflexivity. }
    rewrite F.
    assert (G : sumn (L (S k)) (aged (removelast h ++ [v])) = sumn (L (S k)) (aged h) - last h 0 + v).
    { pose proof (Linc k). replace (L (S k)) with (S (L (S k) - 1)) by lia. rewrite !sumn_S_l, aged_app.
      rewrite (sumn_ext _ (fun i => aged (removelast h ++ [v]) (S i)) (fun i => aged h (S i))).
      - assert (aged h 0 = last h 0).
        { unfold aged. destruct h as [|x r] using rev_ind; [reflexivity|].
          rewrite rev_app_distr, last_last. reflexivity. }
        lra.
      - intros i _. rewrite aged_app. unfold aged. rewrite rev_removelast, nth_tl. reflexivity. }
    rewrite G. lra.
Qed.

Lemma hist_tail s r : forall h, h <> [] ->
  exists t, t <> [] /\ fold_left (hist_step s) r h = removelast h ++ t.
Proof.
  induction r as [|o r IH]; intros h Hh.
  - exists [last h 0]. split; [discriminate|]. cbn [fold_left]. apply app_removelast_last. exact Hh.
  - cbn [fold_left]. destruct (IH (hist_step s h o) (hist_step_nonnil s h o)) as (t & Ht & E).
    destruct o as [|q]; cbn [hist_step] in E |- *; rewrite E, removelast_last.
    + exists (last h 0 :: t). split; [discriminate|]. rewrite (app_removelast_last 0 Hh) at 1.
      rewrite <- app_assoc. reflexivity.
    + exists t. split; auto.
Qed.

Lemma down_prefix h t : down (aged (h ++ t)) -> down (aged h).
Proof.
  intros D a b Lab. pose proof (D (length t + a)%nat (length t + b)%nat ltac:(lia)) as Q.
  unfold aged in *. rewrite rev_app_distr in Q.
  rewrite !app_nth2 in Q by (rewrite rev_length; lia). rewrite rev_length in Q.
  replace (length t + a - length t)%nat with a in Q by lia.
  replace (length t + b - length t)%nat with b in Q by lia. exact Q.
Qed.

Lemma row_behind s ops : forall pre row h,
  length row = length w -> behind row h -> down (aged (removelast (fold_left (hist_step s) (pre ++ ops) []))) ->
  h = fold_left (hist_step s) pre [] ->
  behind (row_run w s ops row) (fold_left (hist_step s) (pre ++ ops) []).
Proof.
  induction ops as [|o r IH]; intros pre row h Lr B D E.
  - rewrite app_nil_r. subst h. exact B.
  - replace (pre ++ o :: r) with ((pre ++ [o]) ++ r) in * by (rewrite <- app_assoc; reflexivity).
    cbn [row_run fold_left]. change (fold_left (row_step w s) r (row_step w s row o)) with (row_run w s r (row_step w s row o)).
    apply (IH (pre ++ [o]) (row_step w s row o) (hist_step s h o)); auto.
    + apply row_step_length. exact Lr.
    + destruct o as [|q]; cbn [row_step hist_step].
      * apply behind_next; auto.
        rewrite fold_left_app, fold_left_app in D. rewrite <- E in D. cbn [fold_left hist_step] in D.
        destruct (hist_tail s r (h ++ [0])) as (t & Ht & Q); [destruct h; discriminate|].
        rewrite Q, removelast_last, removelast_app in D by exact Ht.
        exact (down_prefix h _ D).
      * apply behind_set; auto.
    + rewrite fold_left_app, <- E. reflexivity.
Qed.

Lemma run_behind s ops : down (aged (removelast (history s ops))) ->
  behind (row_run w s ops (repeat 0 (length w))) (history s ops).
Proof.
  intros D. apply (row_behind s ops [] (repeat 0 (length w)) []); auto.
  - apply repeat_length.
  - split; [cbn; apply nth_repeat0|]. intros k _. unfold filled.
    rewrite (sumn_zero k) by (intros; rewrite nth_repeat0; lra).
    rewrite (sumn_zero (L k)); [lra|]. intros i _. destruct i; reflexivity.
Qed.
End Cells.

(** ** Histories *)
Lemma nd_nonneg h : never_decreasing h -> forall m, 0 <= nth m h 0.
Proof.
  intros (H0 & H) m. induction m as [|m IH]; auto.
  destruct (Nat.lt_ge_cases (S m) (length h)) as [Q|Q].
  - pose proof (H m Q). lra.
  - rewrite nth_overflow by lia. lra.
Qed.
Lemma aged_nonneg h a : never_decreasing h -> 0 <= aged h a.
Proof.
  intros H. unfold aged. destruct (Nat.lt_ge_cases a (length h)) as [Q|Q].
  - rewrite rev_nth by exact Q. apply nd_nonneg. exact H.
  - rewrite nth_overflow by (rewrite rev_length; exact Q). lra.
Qed.
Lemma aged_down h : never_decreasing h -> down (aged h).
Proof.
  intros H. apply down_step. intros a.
  destruct (Nat.lt_ge_cases (S a) (length h)) as [Q|Q].
  - unfold aged. rewrite !rev_nth by lia. destruct H as (_ & H).
    pose proof (H (length h - S (S a))%nat ltac:(lia)) as K.
    replace (S (length h - S (S a))) with (length h - S a)%nat in K by lia. exact K.
  - unfold aged at 1. rewrite nth_overflow by (rewrite rev_length; exact Q). apply aged_nonneg. exact H.
Qed.
Lemma nd_removelast h : never_decreasing h -> never_decreasing (removelast h).
Proof.
  intros H. destruct h as [|x r _] using rev_ind; [exact H|].
  rewrite removelast_last. destruct H as (H0 & H). split.
  - destruct r; [cbn; lra|]. exact H0.
  - intros m Lm. pose proof (H m) as K. rewrite app_length in K. cbn in K.
    rewrite !app_nth1 in K by lia. apply K. lia.
Qed.

Lemma superpose_aged dt (g : R -> R) h :
  superpose (fun k => g (INR (S k) * dt)) h = sumn (length h) (fun a => aged h a * rise dt g a).
Proof.
  rewrite superpose_spr.
  rewrite <- (abel (fun _ _ k => g (INR (S k) * dt)) 0 0 (length h) (rev h)).
  - apply sumn_ext. intros a _. unfold aged, cj_dg, rise. destruct a as [|a].
    + change (INR 1) with 1. rewrite Rmult_1_l. ring.
    + ring.
  - intros k. destruct (Nat.lt_ge_cases k (length h)); [right; auto|left].
    apply nth_overflow. rewrite rev_length. auto.
Qed.

(** ** The cells of ClaessonJaved *)
Definition cj_edge (cpl k : nat) : nat := fold_right (fun j s => (2 ^ (j / cpl) + s)%nat) 0%nat (rev (seq 0 k)).
Lemma cj_edge_S cpl k : cj_edge cpl (S k) = (cj_edge cpl k + 2 ^ (k / cpl))%nat.
Proof.
  unfold cj_edge. rewrite seq_S, rev_app_distr, Nat.add_0_l. cbn [rev app fold_right]. apply Nat.add_comm.
Qed.
Lemma cj_edge_INR cpl k : INR (cj_edge cpl k) = sumn k (cj_steps cpl).
Proof.
  induction k as [|k IH]; [reflexivity|]. rewrite cj_edge_S, plus_INR, IH. cbn [sumn]. unfold cj_steps.
  rewrite pow_INR. reflexivity.
Qed.
Lemma cj_edge_inc cpl k : (cj_edge cpl k < cj_edge cpl (S k))%nat.
Proof. rewrite cj_edge_S. pose proof (Nat.pow_nonzero 2 (k / cpl)). lia. Qed.

Lemma rise_sum dt g n : sumn (S n) (rise dt g) = g (INR (S n) * dt).
Proof.
  induction n as [|n IH].
  - cbn [sumn rise]. change (INR 1) with 1. rewrite Rmult_1_l. ring.
  - cbn [sumn] in IH |- *. rewrite IH. unfold rise. ring.
Qed.

Lemma cj_under dt tmax cpl f time nS ops st (g : nat -> nat -> R -> R) i :
  0 < dt -> 0 < tmax -> (1 <= cpl)%nat -> time_ClaessonJaved f dt tmax cpl = Some time ->
  (forall j, (j < nS)%nat -> slowing dt (g i j)) ->
  (forall j, (j < nS)%nat -> never_decreasing (history j ops)) ->
  cj_run (cj_init (cj_width_of dt time) nS) ops = Some st ->
  cj_superposition (fun i j k => g i j (nth k time 0)) st i
  <= sumn nS (fun j => superpose (fun k => g i j (INR (S k) * dt)) (history j ops)).
Proof.
  intros Hdt Htm Hc Ht Hg Hh Hr.
  destruct (cjt_main dt tmax cpl Hdt Hc) as (r & Hgrid & _ & Hu). pose proof (Hu _ _ Ht) as <-. clear Hu.
  destruct (cjt_good dt tmax cpl f time Hdt Htm Hc Ht) as (Hgood & _ & _).
  destruct Hgrid as (Hnth & _).
  set (w := cj_width_of dt time) in *.
  destruct (good_width dt time Hgood) as (Wl & Wp & W0 & _). fold w in Wl, Wp, W0.
  set (L := cj_edge cpl).
  assert (L0 : L 0%nat = 0%nat) by reflexivity.
  assert (L1 : L 1%nat = 1%nat) by (unfold L; rewrite cj_edge_S, Nat.div_0_l by lia; reflexivity).
  assert (Linc : forall k, (L k < L (S k))%nat) by (intros; apply cj_edge_inc).
  assert (T : forall k, (k < length time)%nat -> nth k time 0 = INR (L (S k)) * dt).
  { intros k Lk. rewrite Hnth by exact Lk. unfold L. rewrite cj_edge_INR. ring. }
  assert (Hw : forall k, (k < length w)%nat -> nth k w 0 = cw L k).
  { intros k Lk. unfold cw. destruct k as [|k]; [rewrite W0, L0, L1; reflexivity|].
    unfold w. rewrite width_S by lia. rewrite !T by lia. rewrite minus_INR by (pose proof (Linc (S k)); lia).
    field. lra. }
  destruct (cj_run_rows _ _ _ Hr) as (E1 & E2 & E3).
  cbn [cj_w cj_q cj_init] in E1, E2, E3. rewrite repeat_length in E2, E3.
  unfold cj_superposition. rewrite E2. apply sumn_le. intros j Lj.
  destruct (E3 j Lj) as (Er & _). rewrite Er, E1.
  change (repeat (repeat 0 (length w)) nS) with (cj_q (cj_init w nS)). rewrite (cj_init_row w nS j Lj).
  pose proof (Hh j Lj) as Nd. pose proof (Hg j Lj) as Sl.
  assert (B : behind L w (row_run w j ops (repeat 0 (length w))) (history j ops))
    by (apply run_behind; auto; apply aged_down, nd_removelast, Nd).
  destruct B as (_ & B).
  set (row := row_run w j ops (repeat 0 (length w))) in *.
  rewrite superpose_aged.
  apply Rle_trans with (sumn (length w) (fun k => phi L (rise dt (g i j)) k * (filled w row (S k) - filled w row k))).
  - right. apply sumn_ext. intros k Lk. unfold phi, filled. cbn [sumn]. rewrite (Hw k Lk).
    assert (Wk : 1 <= cw L k) by (apply cw_pos; assumption).
    replace (cj_dg (fun i0 j0 k0 => g i0 j0 (nth k0 time 0)) i j k) with (cell L (rise dt (g i j)) k); [field; lra|].
    assert (P : forall m, (m < length time)%nat -> sumn (L (S m)) (rise dt (g i j)) = g i j (nth m time 0)).
    { intros m Lm. rewrite T by exact Lm. pose proof (Linc m).
      replace (L (S m)) with (S (L (S m) - 1)) by lia. apply rise_sum. }
    assert (Q : sumn (L (S k)) (rise dt (g i j)) = sumn (L k) (rise dt (g i j)) + cell L (rise dt (g i j)) k) by (apply cell_prefix; assumption).
    rewrite P in Q by lia. unfold cj_dg. destruct k as [|k].
    + rewrite L0 in Q. cbn [sumn] in Q. lra.
    + rewrite P in Q by lia. lra.
  - apply spread; try assumption.
    + apply aged_down. exact Nd.
    + intros a. apply aged_nonneg. exact Nd.
    + apply down_step. intros a. apply Sl.
    + intros a. destruct a as [|a]; [pose proof (Sl 0%nat); lra|apply Sl].
    + intros a La. unfold aged. apply nth_overflow. rewrite rev_length. exact La.
    + reflexivity.
Qed.
