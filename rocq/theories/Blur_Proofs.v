(** Distance between aggregated temperatures and the temporal superposition of
    the loads. *)
From Verif Require Import Base LoadAgg_Model LoadAgg_Spec Agg_Spec Agg_Proofs TimeGrid_Model TimeGrid_Spec TimeGrid_Proofs Steps_Proofs Vary_Proofs.
From Verif Require Import LoadAgg_CJ_Proofs LoadAgg_MLAA_Proofs LoadAgg_Liu_Proofs.

Lemma blur_prefix (g : nat -> R) lo hi a : grows g -> forall b r, r <> [] -> length a = length b ->
  Forall (fun x => lo <= x <= hi) a -> Forall (fun x => lo <= x <= hi) b ->
  Rabs (superpose g (a ++ r) - superpose g (b ++ r)) <= (hi - lo) * (g (length (b ++ r) - 1)%nat - g (length r - 1)%nat).
Proof.
  intros [_ G]. induction a as [|x a IH]; intros b r Hr Hl Ha Hb; destruct b as [|y b]; try discriminate.
  - cbn [app]. rewrite Rminus_diag_eq, Rabs_R0 by reflexivity. lra.
  - injection Hl as Hl. inversion Ha as [|? ? Hx Ha']; inversion Hb as [|? ? Hy Hb']; subst.
    specialize (IH b r Hr Hl Ha' Hb'). cbn [app]. rewrite !superpose_cons.
    replace (length (a ++ r)) with (length (b ++ r)) by (rewrite !app_length; lia).
    assert (Ln : exists m, length (b ++ r) = S m). { rewrite app_length. destruct r as [|z r]; [congruence|]. cbn [length]. exists (length b + length r)%nat. lia. }
    destruct Ln as [m Em]. cbn [length]. rewrite Em in *. replace (S m - 1)%nat with m in IH by lia. replace (S (S m) - 1)%nat with (S m) by lia.
    specialize (G m).
    replace (superpose g (a ++ r) + x * (g (S m) - g m) - (superpose g (b ++ r) + y * (g (S m) - g m)))
      with ((superpose g (a ++ r) - superpose g (b ++ r)) + (x - y) * (g (S m) - g m)) by ring.
    eapply Rle_trans; [apply Rabs_triang|]. rewrite Rabs_mult, (Rabs_pos_eq (g (S m) - g m)) by lra.
    assert (D : Rabs (x - y) <= hi - lo) by (apply Rabs_le; lra).
    assert (D' : Rabs (x - y) * (g (S m) - g m) <= (hi - lo) * (g (S m) - g m)) by (apply Rmult_le_compat_r; lra).
    lra.
Qed.

Lemma grows_le g m n : grows g -> (m <= n)%nat -> g m <= g n.
Proof. intros [_ G] H. induction H as [|n H IH]; [lra|]. specialize (G n). lra. Qed.

Lemma mlaa_blur nS Nt N0 N1 N2 N3 ops st (g : nat -> nat -> nat -> R) i (lo hi : nat -> R) :
  (1 <= N0)%nat -> (1 <= N1)%nat -> (1 <= N2)%nat -> (1 <= N3)%nat ->
  mlaa_run (mlaa_init nS Nt N0 N1 N2 N3) ops = Some st -> (N0 <= steps ops)%nat ->
  (forall j, (j < nS)%nat -> grows (g i j)) ->
  (forall j, (j < nS)%nat -> Forall (fun x => lo j <= x <= hi j) (history j ops)) ->
  Rabs (mlaa_superposition g st i - sumn nS (fun j => superpose (g i j) (history j ops)))
  <= sumn nS (fun j => (hi j - lo j) * (g i j (steps ops - 1)%nat - g i j (N0 - 1)%nat)).
Proof.
  intros H0 H1 H2 H3 Hr Hn Hg Hb.
  destruct (mlaa_lemma nS Nt N0 N1 N2 N3 ops st H0 H1 H2 H3 Hr ltac:(lia)) as [B4 [B3 [B2 [B1 [R0 [A S]]]]]]. rewrite S.
  apply error_sum. intros j Hj. destruct (A j Hj) as [E [L0 _]]. specialize (Hb j Hj).
  pose proof (history_length j ops (mlaa_starts _ _ _ _ _ _ _ _ Hr)) as L. rewrite Nat.min_r in L0 by lia.
  rewrite E in Hb, L |- *. rewrite !app_assoc. rewrite !app_assoc in L, Hb. apply Forall_app in Hb. destruct Hb as [Hb _].
  rewrite <- !app_assoc in Hb. rewrite <- L, <- L0. apply blur_prefix.
  - apply Hg. exact Hj.
  - intros N. rewrite N in L0. cbn in L0. lia.
  - rewrite !app_length, !averaged_len. reflexivity.
  - rewrite <- !app_assoc. repeat rewrite Forall_app in *. destruct Hb as [X4 [X3 [X2 X1]]].
    repeat split; apply averaged_in; assumption.
  - rewrite <- !app_assoc. exact Hb.
Qed.

Lemma liu_blur nS Nt N1 N2 N3 W1 W2 W3 ops st (g : nat -> nat -> nat -> R) i (lo hi : nat -> R) :
  (1 <= N1)%nat -> (1 <= N2)%nat -> (1 <= N3)%nat -> (1 <= W1)%nat -> (1 <= W2)%nat -> (1 <= W3)%nat ->
  liu_run (liu_init nS Nt N1 N2 N3 W1 W2 W3) ops = Some st -> starts_with_step ops -> (W1 <= steps ops)%nat ->
  (forall j, (j < nS)%nat -> grows (g i j)) ->
  (forall j, (j < nS)%nat -> Forall (fun x => lo j <= x <= hi j) (history j ops)) ->
  Rabs (liu_superposition g st i - sumn nS (fun j => superpose (g i j) (history j ops)))
  <= sumn nS (fun j => (hi j - lo j) * (g i j (steps ops - 1)%nat - g i j (W1 - 1)%nat)).
Proof.
  intros H1 H2 H3 X1 X2 X3 Hr Hs Hn Hg Hb.
  destruct (liu_lemma nS Nt N1 N2 N3 W1 W2 W3 ops st H1 H2 H3 X1 X2 X3 Hr Hs ltac:(lia)) as [Ls [Ms [Ss [R0 [A S]]]]]. rewrite S.
  apply error_sum. intros j Hj. destruct (A j Hj) as (E & _ & _ & _ & [L0 _] & _ & _ & Wt & _). specialize (Hb j Hj). specialize (Hg j Hj).
  pose proof (history_length j ops Hs) as L.
  assert (Lw : (W1 <= length (R0 j))%nat).
  { destruct Wt as [[Z1 [Z2 Z3]]|Y]; [|exact Y]. rewrite Z1, Z2, Z3 in E. cbn in E. rewrite E in L. lia. }
  assert (Amp : 0 <= hi j - lo j).
  { destruct (history j ops) as [|x h]; [cbn in L; lia|]. inversion Hb; subst; lra. }
  rewrite E in Hb, L |- *. rewrite !app_assoc. rewrite !app_assoc in L, Hb. apply Forall_app in Hb. destruct Hb as [Hb _].
  rewrite <- !app_assoc in Hb.
  eapply Rle_trans; [apply (blur_prefix (g i j) (lo j) (hi j)); try assumption|].
  - intros N. rewrite N in L0. cbn in L0. lia.
  - rewrite !app_length, !averaged_blocks_len. reflexivity.
  - rewrite <- !app_assoc. repeat rewrite Forall_app in *. destruct Hb as [Y3 [Y2 Y1]].
    repeat split; apply averaged_blocks_in; assumption.
  - rewrite <- !app_assoc. exact Hb.
  - rewrite L. apply Rmult_le_compat_l; [exact Amp|].
    pose proof (grows_le (g i j) (W1 - 1) (length (R0 j) - 1) Hg ltac:(lia)). lra.
Qed.

(** ** ClaessonJaved *)
Lemma row_first w s m ops : forall row h, (0 < m <= length w)%nat -> length row = length w -> (forall k, (k < m)%nat -> nth k w 0 = 1) ->
  (forall k, (k < m)%nat -> nth k row 0 = nth k (rev h) 0) ->
  forall k, (k < m)%nat -> nth k (row_run w s ops row) 0 = nth k (rev (fold_left (hist_step s) ops h)) 0.
Proof.
  induction ops as [|o ops IH]; intros row h Hm Hl Hw Hi k Hk; [apply Hi; exact Hk|].
  unfold row_run. cbn [fold_left]. apply IH; try assumption; [apply row_step_length; exact Hl|].
  clear k Hk. intros k Hk. destruct o as [|q]; cbn [row_step hist_step].
  - rewrite rev_app_distr. destruct k as [|k]; cbn [rev app nth].
    + apply nth_row_next_0; [lia|exact Hl|apply Hw; lia].
    + rewrite nth_row_next_S by (try lia; exact Hl). rewrite (Hw (S k)) by lia. rewrite (Hi k) by lia. field.
  - rewrite rev_app_distr, rev_removelast. destruct k as [|k]; cbn [rev app nth].
    + apply nth_upd_eq. lia.
    + rewrite nth_upd_neq by discriminate. rewrite nth_tl. apply Hi. exact Hk.
Qed.

Lemma sum_between lo hi p (d v : nat -> R) : (forall k, (k < p)%nat -> 0 <= d k) -> (forall k, lo <= v k <= hi) ->
  lo * sumn p d <= sumn p (fun k => d k * v k) <= hi * sumn p d.
Proof.
  intros Hd Hv. rewrite <- !sumn_scal. split; apply sumn_le; intros k Hk; specialize (Hd k Hk); specialize (Hv k); nra.
Qed.

Lemma rises (g : nat -> R) m p : (1 <= m)%nat ->
  sumn p (fun k => cj_dg (fun _ _ => g) 0 0 (m + k)) = g (m + p - 1)%nat - g (m - 1)%nat.
Proof.
  intros Hm. destruct m as [|m]; [lia|]. induction p as [|p IH].
  - cbn [sumn]. replace (S m + 0 - 1)%nat with (S m - 1)%nat by lia. ring.
  - cbn [sumn]. rewrite IH. cbn [Nat.add cj_dg]. replace (S (m + p) - 1)%nat with (m + p)%nat by lia.
    replace (S (m + S p) - 1)%nat with (S (m + p)) by lia. replace (S m - 1)%nat with m by lia. ring.
Qed.

Lemma in_removelast (h : list R) x : In x (removelast h) -> In x h.
Proof.
  destruct h as [|y h]; [intros []|]. intros H. rewrite (app_removelast_last 0 (l := y :: h)) by discriminate.
  apply in_or_app. left. exact H.
Qed.
Lemma history_in lo hi s ops : lo <= 0 <= hi -> Forall (load_in lo hi) ops -> forall k, lo <= nth k (rev (history s ops)) 0 <= hi.
Proof.
  intros H0 HF. assert (G : forall h, (forall x, In x h -> lo <= x <= hi) -> forall x, In x (fold_left (hist_step s) ops h) -> lo <= x <= hi).
  { induction HF as [|o ops Ho HF IH]; intros h Hh; [exact Hh|]. cbn [fold_left]. apply IH. clear IH.
    intros x. destruct o as [|q]; cbn [hist_step]; intros Hx; apply in_app_or in Hx; destruct Hx as [Hx|[<-|[]]].
    - apply Hh. exact Hx.
    - exact H0.
    - apply Hh. apply in_removelast. exact Hx.
    - cbn in Ho. destruct (nth_in_or_default s q 0) as [I|E]; [apply Ho; exact I|rewrite E; exact H0]. }
  intros k. destruct (nth_in_or_default k (rev (history s ops)) 0) as [I|E]; [|rewrite E; exact H0].
  apply in_rev in I. apply (G [] (fun x (F : In x []) => match F with end)). exact I.
Qed.

Lemma cj_blur f dt tmax cpl time nS ops st (g : nat -> nat -> R -> R) i lo hi :
  0 < dt -> 0 < tmax -> (1 <= cpl)%nat -> time_ClaessonJaved f dt tmax cpl = Some time -> (cpl <= length time)%nat ->
  cj_run (cj_init (cj_width_of dt time) nS) ops = Some st -> lo <= 0 <= hi -> Forall (load_in lo hi) ops ->
  starts_with_step ops -> INR (steps ops) * dt <= last time 0 ->
  (forall j, (j < nS)%nat -> forall s t, 0 < s <= t -> g i j s <= g i j t) ->
  Rabs (cj_superposition (fun i j k => g i j (nth k time 0)) st i
        - sumn nS (fun j => superpose (fun k => g i j (INR (S k) * dt)) (history j ops)))
  <= sumn nS (fun j => (hi - lo) * (g i j (last time 0) - g i j (INR cpl * dt))).
Proof.
  intros Hd Ht Hc E Hk Hrun H0 HF Hs Hn Hg.
  destruct (cjt_good dt tmax cpl f time Hd Ht Hc E) as (Gt & _ & Sp).
  destruct (good_width _ _ Gt) as (Hl & Hp & H1 & _).
  pose proof (fun s Hs' => cj_bounds_lemma dt time nS ops st lo hi s Gt Sp H0 HF Hrun Hs') as Bd.
  destruct (cj_run_rows _ _ _ Hrun) as (Ew & Eq & A). cbn [cj_init cj_w cj_q] in Ew, Eq. rewrite repeat_length in Eq.
  destruct (cjt_main dt tmax cpl Hd Hc) as [tr [[Ag _] [_ U]]]. rewrite <- (U f time E) in Ag. clear tr U.
  assert (Tm : forall k, (k < cpl)%nat -> nth k time 0 = INR (S k) * dt).
  { intros k Hk'. rewrite Ag by lia. rewrite sumn_cj_steps by lia. ring. }
  assert (Tp : forall k, (k < length time)%nat -> 0 < nth k time 0).
  { intros k Hk'. rewrite Ag by lia. apply Rmult_lt_0_compat; [exact Hd|]. cbn [sumn].
    pose proof (cj_steps_ge1 cpl k). assert (0 <= sumn k (cj_steps cpl)) by (apply sumn_nonneg; intros q _; pose proof (cj_steps_ge1 cpl q); lra). lra. }
  assert (Tl : last time 0 = nth (length time - 1) time 0) by (apply last_at; lia).
  assert (Ti : forall k, (S k < length time)%nat -> nth k time 0 <= nth (S k) time 0).
  { intros k Hk'. specialize (Sp k Hk'). lra. }
  unfold cj_superposition. rewrite Ew, Eq, Hl. apply error_sum. intros j Hj. specialize (Hg j Hj). specialize (Bd j Hj).
  set (h := history j ops). set (row := nth j (cj_q st) []).
  assert (F : forall k, (k < cpl)%nat -> nth k row 0 = nth k (rev h) 0).
  { intros k Hk'. unfold row. destruct (A j) as (Ar & _); [cbn; rewrite repeat_length; exact Hj|].
    rewrite Ar, cj_init_row by exact Hj. cbn [cj_init cj_w]. unfold h, history.
    apply (row_first _ _ cpl); [rewrite Hl; lia|apply repeat_length| | |exact Hk'].
    - intros q Hq. destruct q as [|q]; [exact H1|]. rewrite width_S by lia. rewrite !Tm by lia. rewrite !S_INR. field. lra.
    - intros q Hq. rewrite nth_repeat0. cbn. destruct q; reflexivity. }
  set (gc := fun k : nat => g i j (nth k time 0)). set (gs := fun k : nat => g i j (INR (S k) * dt)).
  assert (Sg : superpose gs h = sumn (Nat.max cpl (length h)) (fun k => cj_dg (fun _ _ => gs) 0 0 k * nth k (rev h) 0)).
  { rewrite superpose_spr. symmetry. apply (abel (fun _ _ => gs) 0 0). intros k.
    destruct (le_lt_dec (Nat.max cpl (length h)) k) as [Y|Y]; [left; apply nth_overflow; rewrite rev_length; lia|right; exact Y]. }
  rewrite Sg. set (p := (length time - cpl)%nat). set (q := (Nat.max cpl (length h) - cpl)%nat).
  replace (length time) with (cpl + p)%nat by lia. replace (Nat.max cpl (length h)) with (cpl + q)%nat by lia.
  change (fun k => cj_dg (fun i0 j0 k0 => g i0 j0 (nth k0 time 0)) i j k * nth k row 0) with (fun k => cj_dg (fun _ _ => gc) 0 0 k * nth k row 0).
  rewrite !sumn_split.
  assert (Same : sumn cpl (fun k => cj_dg (fun _ _ => gc) 0 0 k * nth k row 0) = sumn cpl (fun k => cj_dg (fun _ _ => gs) 0 0 k * nth k (rev h) 0)).
  { apply sumn_ext. intros k Hk'. rewrite F by exact Hk'. f_equal. destruct k as [|k]; cbn [cj_dg]; unfold gc, gs; rewrite !Tm by lia; reflexivity. }
  rewrite Same.
  pose proof (sum_between lo hi p (fun k => cj_dg (fun _ _ => gc) 0 0 (cpl + k)) (fun k => nth (cpl + k) row 0)) as B1.
  pose proof (sum_between lo hi q (fun k => cj_dg (fun _ _ => gs) 0 0 (cpl + k)) (fun k => nth (cpl + k) (rev h) 0)) as B2.
  rewrite rises in B1 by exact Hc. rewrite rises in B2 by exact Hc.
  match type of B1 with (?P -> _) => assert (Y1 : P) end.
  { intros k Hk'. destruct cpl as [|m]; [lia|]. cbn [Nat.add cj_dg]. unfold gc.
    assert (g i j (nth (m + k) time 0) <= g i j (nth (S (m + k)) time 0)); [|lra]. apply Hg. split; [apply Tp; lia|apply Ti; lia]. }
  specialize (B1 Y1 (fun k => Bd (cpl + k)%nat)). clear Y1.
  match type of B2 with (?P -> _) => assert (Y2 : P) end.
  { intros k Hk'. destruct cpl as [|m]; [lia|]. cbn [Nat.add cj_dg]. unfold gs.
    assert (g i j (INR (S (m + k)) * dt) <= g i j (INR (S (S (m + k))) * dt)); [|lra].
    pose proof (pos_INR (m + k)). rewrite !S_INR. apply Hg. split; nra. }
  specialize (B2 Y2 (fun k => history_in lo hi j ops H0 HF (cpl + k)%nat)). clear Y2.
  assert (C1 : gc (cpl + p - 1)%nat = g i j (last time 0)) by (unfold gc; rewrite Tl; do 2 f_equal; lia).
  assert (C2 : gc (cpl - 1)%nat = g i j (INR cpl * dt)) by (unfold gc; rewrite Tm by lia; do 3 f_equal; lia).
  assert (C3 : gs (cpl - 1)%nat = g i j (INR cpl * dt)) by (unfold gs; do 3 f_equal; lia).
  assert (Lc : INR cpl * dt <= last time 0).
  { rewrite Tl. replace (INR cpl * dt) with (nth (cpl - 1) time 0) by (rewrite Tm by lia; do 2 f_equal; lia).
    assert (Mo : forall n k, (k + n < length time)%nat -> nth k time 0 <= nth (k + n) time 0).
    { induction n as [|n IH]; intros k Hk'; [rewrite Nat.add_0_r; lra|]. specialize (IH k ltac:(lia)).
      specialize (Ti (k + n)%nat ltac:(lia)). replace (k + S n)%nat with (S (k + n)) by lia. lra. }
    replace (length time - 1)%nat with (cpl - 1 + (length time - cpl))%nat by lia. apply Mo. lia. }
  assert (Pc : 0 < INR cpl) by (apply lt_0_INR; lia).
  assert (C4 : gs (cpl + q - 1)%nat <= g i j (last time 0)).
  { unfold gs. replace (S (cpl + q - 1)) with (Nat.max cpl (length h)) by lia.
    assert (Lh : length h = steps ops) by (apply history_length; exact Hs).
    destruct (le_lt_dec (length h) cpl) as [Y|Y].
    - rewrite Nat.max_l by lia. apply Hg. split; [apply Rmult_lt_0_compat; lra|exact Lc].
    - rewrite Nat.max_r by lia. rewrite Lh. apply Hg. split; [|exact Hn].
      apply Rmult_lt_0_compat; [apply lt_0_INR; lia|exact Hd]. }
  assert (C5 : gs (cpl - 1)%nat <= gs (cpl + q - 1)%nat).
  { unfold gs. apply Hg. split; [apply Rmult_lt_0_compat; [apply lt_0_INR; lia|exact Hd]|]. apply Rmult_le_compat_r; [lra|]. apply le_INR. lia. }
  rewrite C1, C2 in B1. rewrite C3 in B2, C5. change (fun k => g i j (INR (S k) * dt)) with gs.
  set (X1 := sumn p _) in *. set (X2 := sumn q _) in *. set (a := g i j (last time 0)) in *. set (b := g i j (INR cpl * dt)) in *. set (c := gs (cpl + q - 1)%nat) in *.
  replace (sumn cpl (fun k => cj_dg (fun _ _ => gs) 0 0 k * nth k (rev h) 0) + X1 - (sumn cpl (fun k => cj_dg (fun _ _ => gs) 0 0 k * nth k (rev h) 0) + X2)) with (X1 - X2) by ring.
  assert (D1 : hi * (c - b) <= hi * (a - b)) by (apply Rmult_le_compat_l; lra).
  assert (D2 : lo * (a - b) <= lo * (c - b)) by nra.
  apply Rabs_le. lra.
Qed.
