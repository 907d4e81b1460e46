(** Proofs on the time grids. *)
From Verif Require Import Base TimeGrid_Model TimeGrid_Spec LoadAgg_Spec.

(** * A loop with a general step size *)
Fixpoint gloop (fuel : nat) (dt tmax : R) (w : nat -> R) (t : R) (i : nat) : option (list R) :=
  if Rltb t tmax then
    match fuel with
    | O => None
    | S f =>
        match gloop f dt tmax w (t + w i * dt) (S i) with
        | Some r => Some (t + w i * dt :: r)
        | None => None
        end
    end
  else Some [].

Lemma gloop_ext f dt tmax w w' t i : (forall k, w k = w' k) -> gloop f dt tmax w t i = gloop f dt tmax w' t i.
Proof.
  intros H. revert t i. induction f as [|f IH]; intros t i; cbn; [reflexivity|].
  rewrite H. destruct (Rltb t tmax); [|reflexivity]. rewrite IH. reflexivity.
Qed.

Lemma gloop_mono f f' dt tmax w t i r :
  gloop f dt tmax w t i = Some r -> (f <= f')%nat -> gloop f' dt tmax w t i = Some r.
Proof.
  revert f' t i r. induction f as [|f IH]; intros f' t i r H L.
  - cbn in H. destruct f'; cbn; destruct (Rltb t tmax); try discriminate; exact H.
  - destruct f' as [|f']; [lia|]. cbn in *. destruct (Rltb t tmax); [|exact H].
    destruct (gloop f dt tmax w (t + w i * dt) (S i)) eqn:E; [|discriminate].
    rewrite (IH f' _ _ _ E) by lia. exact H.
Qed.

Lemma gloop_fun f f' dt tmax w t i r r' :
  gloop f dt tmax w t i = Some r -> gloop f' dt tmax w t i = Some r' -> r = r'.
Proof.
  intros H H'. destruct (Nat.le_ge_cases f f') as [L|L].
  - rewrite (gloop_mono _ _ _ _ _ _ _ _ H L) in H'. congruence.
  - rewrite (gloop_mono _ _ _ _ _ _ _ _ H' L) in H. congruence.
Qed.

Lemma gloop_enough f dt tmax w t i :
  0 < dt -> (forall k, 1 <= w k) -> tmax <= t + INR f * dt -> exists r, gloop f dt tmax w t i = Some r.
Proof.
  intros Hd Hw. revert t i. induction f as [|f IH]; intros t i H.
  - cbn in *. assert (E : Rltb t tmax = false) by (apply Rltb_false; lra). rewrite E. eauto.
  - cbn [gloop]. destruct (Rltb t tmax); [|eauto].
    destruct (IH (t + w i * dt) (S i)) as [r Hr].
    + rewrite S_INR in H. pose proof (Hw i). nra.
    + rewrite Hr. eauto.
Qed.

Lemma nat_above x : exists n, x < INR n.
Proof.
  destruct (archimed x) as [A _]. exists (Z.to_nat (up x)).
  destruct (Z_le_gt_dec 0 (up x)) as [L|L].
  - rewrite INR_IZR_INZ, Z2Nat.id by exact L. lra.
  - assert (IZR (up x) < 0) by (apply (IZR_lt _ 0); lia).
    pose proof (pos_INR (Z.to_nat (up x))). lra.
Qed.

Lemma enough_fuel dt tmax t : 0 < dt -> exists f, tmax <= t + INR f * dt.
Proof.
  intros Hd. destruct (nat_above ((tmax - t) / dt)) as [f Hf]. exists f.
  assert ((tmax - t) / dt * dt = tmax - t) by (field; lra). nra.
Qed.

Lemma gloop_nth f dt tmax w t i r :
  gloop f dt tmax w t i = Some r ->
  forall k, (k < length r)%nat -> nth k r 0 = t + dt * sumn (S k) (fun j => w (i + j)%nat).
Proof.
  revert t i r. induction f as [|f IH]; intros t i r H k Hk.
  - cbn in H. destruct (Rltb t tmax); [discriminate|]. inversion H; subst. cbn in Hk; lia.
  - cbn [gloop] in H. destruct (Rltb t tmax).
    2:{ inversion H; subst. cbn in Hk; lia. }
    destruct (gloop f dt tmax w (t + w i * dt) (S i)) as [r0|] eqn:E; [|discriminate].
    inversion H; subst; clear H. rewrite sumn_S_l.
    destruct k as [|k]; cbn [nth].
    + cbn. rewrite Nat.add_0_r. ring.
    + cbn in Hk. rewrite (IH _ _ _ E) by lia. rewrite Nat.add_0_r.
      rewrite (sumn_ext _ (fun j => w (S i + j)%nat) (fun j => w (i + S j)%nat)).
      2:{ intros; f_equal; lia. }
      ring.
Qed.

Lemma gloop_below f dt tmax w t i r :
  gloop f dt tmax w t i = Some r ->
  forall k, (S k < length r)%nat -> nth k r 0 < tmax.
Proof.
  revert t i r. induction f as [|f IH]; intros t i r H k Hk.
  - cbn in H. destruct (Rltb t tmax); [discriminate|]. inversion H; subst. cbn in Hk; lia.
  - cbn [gloop] in H. destruct (Rltb t tmax).
    2:{ inversion H; subst. cbn in Hk; lia. }
    destruct (gloop f dt tmax w (t + w i * dt) (S i)) as [r0|] eqn:E; [|discriminate].
    inversion H; subst; clear H. destruct k as [|k]; cbn [nth].
    + destruct r0; [cbn in Hk; lia|].
      destruct f; cbn in E; destruct (Rltb (t + w i * dt) tmax) eqn:E1; try discriminate;
        apply Rltb_true in E1; exact E1.
    + cbn in Hk. apply (IH _ _ _ E). lia.
Qed.

Lemma gloop_last f dt tmax w t i r :
  gloop f dt tmax w t i = Some r -> t < tmax -> r <> [] /\ tmax <= last r 0.
Proof.
  revert t i r. induction f as [|f IH]; intros t i r H Ht.
  - cbn in H. apply Rltb_true in Ht. rewrite Ht in H. discriminate.
  - cbn [gloop] in H. apply Rltb_true in Ht. rewrite Ht in H.
    destruct (gloop f dt tmax w (t + w i * dt) (S i)) as [r0|] eqn:E; [|discriminate].
    inversion H; subst; clear H. split; [discriminate|].
    destruct (Rlt_dec (t + w i * dt) tmax) as [L|L].
    + destruct (IH _ _ _ E L) as [N B]. destruct r0; [congruence|]. exact B.
    + assert (r0 = []).
      { assert (E1 : Rltb (t + w i * dt) tmax = false) by (apply Rltb_false; lra).
        destruct f; cbn in E; rewrite E1 in E; congruence. }
      subst. cbn. lra.
Qed.

Lemma gloop_grid f dt tmax w r :
  gloop f dt tmax w 0 0 = Some r -> grid_of dt tmax w r.
Proof.
  intros H. split; [|split; [|split]].
  - intros k Hk. rewrite (gloop_nth _ _ _ _ _ _ _ H k Hk). rewrite (sumn_ext (S k) _ w) by reflexivity. ring.
  - apply (gloop_below _ _ _ _ _ _ _ H).
  - apply (gloop_last _ _ _ _ _ _ _ H).
  - intros L. assert (E : Rltb 0 tmax = false) by (apply Rltb_false; lra).
    destruct f; cbn in H; rewrite E in H; congruence.
Qed.

(** A grid of steps is determined by its steps and its end. *)
Lemma grid_unique dt tmax w r r' : 0 < dt -> (forall k, 1 <= w k) ->
  grid_of dt tmax w r -> grid_of dt tmax w r' -> r = r'.
Proof.
  intros Hd Hw H H'.
  assert (Hl : forall a b, grid_of dt tmax w a -> grid_of dt tmax w b -> (length b <= length a)%nat).
  { clear r r' H H'. intros a b (A1 & A2 & A3 & A4) (B1 & B2 & B3 & B4).
    destruct (Nat.le_gt_cases (length b) (length a)) as [L|L]; [exact L|exfalso].
    destruct (Rle_lt_dec tmax 0) as [T|T].
    { rewrite (B4 T) in L. cbn in L; lia. }
    destruct (A3 T) as [An Al].
    destruct (length a) as [|n] eqn:E. { destruct a; [congruence|discriminate]. }
    assert (Hla : last a 0 = nth n a 0).
    { clear - E. revert n E. induction a as [|x a IH]; intros n E; [discriminate|].
      destruct a as [|y a]; [cbn in E; inversion E; reflexivity|].
      cbn in E. destruct n; [lia|]. change (last (x :: y :: a) 0) with (last (y :: a) 0).
      change (nth (S n) (x :: y :: a) 0) with (nth n (y :: a) 0). apply IH. cbn; lia. }
    rewrite Hla in Al. rewrite A1 in Al by lia. specialize (B2 n). rewrite B1 in B2 by lia.
    assert (S n < length b)%nat by lia. specialize (B2 H). lra. }
  assert (E : length r = length r') by (pose proof (Hl _ _ H H'); pose proof (Hl _ _ H' H); lia).
  apply (list_eq_nth 0); [exact E|].
  intros i Hi. rewrite (proj1 H) by exact Hi. rewrite (proj1 H') by lia. reflexivity.
Qed.

Lemma grid_increasing dt tmax w r : 0 < dt -> (forall k, 1 <= w k) -> grid_of dt tmax w r ->
  strictly_increasing r /\ (forall k, (S k < length r)%nat -> dt <= nth (S k) r 0 - nth k r 0).
Proof.
  intros Hd Hw (A1 & _).
  assert (G : forall k, (S k < length r)%nat -> dt <= nth (S k) r 0 - nth k r 0).
  { intros k Hk. rewrite !A1 by lia. cbn [sumn]. pose proof (Hw (S k)). nra. }
  split; [|exact G]. intros k Hk. specialize (G k Hk). lra.
Qed.

(** * Claesson and Javed *)
Lemma nceil_S i n : (1 <= n)%nat -> (nceil (S i) n - 1 = i / n)%nat.
Proof.
  intros H. unfold nceil. replace (S i + n - 1)%nat with (i + 1 * n)%nat by lia.
  rewrite Nat.div_add by lia. lia.
Qed.

Lemma cjt_gloop f dt tmax cpl t i : (1 <= cpl)%nat ->
  cjt_loop f dt tmax cpl t i = gloop f dt tmax (cj_steps cpl) t i.
Proof.
  intros H. revert t i. induction f as [|f IH]; intros t i; cbn [cjt_loop gloop]; [reflexivity|].
  rewrite nceil_S by exact H. rewrite IH. reflexivity.
Qed.

Lemma pow2_ge1 n : 1 <= 2 ^ n.
Proof. apply pow_R1_Rle; lra. Qed.

Lemma cj_steps_ge1 cpl k : 1 <= cj_steps cpl k.
Proof. apply pow2_ge1. Qed.

Lemma mp_steps_ge1 n k : 1 <= mp_steps n k.
Proof. unfold mp_steps. destruct (k <? n)%nat; [lra|apply pow2_ge1]. Qed.

Lemma mpt_gloop f dt tmax nec t i width :
  width = (if (i <=? nec)%nat then 1 else 2 ^ (i - nec)) ->
  mpt_loop f dt tmax nec t i width = gloop f dt tmax (mp_steps nec) t i.
Proof.
  revert t i width. induction f as [|f IH]; intros t i width W; cbn [mpt_loop gloop]; [reflexivity|].
  assert (E : (if (nec <? S i)%nat then 2 * width else width) = mp_steps nec i).
  { unfold mp_steps. rewrite W.
    destruct (Nat.ltb_spec i nec), (Nat.ltb_spec nec (S i)), (Nat.leb_spec i nec); try lia; try reflexivity.
    - assert (i = nec) by lia. subst. replace (nec + 1 - nec)%nat with 1%nat by lia. lra.
    - replace (i + 1 - nec)%nat with (S (i - nec)) by lia. reflexivity. }
  rewrite E. rewrite IH; [reflexivity|].
  unfold mp_steps.
  destruct (Nat.ltb_spec i nec), (Nat.leb_spec (S i) nec); try lia; try reflexivity.
  f_equal. lia.
Qed.

Lemma cjt_main dt tmax cpl : 0 < dt -> (1 <= cpl)%nat ->
  exists r, grid_of dt tmax (cj_steps cpl) r
    /\ (exists n, forall f, (n <= f)%nat -> time_ClaessonJaved f dt tmax cpl = Some r)
    /\ forall f r', time_ClaessonJaved f dt tmax cpl = Some r' -> r' = r.
Proof.
  intros Hd Hc. destruct (enough_fuel dt tmax 0 Hd) as [n Hn].
  destruct (gloop_enough n dt tmax (cj_steps cpl) 0 0 Hd (cj_steps_ge1 cpl) Hn) as [r Hr].
  exists r. split; [exact (gloop_grid _ _ _ _ _ Hr)|]. unfold time_ClaessonJaved. split.
  - exists n. intros f Hf. rewrite cjt_gloop by exact Hc. exact (gloop_mono _ _ _ _ _ _ _ _ Hr Hf).
  - intros f r' H. rewrite cjt_gloop in H by exact Hc. exact (gloop_fun _ _ _ _ _ _ _ _ _ H Hr).
Qed.

Lemma mpt_main dt tmax nec : 0 < dt ->
  exists r, grid_of dt tmax (mp_steps nec) r
    /\ (exists n, forall f, (n <= f)%nat -> time_MarcottePasquier f dt tmax nec = Some r)
    /\ forall f r', time_MarcottePasquier f dt tmax nec = Some r' -> r' = r.
Proof.
  intros Hd. destruct (enough_fuel dt tmax 0 Hd) as [n Hn].
  destruct (gloop_enough n dt tmax (mp_steps nec) 0 0 Hd (mp_steps_ge1 nec) Hn) as [r Hr].
  exists r. split; [exact (gloop_grid _ _ _ _ _ Hr)|]. unfold time_MarcottePasquier. split.
  - exists n. intros f Hf. rewrite mpt_gloop by reflexivity. exact (gloop_mono _ _ _ _ _ _ _ _ Hr Hf).
  - intros f r' H. rewrite mpt_gloop in H by reflexivity. exact (gloop_fun _ _ _ _ _ _ _ _ _ H Hr).
Qed.

Lemma cjt_good dt tmax cpl f r : 0 < dt -> 0 < tmax -> (1 <= cpl)%nat ->
  time_ClaessonJaved f dt tmax cpl = Some r ->
  good_times dt r /\ nth 0 r 0 = dt
  /\ forall k, (S k < length r)%nat -> dt <= nth (S k) r 0 - nth k r 0.
Proof.
  intros Hd Ht Hc H. destruct (cjt_main dt tmax cpl Hd Hc) as (r0 & G & _ & U).
  rewrite (U _ _ H). destruct (grid_increasing _ _ _ _ Hd (cj_steps_ge1 cpl) G) as [I S].
  destruct G as (A1 & _ & A3 & _). destruct (A3 Ht) as [N _].
  split; [|split; [|exact S]].
  - split; [exact Hd|split; [exact N|exact I]].
  - rewrite A1. 2:{ destruct r0; [congruence|cbn; lia]. }
    cbn [sumn]. unfold cj_steps. rewrite Nat.div_0_l by lia. cbn. ring.
Qed.

Lemma mpt_increasing dt tmax nec f r : 0 < dt -> time_MarcottePasquier f dt tmax nec = Some r ->
  strictly_increasing r /\ forall k, (S k < length r)%nat -> dt <= nth (S k) r 0 - nth k r 0.
Proof.
  intros Hd H. destruct (mpt_main dt tmax nec Hd) as (r0 & G & _ & U). rewrite (U _ _ H).
  exact (grid_increasing _ _ _ _ Hd (mp_steps_ge1 nec) G).
Qed.
