(** Reconstruction of the load history and temporal superposition. *)
From Verif Require Import Base LinAlg Bore_Model Net_Model Solve_Model Solve_Spec.

(** * Lists *)
Lemma cumsum_nth s l k : (k < length l)%nat -> nth k (cumsum_from s l) 0 = s + sumn (S k) (fun i => nth i l 0).
Proof.
  revert s k. induction l as [|x l IH]; intros s k Hk; simpl in Hk; [lia|].
  destruct k as [|k].
  - simpl. ring.
  - cbn [cumsum_from nth]. rewrite IH by lia. rewrite (sumn_S_l (S k)). cbn [nth]. ring.
Qed.

Lemma cumsum_length s l : length (cumsum_from s l) = length l.
Proof. revert s. induction l; intros; simpl; auto. Qed.

(** a cumulative sum preceded by zero *)
Lemma cum0_nth l k : (k <= length l)%nat -> nth k (0 :: cumsum l) 0 = sumn k (fun i => nth i l 0).
Proof.
  intros Hk. destruct k as [|k]; [reflexivity|]. cbn [nth]. unfold cumsum. rewrite cumsum_nth by lia. ring.
Qed.

Lemma diffs_length p l : length (diffs p l) = length l.
Proof. revert p. induction l; intros; simpl; auto. Qed.

Lemma diffs_nth p l k : (k < length l)%nat -> nth k (diffs p l) 0 = nth (S k) (p :: l) 0 - nth k (p :: l) 0.
Proof.
  revert p k. induction l as [|x l IH]; intros p k Hk; simpl in Hk; [lia|].
  destruct k as [|k]; [reflexivity|]. cbn [diffs nth]. rewrite IH by lia. reflexivity.
Qed.

Lemma steps_length l : length (steps l) = length l.
Proof. destruct l; simpl; auto. rewrite diffs_length. auto. Qed.

Lemma steps_nth l k : (k < length l)%nat -> nth k (steps l) 0 = at_time l (S k) - at_time l k.
Proof.
  intros Hk. destruct l as [|x l]; simpl in Hk; [lia|]. unfold at_time. destruct k as [|k].
  - simpl. ring.
  - cbn [steps nth]. rewrite diffs_nth by lia. reflexivity.
Qed.

Lemma mul_length a b : length a = length b -> length (mul_lists a b) = length a.
Proof. intros E. unfold mul_lists. rewrite map_length, combine_length, E. lia. Qed.

Lemma mul_nth a b k : length a = length b -> (k < length a)%nat -> nth k (mul_lists a b) 0 = nth k a 0 * nth k b 0.
Proof.
  intros E Hk. unfold mul_lists. rewrite (nth_map _ _ _ (0, 0)) by (rewrite combine_length; lia).
  rewrite combine_nth by auto. reflexivity.
Qed.

Lemma all_some_map {A B} (f : A -> option B) (g : A -> B) l : (forall x, In x l -> f x = Some (g x)) -> all_some (map f l) = Some (map g l).
Proof.
  induction l as [|a l IH]; intros E; simpl; auto. rewrite (E a) by (left; auto). rewrite IH by (intros; apply E; right; auto). auto.
Qed.

Lemma last_nth {A} (l : list A) d : last l d = nth (length l - 1) l d.
Proof.
  induction l as [|a l IH]; auto. destruct l as [|b l]; auto.
  change (last (a :: b :: l) d) with (last (b :: l) d). rewrite IH. simpl. rewrite Nat.sub_0_r. auto.
Qed.

(** * Interpolation *)
Definition incr (xs : list R) : Prop := forall i j, (i < j)%nat -> (j < length xs)%nat -> nth i xs 0 < nth j xs 0.

Lemma incr_tl a xs : incr (a :: xs) -> incr xs.
Proof. intros I i j L Hj. apply (I (S i) (S j)); simpl; lia. Qed.

Lemma left_count xs x : incr xs -> forall k, (k <= length xs)%nat ->
  (forall i, (i < k)%nat -> nth i xs 0 < x) -> (forall i, (k <= i)%nat -> (i < length xs)%nat -> x <= nth i xs 0) ->
  searchsorted_left xs x = k.
Proof.
  induction xs as [|a xs IH]; intros I k Hk L G; simpl in Hk.
  - simpl. lia.
  - simpl. destruct k as [|k].
    + destruct (Rltb a x) eqn:E; auto. apply Rltb_true in E. specialize (G O ltac:(lia) ltac:(simpl; lia)). simpl in G. lra.
    + destruct (Rltb a x) eqn:E.
      * f_equal. apply (IH (incr_tl _ _ I)); [lia| |].
        -- intros i Hi. apply (L (S i)). lia.
        -- intros i Hi Hl. apply (G (S i)); simpl; lia.
      * apply Rltb_false in E. specialize (L O ltac:(lia)). simpl in L. lra.
Qed.

(** the value in the k-th cell *)
Lemma interp_cell xs x k : incr xs -> (1 <= k)%nat -> (k < length xs)%nat -> nth (k - 1) xs 0 <= x <= nth k xs 0 ->
  exists g, interp1d xs x = Some g /\ forall ys, g ys =
    (nth k ys 0 - nth (k - 1) ys 0) / (nth k xs 0 - nth (k - 1) xs 0) * (x - nth (k - 1) xs 0) + nth (k - 1) ys 0.
Proof.
  intros I H1 Hk [La Lb]. unfold interp1d.
  assert (B0 : hd 0 xs <= x).
  { replace (hd 0 xs) with (nth 0 xs 0) by (destruct xs; auto). destruct (Nat.eq_dec (k - 1) 0) as [E|E]; [rewrite E in La; auto|].
    pose proof (I O (k - 1)%nat ltac:(lia) ltac:(lia)). lra. }
  assert (B1 : x <= last xs 0).
  { rewrite last_nth. destruct (Nat.eq_dec k (length xs - 1)) as [E|E]; [rewrite <- E; auto|].
    pose proof (I k (length xs - 1)%nat ltac:(lia) ltac:(lia)). lra. }
  apply Rltb_false in B0. apply Rltb_false in B1. rewrite B0, B1. cbn [orb].
  destruct (Rle_lt_dec x (nth (k - 1) xs 0)) as [Eq|Gt].
  - assert (Ex : x = nth (k - 1) xs 0) by lra.
    assert (C : searchsorted_left xs x = (k - 1)%nat).
    { apply left_count; auto; [lia| |].
      - intros i Hi. rewrite Ex. apply I; lia.
      - intros i Hi Hl. rewrite Ex. destruct (Nat.eq_dec i (k - 1)) as [->|N]; [lra|]. left. apply I; lia. }
    rewrite C. eexists; split; [reflexivity|]. intros ys. cbv beta.
    destruct (Nat.eq_dec k 1) as [->|N].
    + replace (Nat.min (length xs - 1) (Nat.max 1 (1 - 1))) with 1%nat by lia. reflexivity.
    + replace (Nat.min (length xs - 1) (Nat.max 1 (k - 1))) with (k - 1)%nat by lia.
      pose proof (I (k - 1 - 1)%nat (k - 1)%nat ltac:(lia) ltac:(lia)) as P.
      pose proof (I (k - 1)%nat k ltac:(lia) ltac:(lia)). rewrite Ex. field. lra.
  - assert (C : searchsorted_left xs x = k).
    { apply left_count; auto; [lia| |].
      - intros i Hi. destruct (Nat.eq_dec i (k - 1)) as [->|N]; [lra|]. pose proof (I i (k - 1)%nat ltac:(lia) ltac:(lia)). lra.
      - intros i Hi Hl. destruct (Nat.eq_dec i k) as [->|N]; [lra|]. pose proof (I k i ltac:(lia) ltac:(lia)). lra. }
    rewrite C. eexists; split; [reflexivity|]. intros ys. cbv beta.
    replace (Nat.min (length xs - 1) (Nat.max 1 k)) with k by lia. reflexivity.
Qed.

(** * Grids *)
Lemma grid_lt time : grid time -> forall i j, (i < j)%nat -> (j <= length time)%nat -> at_time time i < at_time time j.
Proof.
  intros [_ G] i j L Hj. induction j as [|j IH]; [lia|].
  destruct (Nat.eq_dec i j) as [->|N]; [apply G; lia|]. pose proof (G j ltac:(lia)). pose proof (IH ltac:(lia) ltac:(lia)). lra.
Qed.

Lemma grid_le time : grid time -> forall i j, (i <= j)%nat -> (j <= length time)%nat -> at_time time i <= at_time time j.
Proof. intros G i j L Hj. destruct (Nat.eq_dec i j) as [->|N]; [lra|]. left. apply grid_lt; auto. lia. Qed.

Lemma at_zero time : at_time time 0 = 0. Proof. reflexivity. Qed.

Lemma grid_cell time x : grid time -> 0 <= x <= end_time time ->
  exists k, (k < length time)%nat /\ at_time time k <= x <= at_time time (S k).
Proof.
  intros G [L U]. unfold end_time in U.
  assert (P : forall m, (m <= length time)%nat -> x <= at_time time m -> exists k, (k < m)%nat /\ at_time time k <= x <= at_time time (S k) \/ m = O).
  { induction m as [|m IH]; intros Hm Ux; [exists O; auto|]. destruct (Rle_lt_dec (at_time time m) x) as [A|A].
    - exists m. left. split; [lia|lra].
    - destruct (IH ltac:(lia) ltac:(lra)) as [k [[K1 K2]|K]].
      + exists k. left. split; [lia|auto].
      + subst m. rewrite at_zero in A. lra. }
  destruct (P (length time) ltac:(lia) U) as [k [[K1 K2]|K]]; [exists k; auto|].
  destruct G as [N _]. destruct time; [contradiction|discriminate].
Qed.

(** the extended grid of the interpolation *)
Lemma ext_nth time x k : (k <= length time)%nat -> nth k (0 :: time ++ [x]) 0 = at_time time k.
Proof.
  intros Hk. unfold at_time. destruct k as [|k]; auto. cbn [nth]. apply app_nth1. lia.
Qed.

Lemma ext_incr time : grid time -> incr (0 :: time ++ [last time 0 + hd 0 time]).
Proof.
  intros G i j L Hj. cbn [length] in Hj. rewrite app_length in Hj. cbn in Hj.
  assert (F : 0 < hd 0 time). { destruct G as [N G]. destruct time as [|t r]; [contradiction|]. apply (G O). simpl. lia. }
  destruct (Nat.eq_dec j (S (length time))) as [->|N].
  - rewrite ext_nth by lia. cbn [nth]. rewrite app_nth2 by lia. rewrite Nat.sub_diag. cbn [nth].
    assert (E : last time 0 = at_time time (length time)).
    { rewrite last_nth. unfold at_time. destruct time; auto. simpl. rewrite Nat.sub_0_r. auto. }
    rewrite E. pose proof (grid_le time G i (length time) ltac:(lia) ltac:(lia)). lra.
  - rewrite !ext_nth by lia. apply grid_lt; auto. lia.
Qed.

Lemma overlap_inside a b x : a <= x <= b -> 0 <= a -> overlap a b 0 x = x - a.
Proof. intros H Ha. unfold overlap. rewrite (Rmin_right b x) by lra. rewrite (Rmax_left a 0) by lra. rewrite Rmax_right; lra. Qed.
Lemma overlap_after a b x : b <= x -> 0 <= a <= b -> overlap a b 0 x = b - a.
Proof. intros H Ha. unfold overlap. rewrite (Rmin_left b x) by lra. rewrite (Rmax_left a 0) by lra. rewrite Rmax_right; lra. Qed.
Lemma overlap_before a b x : x <= a -> 0 <= a <= b -> overlap a b 0 x = 0.
Proof. intros H Ha. unfold overlap. rewrite (Rmin_right b x) by lra. rewrite (Rmax_left a 0) by lra. rewrite Rmax_left; lra. Qed.
Lemma overlap_diff a b x y : 0 <= a <= b -> 0 <= x <= y -> overlap a b x y = overlap a b 0 y - overlap a b 0 x.
Proof. intros A X. unfold overlap, Rmax, Rmin. repeat destruct Rle_dec; lra. Qed.

(** heat up to a time of the k-th cell *)
Lemma heat_cell time Q x k : grid time -> length Q = length time -> (k < length time)%nat -> at_time time k <= x <= at_time time (S k) ->
  heat_between time Q 0 x = sumn k (fun i => nth i Q 0 * (at_time time (S i) - at_time time i)) + nth k Q 0 * (x - at_time time k).
Proof.
  intros G L Hk B. unfold heat_between.
  replace (length time) with (k + S (length time - S k))%nat by lia. rewrite sumn_split. f_equal.
  - apply sumn_ext. intros i Hi. rewrite overlap_after; auto.
    + pose proof (grid_le time G (S i) k ltac:(lia) ltac:(lia)). lra.
    + pose proof (grid_le time G i (S i) ltac:(lia) ltac:(lia)). pose proof (grid_le time G O i ltac:(lia) ltac:(lia)). rewrite at_zero in *. lra.
  - rewrite sumn_S_l. rewrite Nat.add_0_r. rewrite overlap_inside; auto.
    + rewrite sumn_zero; [ring|]. intros i Hi. rewrite overlap_before; [ring| |].
      * pose proof (grid_le time G (S k) (k + S i) ltac:(lia) ltac:(lia)). lra.
      * pose proof (grid_le time G O (k + S i) ltac:(lia) ltac:(lia)). pose proof (grid_le time G (k + S i) (S (k + S i)) ltac:(lia) ltac:(lia)).
        rewrite at_zero in *. lra.
    + pose proof (grid_le time G O k ltac:(lia) ltac:(lia)). rewrite at_zero in *. lra.
Qed.

Lemma heat_diff time Q a b : grid time -> 0 <= a <= b -> heat_between time Q a b = heat_between time Q 0 b - heat_between time Q 0 a.
Proof.
  intros G A. unfold heat_between. rewrite <- sumn_minus. apply sumn_ext. intros k Hk. rewrite (overlap_diff _ _ a b); auto; [ring|].
  pose proof (grid_le time G O k ltac:(lia) ltac:(lia)). pose proof (grid_le time G k (S k) ltac:(lia) ltac:(lia)). rewrite at_zero in *. lra.
Qed.

(** * Reconstruction *)
Definition acc (time Q : list R) : list R :=
  (0 :: cumsum (mul_lists Q (steps time))) ++ [last (0 :: cumsum (mul_lists Q (steps time))) 0].

Lemma acc_nth time Q k : length Q = length time -> (k <= length time)%nat ->
  nth k (acc time Q) 0 = sumn k (fun i => nth i Q 0 * (at_time time (S i) - at_time time i)).
Proof.
  intros L Hk. pose proof (steps_length time) as LS. pose proof (mul_length Q (steps time) ltac:(lia)) as LM.
  unfold acc. rewrite app_nth1.
  - rewrite cum0_nth by lia. apply sumn_ext. intros i Hi. rewrite mul_nth, steps_nth by lia. auto.
  - simpl. unfold cumsum. rewrite cumsum_length. lia.
Qed.

Lemma interp_heat time Q x : grid time -> length Q = length time -> 0 <= x <= end_time time ->
  exists g, interp1d (0 :: time ++ [last time 0 + hd 0 time]) x = Some g /\ g (acc time Q) = heat_between time Q 0 x.
Proof.
  intros G L Hx. destruct (grid_cell time x G Hx) as [k [Hk B]].
  destruct (interp_cell (0 :: time ++ [last time 0 + hd 0 time]) x (S k)) as [g [E V]].
  - apply ext_incr; auto.
  - lia.
  - simpl. rewrite app_length. simpl. lia.
  - cbn [Nat.sub]. rewrite Nat.sub_0_r. rewrite !ext_nth by lia. auto.
  - exists g. split; auto. rewrite V. cbn [Nat.sub]. rewrite Nat.sub_0_r. rewrite !ext_nth, !acc_nth by lia.
    rewrite (heat_cell time Q x k) by auto. cbn [sumn]. pose proof (grid_lt time G k (S k) ltac:(lia) ltac:(lia)). field. lra.
Qed.

Lemma rev_steps_nth time k : (k < length time)%nat ->
  nth k (rev (steps time)) 0 = at_time time (length time - k) - at_time time (length time - S k).
Proof.
  intros Hk. pose proof (steps_length time). rewrite rev_nth by lia. rewrite steps_nth by lia.
  replace (S (length (steps time) - S k)) with (length time - k)%nat by lia. replace (length (steps time) - S k)%nat with (length time - S k)%nat by lia. auto.
Qed.

Lemma t_rec_nth time k : (k <= length time)%nat -> nth k (0 :: cumsum (rev (steps time))) 0 = reversed_time time k.
Proof.
  intros Hk. rewrite cum0_nth by (rewrite rev_length, steps_length; lia).
  unfold reversed_time, end_time. induction k as [|k IH].
  - simpl. rewrite Nat.sub_0_r. ring.
  - cbn [sumn]. rewrite IH by lia. rewrite rev_steps_nth by lia. ring.
Qed.

Lemma rev_time_range time k : grid time -> (k <= length time)%nat -> 0 <= reversed_time time k <= end_time time.
Proof.
  intros G Hk. unfold reversed_time, end_time. pose proof (grid_le time G (length time - k) (length time) ltac:(lia) ltac:(lia)).
  pose proof (grid_le time G O (length time - k) ltac:(lia) ltac:(lia)). rewrite at_zero in *. lra.
Qed.

Lemma rev_time_lt time k : grid time -> (k < length time)%nat -> reversed_time time k < reversed_time time (S k).
Proof.
  intros G Hk. unfold reversed_time. pose proof (grid_lt time G (length time - S k) (length time - k) ltac:(lia) ltac:(lia)). lra.
Qed.

Lemma combine_nth_lt {A B} (a : list A) (b : list B) k da db : (k < length a)%nat -> (k < length b)%nat ->
  nth k (combine a b) (da, db) = (nth k a da, nth k b db).
Proof.
  revert b k. induction a as [|x a IH]; intros b k Ha Hb; simpl in *; [lia|]. destruct b as [|y b]; simpl in *; [lia|].
  destruct k; auto. apply IH; lia.
Qed.

Theorem reconstruct_mean time Q : grid time -> length Q = length time ->
  reconstruct time Q = Some (map (fun k => heat_between time Q (reversed_time time k) (reversed_time time (S k))
                                           / (reversed_time time (S k) - reversed_time time k)) (seq 0 (length time))).
Proof.
  intros G L. unfold reconstruct. fold (acc time Q). set (n := length time).
  set (tr := 0 :: cumsum (rev (steps time))).
  assert (Ltr : length tr = S n) by (unfold tr, cumsum; simpl; rewrite cumsum_length, rev_length, steps_length; auto).
  assert (E : all_some (map (fun x => match interp1d (0 :: time ++ [last time 0 + hd 0 time]) x with Some g => Some (g (acc time Q)) | None => None end) tr)
              = Some (map (fun x => heat_between time Q 0 x) tr)).
  { apply all_some_map. intros x Hx. apply (In_nth _ _ 0) in Hx. destruct Hx as [k [Hk Hx]]. rewrite Ltr in Hk.
    unfold tr in Hx. rewrite t_rec_nth in Hx by (fold n; lia). subst x.
    destruct (interp_heat time Q (reversed_time time k) G L) as [g [-> V]]; [apply rev_time_range; auto; lia|]. rewrite V. auto. }
  rewrite E. f_equal. set (v := map (fun x => heat_between time Q 0 x) tr).
  assert (Lv : length v = S n) by (unfold v; rewrite map_length; auto).
  assert (Vn : forall k, (k <= n)%nat -> nth k v 0 = heat_between time Q 0 (reversed_time time k)).
  { intros k Hk. unfold v. rewrite (nth_map _ _ _ 0) by lia. unfold tr. rewrite t_rec_nth by (fold n; lia). auto. }
  assert (Ltl : length (tl v) = n) by (destruct v; simpl in *; lia).
  assert (Tn : forall k, nth k (tl v) 0 = nth (S k) v 0) by (intros; destruct v; simpl; auto; destruct k; auto).
  assert (Lc : length (combine v (tl v)) = n) by (rewrite combine_length; lia).
  assert (Ld : length (rev (steps time)) = n) by (rewrite rev_length, steps_length; auto).
  apply (list_eq_nth 0).
  - rewrite !map_length, combine_length, seq_length. lia.
  - intros k Hk. rewrite map_length, combine_length in Hk. rewrite nth_map_seq by lia.
    rewrite (nth_map _ _ _ (0, 0, 0)) by (rewrite combine_length; lia). rewrite combine_nth_lt by lia. rewrite combine_nth_lt by lia.
    cbn [fst snd]. rewrite Tn, !Vn by lia. rewrite rev_steps_nth by (fold n; lia). fold n.
    rewrite (heat_diff time Q (reversed_time time k) (reversed_time time (S k))); auto.
    + f_equal. unfold reversed_time. fold n. ring.
    + pose proof (rev_time_range time k G ltac:(fold n; lia)). pose proof (rev_time_lt time k G ltac:(fold n; lia)). lra.
Qed.

(** * C44 *)
Lemma rev_time_0 time : reversed_time time 0 = 0.
Proof. unfold reversed_time, end_time. rewrite Nat.sub_0_r. ring. Qed.
Lemma rev_time_end time : reversed_time time (length time) = end_time time.
Proof. unfold reversed_time. rewrite Nat.sub_diag, at_zero. ring. Qed.

Lemma heat_total time Q : grid time -> length Q = length time ->
  heat_between time Q 0 (end_time time) = sumn (length time) (fun k => nth k Q 0 * (at_time time (S k) - at_time time k)).
Proof.
  intros G L. unfold heat_between. apply sumn_ext. intros k Hk. rewrite overlap_after; auto.
  - apply (grid_le time G (S k)); lia.
  - pose proof (grid_le time G k (S k) ltac:(lia) ltac:(lia)). pose proof (grid_le time G O k ltac:(lia) ltac:(lia)). rewrite at_zero in *. lra.
Qed.

Lemma rec_value time Q q k : grid time -> length Q = length time -> reconstruct time Q = Some q -> (k < length time)%nat ->
  nth k q 0 = heat_between time Q (reversed_time time k) (reversed_time time (S k)) / (reversed_time time (S k) - reversed_time time k).
Proof. intros G L E Hk. rewrite reconstruct_mean in E by auto. injection E as <-. rewrite nth_map_seq by auto. auto. Qed.

Lemma rec_length time Q q : grid time -> length Q = length time -> reconstruct time Q = Some q -> length q = length time.
Proof. intros G L E. rewrite reconstruct_mean in E by auto. injection E as <-. rewrite map_length, seq_length. auto. Qed.

Lemma rec_conserves time Q q : grid time -> length Q = length time -> reconstruct time Q = Some q ->
  sumn (length time) (fun k => nth k q 0 * (reversed_time time (S k) - reversed_time time k))
  = sumn (length time) (fun k => nth k Q 0 * (at_time time (S k) - at_time time k)).
Proof.
  intros G L E. rewrite <- heat_total by auto.
  rewrite (sumn_ext _ _ (fun k => heat_between time Q 0 (reversed_time time (S k)) - heat_between time Q 0 (reversed_time time k))).
  - rewrite (sumn_telescope (length time) (fun k => heat_between time Q 0 (reversed_time time k))). rewrite rev_time_0, rev_time_end.
    rewrite (heat_diff time Q 0 0) by (auto; lra). ring.
  - intros k Hk. rewrite (rec_value time Q q k) by auto. pose proof (rev_time_lt time k G Hk). pose proof (rev_time_range time k G ltac:(lia)).
    rewrite <- heat_diff by (auto; lra). field. lra.
Qed.

Lemma overlap_nonneg a b c d : 0 <= overlap a b c d.
Proof. apply Rmax_l. Qed.

Lemma overlap_total time a b : grid time -> 0 <= a <= b -> b <= end_time time ->
  sumn (length time) (fun k => overlap (at_time time k) (at_time time (S k)) a b) = b - a.
Proof.
  intros G A B.
  assert (E : forall x, 0 <= x <= end_time time -> sumn (length time) (fun k => overlap (at_time time k) (at_time time (S k)) 0 x) = x).
  { intros x Hx. destruct (grid_cell time x G Hx) as [k [Hk K]].
    pose proof (heat_cell time (repeat 1 (length time)) x k G ltac:(apply repeat_length) Hk K) as HC. unfold heat_between in HC.
    assert (N : forall i, (i < length time)%nat -> nth i (repeat 1 (length time)) 0 = 1).
    { intros i Hi. rewrite (nth_indep _ 0 1) by (rewrite repeat_length; auto). apply nth_repeat. }
    rewrite (sumn_ext _ _ (fun k => overlap (at_time time k) (at_time time (S k)) 0 x)) in HC by (intros; rewrite N by auto; ring).
    rewrite HC. rewrite (sumn_ext k _ (fun i => at_time time (S i) - at_time time i)) by (intros; rewrite N by lia; ring).
    rewrite sumn_telescope, N by auto. rewrite at_zero. ring. }
  rewrite (sumn_ext _ _ (fun k => overlap (at_time time k) (at_time time (S k)) 0 b - overlap (at_time time k) (at_time time (S k)) 0 a)).
  - rewrite sumn_minus, !E by lra. auto.
  - intros k Hk. apply overlap_diff; auto. pose proof (grid_le time G k (S k) ltac:(lia) ltac:(lia)). pose proof (grid_le time G O k ltac:(lia) ltac:(lia)).
    rewrite at_zero in *. lra.
Qed.

Lemma heat_bounds time Q m M a b : grid time -> length Q = length time -> (forall x, In x Q -> m <= x <= M) -> 0 <= a <= b -> b <= end_time time ->
  m * (b - a) <= heat_between time Q a b <= M * (b - a).
Proof.
  intros G L R A B. rewrite <- (overlap_total time a b G A B). unfold heat_between. rewrite <- !sumn_scal.
  split; apply sumn_le; intros k Hk; apply Rmult_le_compat_r; try apply overlap_nonneg; apply R, nth_In; lia.
Qed.

Lemma rec_range time Q q m M : grid time -> length Q = length time -> (forall x, In x Q -> m <= x <= M) -> reconstruct time Q = Some q ->
  forall x, In x q -> m <= x <= M.
Proof.
  intros G L R E x Hx. apply (In_nth _ _ 0) in Hx. destruct Hx as [k [Hk <-]]. rewrite (rec_length time Q q) in Hk by auto.
  rewrite (rec_value time Q q k) by auto. pose proof (rev_time_lt time k G Hk) as P. pose proof (rev_time_range time k G ltac:(lia)).
  pose proof (rev_time_range time (S k) G ltac:(lia)).
  destruct (heat_bounds time Q m M (reversed_time time k) (reversed_time time (S k)) G L R ltac:(lra) ltac:(lra)) as [B1 B2].
  set (d := reversed_time time (S k) - reversed_time time k) in *. assert (D : 0 < d) by (unfold d; lra).
  split; apply (Rmult_le_reg_r d); auto; unfold Rdiv; rewrite Rmult_assoc, Rinv_l by lra; lra.
Qed.

Lemma rec_constant time c : grid time -> reconstruct time (repeat c (length time)) = Some (repeat c (length time)).
Proof.
  intros G. rewrite reconstruct_mean by (auto; apply repeat_length). f_equal. apply (list_eq_nth 0).
  - rewrite map_length, seq_length, repeat_length. auto.
  - intros k Hk. rewrite map_length, seq_length in Hk. rewrite nth_map_seq by auto.
    rewrite (nth_indep _ 0 c), nth_repeat by (rewrite repeat_length; auto).
    pose proof (rev_time_lt time k G Hk) as P. pose proof (rev_time_range time k G ltac:(lia)). pose proof (rev_time_range time (S k) G ltac:(lia)).
    destruct (heat_bounds time (repeat c (length time)) c c (reversed_time time k) (reversed_time time (S k)) G ltac:(apply repeat_length)) as [B1 B2]; try lra.
    { intros x Hx. apply repeat_spec in Hx. lra. }
    replace (heat_between time (repeat c (length time)) (reversed_time time k) (reversed_time time (S k))) with (c * (reversed_time time (S k) - reversed_time time k)) by lra.
    field. lra.
Qed.

Lemma equal_at time d k : equal_steps time d -> (k <= length time)%nat -> at_time time k = INR k * d.
Proof.
  intros E. induction k as [|k IH]; intros Hk; [rewrite at_zero; simpl; ring|].
  pose proof (E k ltac:(lia)). rewrite S_INR. rewrite IH in * by lia. lra.
Qed.

Lemma equal_rev time d k : equal_steps time d -> (k <= length time)%nat -> reversed_time time k = at_time time k.
Proof.
  intros E Hk. unfold reversed_time, end_time. rewrite !(equal_at time d) by (auto; lia). rewrite minus_INR by auto. ring.
Qed.

Lemma rec_equal time d Q : grid time -> equal_steps time d -> length Q = length time -> reconstruct time Q = Some Q.
Proof.
  intros G Eq L. rewrite reconstruct_mean by auto. f_equal. apply (list_eq_nth 0).
  - rewrite map_length, seq_length. auto.
  - intros k Hk. rewrite map_length, seq_length in Hk. rewrite nth_map_seq by auto. rewrite !(equal_rev time d) by (auto; lia).
    pose proof (grid_lt time G k (S k) ltac:(lia) ltac:(lia)) as P. pose proof (grid_le time G O k ltac:(lia) ltac:(lia)). rewrite at_zero in *.
    rewrite heat_diff by (auto; lra). rewrite (heat_cell time Q (at_time time (S k)) k), (heat_cell time Q (at_time time k) k) by (auto; lra). field. lra.
Qed.

(** * C45 *)
Lemma steps_increment Q k : (k < length Q)%nat -> nth k (steps Q) 0 = nth k Q 0 - (match k with O => 0 | S j => nth j Q 0 end).
Proof. intros Hk. rewrite steps_nth by auto. unfold at_time. destruct k; cbn [nth]; auto. Qed.

Lemma superposition_time n time (resp : nat -> nat -> R -> R) Q i : (0 < n)%nat -> length Q = n -> (forall q, In q Q -> length q = length time) ->
  temporal_superposition n (fun i j k => resp i j (at_time time (S k))) Q i
  = sumn n (fun j => sumn (length time) (fun k =>
      (nth k (nth j Q []) 0 - match k with O => 0 | S l => nth l (nth j Q []) 0 end)
      * resp i j (end_time time - reversed_time time k))).
Proof.
  intros Hn L R. unfold temporal_superposition.
  assert (Lh : length (hd [] Q) = length time) by (destruct Q as [|q Q]; simpl in L; [lia|]; apply R; left; auto).
  rewrite Lh. apply sumn_ext. intros j Hj.
  assert (Lj : length (nth j Q []) = length time) by (apply R, nth_In; lia).
  rewrite <- (sumn_rev (length time)). apply sumn_ext. intros k Hk.
  rewrite rev_nth by (rewrite steps_length; lia). rewrite steps_length, Lj.
  replace (length time - S (length time - 1 - k))%nat with k by lia. rewrite steps_increment by lia.
  unfold reversed_time. replace (S (length time - 1 - k)) with (length time - k)%nat by lia.
  replace (end_time time - (end_time time - at_time time (length time - k))) with (at_time time (length time - k)) by ring. ring.
Qed.
