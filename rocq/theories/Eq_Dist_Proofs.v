From Verif Require Import Base LinAlg FLS_Model FLS_Sol_Proofs.
From Verif Require Import Bore_Model Bore_Spec Bore_Proofs Solve_Model Detailed_Model Detailed_Spec Sim_Model Eq_Model Eq_Spec.
From Coq Require Import Permutation.

Local Notation no_eb := (EBore 0 0 0 [] [] 0 []).

(** * the closest distance *)
Lemma searchsorted_le l x : (searchsorted_left l x <= length l)%nat.
Proof. induction l as [|a l IH]; cbn; [lia|]. destruct (Rltb a x); lia. Qed.
Lemma searchsorted_below l x k : (k < searchsorted_left l x)%nat -> nth k l 0 < x.
Proof.
  revert k. induction l as [|a l IH]; intros k; cbn [searchsorted_left]; [lia|]. destruct (Rltb a x) eqn:E; [|lia]. apply Rltb_true in E.
  destruct k as [|k]; intros H; cbn [nth]; auto. apply IH. lia.
Qed.
Lemma searchsorted_at l x : (searchsorted_left l x < length l)%nat -> x <= nth (searchsorted_left l x) l 0.
Proof.
  induction l as [|a l IH]; cbn [searchsorted_left length]; [lia|]. destruct (Rltb a x) eqn:E; intros H; cbn [nth]; [apply IH; lia|apply Rltb_false in E; lra].
Qed.

Definition increasing (l : list R) : Prop := forall i j, (i <= j)%nat -> (j < length l)%nat -> nth i l 0 <= nth j l 0.

Lemma closest_spec dis x : dis <> [] -> increasing dis ->
  (closest dis x < length dis)%nat /\ forall k, (k < length dis)%nat -> Rabs (x - nth (closest dis x) dis 0) <= Rabs (x - nth k dis 0).
Proof.
  intros N I. assert (L : (0 < length dis)%nat) by (destruct dis; [congruence|cbn; lia]).
  pose proof (searchsorted_le dis x) as Hs. pose proof (searchsorted_below dis x) as Hb. pose proof (searchsorted_at dis x) as Ha.
  unfold closest. set (s := searchsorted_left dis x) in *.
  assert (Lo : forall k, (k < s)%nat -> Rabs (x - nth k dis 0) = x - nth k dis 0) by (intros k Hk; apply Rabs_right; pose proof (Hb k Hk); lra).
  assert (Hi : forall k, (s <= k)%nat -> (k < length dis)%nat -> Rabs (x - nth k dis 0) = nth k dis 0 - x).
  { intros k Hk Hk2. rewrite Rabs_minus_sym. apply Rabs_right. pose proof (Ha ltac:(lia)). pose proof (I s k Hk Hk2). lra. }
  destruct (Nat.eqb_spec s (length dis)) as [E|E]; cbn [orb].
  - split; [lia|]. intros k Hk. rewrite !Lo by lia. pose proof (I k (s - 1)%nat ltac:(lia) ltac:(lia)). lra.
  - rewrite Nat.min_l by lia. destruct (Rltb (Rabs (x - nth (s - 1) dis 0)) (Rabs (x - nth s dis 0))) eqn:Q.
    + apply Rltb_true in Q. assert (S0 : (0 < s)%nat). { destruct s; [cbn in Q; lra|lia]. }
      split; [lia|]. intros k Hk. destruct (Nat.lt_ge_cases k s) as [A|A].
      * rewrite !Lo by lia. pose proof (I k (s - 1)%nat ltac:(lia) ltac:(lia)). lra.
      * apply Rle_trans with (Rabs (x - nth s dis 0)); [lra|]. rewrite !Hi by lia. pose proof (I s k A Hk). lra.
    + apply Rltb_false in Q. split; [lia|]. intros k Hk. destruct (Nat.lt_ge_cases k s) as [A|A].
      * apply Rle_trans with (Rabs (x - nth (s - 1) dis 0)); [lra|]. rewrite !Lo by lia. pose proof (I k (s - 1)%nat ltac:(lia) ltac:(lia)). lra.
      * rewrite !Hi by lia. pose proof (I s k A Hk). lra.
Qed.

(** * weights *)
Section Weights.
  Variable dis : list R.
  Definition add_one (w : list nat) (x : R) : list nat := upd w (closest dis x) (S (nth (closest dis x) w O)).

  Lemma add_all l : forall w, (forall x, In x l -> (closest dis x < length w)%nat) -> length (fold_left add_one l w) = length w /\
    forall k, nth k (fold_left add_one l w) O = (nth k w O + count_occ Nat.eq_dec (map (closest dis) l) k)%nat.
  Proof.
    induction l as [|x l IH]; intros w H; cbn [fold_left]; [split; auto; intros; cbn; lia|].
    assert (Lu : length (add_one w x) = length w) by (unfold add_one; apply upd_length).
    destruct (IH (add_one w x)) as [A B]. { intros y Hy. rewrite Lu. apply H. right; auto. }
    split; [lia|]. intros k. rewrite B. cbn [map count_occ]. unfold add_one. destruct (Nat.eq_dec (closest dis x) k) as [<-|N].
    - rewrite nth_upd_eq by (apply H; left; auto). lia.
    - rewrite nth_upd_neq by auto. lia.
  Qed.

  Lemma weights_some l : dis <> [] \/ l = [] -> weights dis l = Some (fold_left add_one l (repeat O (length dis))).
  Proof. intros H. unfold weights, add_one. destruct dis; [destruct l; [reflexivity|destruct H; congruence]|reflexivity]. Qed.

  Lemma nth_repeat0 m k : nth k (repeat O m) O = O.
  Proof. revert k. induction m; intros [|k]; cbn; auto. Qed.

  Lemma weights_count l : dis <> [] -> increasing dis -> exists w, weights dis l = Some w /\ counts dis l w.
  Proof.
    intros N I. rewrite weights_some by auto. eexists. split; [reflexivity|]. exists (map (closest dis) l). split; [apply map_length|].
    destruct (add_all l (repeat O (length dis))) as [A B]. { intros x _. rewrite repeat_length. apply closest_spec; auto. }
    split; [|split; [rewrite A; apply repeat_length|]].
    - intros q Hq. rewrite (nth_map _ _ _ 0) by auto. apply closest_spec; auto.
    - intros k Hk. rewrite B, nth_repeat0. auto.
  Qed.
End Weights.

Lemma count_total a n : (forall x, In x a -> (x < n)%nat) -> list_sum (map (count_occ Nat.eq_dec a) (seq 0 n)) = length a.
Proof.
  induction a as [|x a IH]; intros H.
  - cbn [count_occ length]. induction (seq 0 n) as [|y l IHl]; auto.
  - cbn [length]. rewrite <- IH by (intros; apply H; right; auto). specialize (H x (or_introl eq_refl)). clear IH.
    assert (Q : forall m, list_sum (map (count_occ Nat.eq_dec (x :: a)) (seq 0 m)) = ((if Nat.ltb x m then 1 else 0) + list_sum (map (count_occ Nat.eq_dec a) (seq 0 m)))%nat).
    { induction m as [|m IHm]; [reflexivity|]. rewrite !seq_S, !map_app, !list_sum_app, IHm. cbn [map plus]. cbn [list_sum fold_right count_occ].
      destruct (Nat.eq_dec x m) as [->|N].
      - rewrite Nat.ltb_irrefl, (proj2 (Nat.ltb_lt m (S m))) by lia. lia.
      - destruct (Nat.ltb_spec x m), (Nat.ltb_spec x (S m)); lia. }
    rewrite Q, (proj2 (Nat.ltb_lt x n) H). lia.
Qed.

Lemma counts_total dis l w : counts dis l w -> list_sum w = length l.
Proof.
  intros [a [La [Q [Lw W]]]]. rewrite <- La. rewrite <- (count_total a (length dis)).
  - f_equal. apply (list_eq_nth O); [rewrite map_length, seq_length; auto|]. intros k Hk. rewrite nth_map_seq by lia. apply W. lia.
  - intros x I. destruct (In_nth a x O I) as [q [Hq <-]]. apply Q. lia.
Qed.

(** sum over the distances with weights *)
Lemma counts_sum dis l w (f : R -> R) : counts dis l w ->
  exists a, length a = length l /\ (forall q, (q < length l)%nat -> (nth q a O < length dis)%nat /\
     forall k, (k < length dis)%nat -> Rabs (nth q l 0 - nth (nth q a O) dis 0) <= Rabs (nth q l 0 - nth k dis 0)) /\
  Rsum (map (fun c => snd c * f (fst c)) (combine dis (map INR w))) = Rsum (map (fun q => f (nth q dis 0)) a).
Proof.
  intros [a [La [Q [Lw W]]]]. exists a. split; auto. split; auto.
  assert (B : forall x, In x a -> (x < length dis)%nat) by (intros x I; destruct (In_nth a x O I) as [q [Hq <-]]; apply Q; lia).
  transitivity (Rsum (map (fun k => INR (count_occ Nat.eq_dec a k) * f (nth k dis 0)) (seq 0 (length dis)))).
  - f_equal. apply (list_eq_nth 0); [rewrite !map_length, combine_length, map_length, seq_length; lia|]. intros k Hk. rewrite map_length, combine_length, map_length in Hk.
    rewrite (nth_map _ _ _ (0, INR O)) by (rewrite combine_length, map_length; lia). rewrite combine_nth by (rewrite map_length; lia). rewrite map_nth. cbn [fst snd].
    rewrite nth_map_seq by lia. rewrite W by lia. auto.
  - clear - B. induction a as [|x a IH].
    + cbn. induction (seq 0 (length dis)) as [|y l IH]; cbn [map Rsum]; auto. rewrite IH. ring.
    + cbn [map Rsum]. rewrite <- IH by (intros; apply B; right; auto). specialize (B x (or_introl eq_refl)). clear IH.
      assert (G : forall s m, (s <= x)%nat -> Rsum (map (fun k => INR (count_occ Nat.eq_dec (x :: a) k) * f (nth k dis 0)) (seq s m))
        = (if Nat.ltb x (s + m) then f (nth x dis 0) else 0) + Rsum (map (fun k => INR (count_occ Nat.eq_dec a k) * f (nth k dis 0)) (seq s m))).
      { assert (G0 : forall m s, (x < s)%nat -> Rsum (map (fun k => INR (count_occ Nat.eq_dec (x :: a) k) * f (nth k dis 0)) (seq s m)) = Rsum (map (fun k => INR (count_occ Nat.eq_dec a k) * f (nth k dis 0)) (seq s m))).
        { induction m as [|m IHm]; intros s Hs; [reflexivity|]. cbn [seq map Rsum]. rewrite IHm by lia. cbn [count_occ]. destruct (Nat.eq_dec x s); [lia|auto]. }
        intros s m. revert s. induction m as [|m IHm]; intros s Hs.
        - cbn [seq map Rsum]. destruct (Nat.ltb_spec x (s + 0)); [lia|ring].
        - cbn [seq map Rsum]. destruct (Nat.eq_dec s x) as [->|N].
          + rewrite G0 by lia. cbn [count_occ]. destruct (Nat.eq_dec x x); [|congruence]. rewrite S_INR. destruct (Nat.ltb_spec x (x + S m)); [ring|lia].
          + rewrite IHm by lia. cbn [count_occ]. destruct (Nat.eq_dec x s); [congruence|]. replace (S s + m)%nat with (s + S m)%nat by lia. ring. }
      rewrite G by lia. destruct (Nat.ltb_spec x (0 + length dis)); [ring|lia].
Qed.
