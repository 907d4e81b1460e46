(** Proofs about the segments and the response matrix. *)
From Verif Require Import Base LinAlg FLS_Model.
From Verif Require Import Bore_Model Net_Model Solve_Model Detailed_Model Detailed_Spec.

(** ** Lists *)
Lemma first_S ns b : (b < length ns)%nat -> first ns (S b) = (first ns b + nth b ns O)%nat.
Proof.
  unfold first. revert b. induction ns as [|n ns IH]; intros b Hb; [simpl in Hb; lia|]. destruct b as [|b].
  - cbn. lia.
  - cbn [firstn nth list_sum fold_right] in *. change (fold_right Nat.add 0%nat) with list_sum in *. rewrite (IH b) by (simpl in Hb; lia). lia.
Qed.

Lemma first_mono ns a b : (a <= b)%nat -> (b <= length ns)%nat -> (first ns a <= first ns b)%nat.
Proof. intros L; induction L; intros Hb; auto. rewrite first_S by lia. lia. Qed.

Lemma first_le ns b : (b < length ns)%nat -> (first ns b + nth b ns O <= list_sum ns)%nat.
Proof.
  intros Hb. rewrite <- first_S by auto. replace (list_sum ns) with (first ns (length ns)) by (unfold first; rewrite firstn_all; auto).
  apply first_mono; lia.
Qed.

Lemma owner_exists ns k : (k < list_sum ns)%nat -> exists b, (b < length ns)%nat /\ owns ns b k.
Proof.
  revert k. induction ns as [|n ns IH]; intros k Hk; [simpl in Hk; lia|].
  destruct (Nat.lt_ge_cases k n) as [L|L].
  - exists O. split; [simpl; lia|]. unfold owns, first. cbn. lia.
  - destruct (IH (k - n)%nat) as [b [Hb O]]. { cbn in Hk. change (fold_right Nat.add 0%nat ns) with (list_sum ns) in Hk. lia. }
    exists (S b). split; [simpl; lia|]. unfold owns, first in *. cbn [firstn nth]. cbn. change (fold_right Nat.add 0%nat) with list_sum. lia.
Qed.

Lemma owner_unique ns a b k : (a < length ns)%nat -> (b < length ns)%nat -> owns ns a k -> owns ns b k -> a = b.
Proof.
  intros Ha Hb [O1 O2] [P1 P2]. destruct (Nat.lt_trichotomy a b) as [L|[L|L]]; auto; exfalso.
  - pose proof (first_mono ns (S a) b ltac:(lia) ltac:(lia)). rewrite first_S in * by auto. lia.
  - pose proof (first_mono ns (S b) a ltac:(lia) ltac:(lia)). rewrite first_S in * by auto. lia.
Qed.

Lemma segments_length b n r : length (segments b n (Some r)) = length r.
Proof.
  unfold segments, segment_edges, default_ratios. rewrite map_length, combine_length. cbn [map].
  assert (L : forall (x : R) l, length (removelast (x :: l)) = length l).
  { intros x l. revert x. induction l as [|y l IH]; intros x; auto. change (removelast (x :: y :: l)) with (x :: removelast (y :: l)). cbn [length]. rewrite IH. auto. }
  rewrite L, map_length. assert (C : forall l s, length (cumsum_from s l) = length l) by (induction l as [|y l IH]; intros s; simpl; auto).
  unfold cumsum. rewrite C. lia.
Qed.

Lemma segments_all bs ns rs : segmented bs ns rs ->
  length (borehole_segments bs ns rs) = list_sum ns /\
  forall b s, (b < length bs)%nat -> (s < nth b ns O)%nat ->
    nth (first ns b + s) (borehole_segments bs ns rs) no_bore = nth s (segments (nth b bs no_bore) (nth b ns O) (Some (nth b rs []))) no_bore.
Proof.
  revert ns rs. induction bs as [|b0 bs IH]; intros ns rs [L1 [L2 W]].
  - destruct ns; [|discriminate]. split; auto. intros b s Hb. simpl in Hb. lia.
  - destruct ns as [|n ns]; [discriminate|]. destruct rs as [|r rs]; [discriminate|]. cbn [borehole_segments].
    destruct (IH ns rs) as [IL IN].
    { split; [simpl in L1; lia|]. split; [simpl in L2; lia|]. intros b Hb. apply (W (S b)). simpl. lia. }
    pose proof (W O ltac:(simpl; lia)) as W0. cbn [nth] in W0.
    split.
    + rewrite app_length, segments_length, IL, W0. reflexivity.
    + intros [|b] s Hb Hs.
      * cbn [nth] in *. replace (first (n :: ns) 0 + s)%nat with s by reflexivity. rewrite app_nth1; auto. rewrite segments_length. lia.
      * cbn [nth] in *. replace (first (n :: ns) (S b) + s)%nat with (n + (first ns b + s))%nat by (change (first (n :: ns) (S b)) with (n + first ns b)%nat; lia).
        rewrite app_nth2; rewrite segments_length, W0; [|lia]. replace (n + (first ns b + s) - n)%nat with (first ns b + s)%nat by lia.
        apply IN; auto. simpl in Hb. lia.
Qed.

(** ** The index lists *)
Lemma combine_app {A B} (a a' : list A) (b b' : list B) : length a = length b -> combine (a ++ a') (b ++ b') = combine a b ++ combine a' b'.
Proof. revert b. induction a as [|x a IH]; intros [|y b] L; simpl in *; try lia; auto. rewrite IH by lia. auto. Qed.

Lemma combine_repeat {A B} (x : A) (l : list B) : combine (repeat x (length l)) l = map (fun y => (x, y)) l.
Proof. induction l; simpl; auto. rewrite IHl. auto. Qed.

Lemma repeat_tile {A} (l1 l2 : list A) : combine (flat_map (fun k => repeat k (length l2)) l1) (concat (repeat l2 (length l1))) = list_prod l1 l2.
Proof.
  induction l1 as [|x l1 IH]; auto. cbn [flat_map length repeat concat list_prod]. rewrite combine_app by (rewrite repeat_length; auto).
  rewrite combine_repeat, IH. auto.
Qed.

Lemma repeat_tile_length {A} (l1 l2 : list A) : length (flat_map (fun k => repeat k (length l2)) l1) = length (concat (repeat l2 (length l1))).
Proof. induction l1 as [|x l1 IH]; auto. cbn [flat_map length repeat concat]. rewrite !app_length, repeat_length, IH. auto. Qed.

Lemma combine_flat {A B C} (f : A -> list B) (g : A -> list C) l : (forall x, In x l -> length (f x) = length (g x)) ->
  combine (flat_map f l) (flat_map g l) = flat_map (fun x => combine (f x) (g x)) l.
Proof.
  induction l as [|x l IH]; intros W; auto. cbn [flat_map]. rewrite combine_app by (apply W; left; auto). rewrite IH; auto. intros; apply W; right; auto.
Qed.

Lemma in_zip3 nB ns c : length ns = nB -> In c (combine (combine (i0_segments nB ns) (i1_segments nB ns)) ns) <->
  exists b, (b < nB)%nat /\ c = ((first ns b, first ns (S b)), nth b ns O).
Proof.
  intros L. assert (LL : length (combine (combine (i0_segments nB ns) (i1_segments nB ns)) ns) = nB).
  { unfold i0_segments, i1_segments. rewrite !combine_length, !map_length, !seq_length. lia. }
  assert (N : forall b, (b < nB)%nat -> nth b (combine (combine (i0_segments nB ns) (i1_segments nB ns)) ns) ((O, O), O) = ((first ns b, first ns (S b)), nth b ns O)).
  { intros b Hb. assert (L2 : length (i0_segments nB ns) = length (i1_segments nB ns)) by (unfold i0_segments, i1_segments; rewrite !map_length; auto).
    rewrite combine_nth by (rewrite combine_length; unfold i0_segments, i1_segments; rewrite !map_length, !seq_length; lia).
    rewrite combine_nth by auto. unfold i0_segments, i1_segments. rewrite !nth_map_seq by auto. reflexivity. }
  split.
  - intros I. apply (In_nth _ _ ((O, O), O)) in I. destruct I as [b [Hb E]]. rewrite LL in Hb. exists b. split; auto. rewrite <- E. apply N. auto.
  - intros [b [Hb ->]]. rewrite <- N by auto. apply nth_In. lia.
Qed.

Lemma in_loop nB ns c : In c (combine (seq 0 nB) (combine (i0_segments nB ns) (i1_segments nB ns))) <->
  exists b, (b < nB)%nat /\ c = (b, (first ns b, first ns (S b))).
Proof.
  assert (LL : length (combine (seq 0 nB) (combine (i0_segments nB ns) (i1_segments nB ns))) = nB).
  { unfold i0_segments, i1_segments. rewrite !combine_length, !map_length, !seq_length. lia. }
  assert (N : forall b, (b < nB)%nat -> nth b (combine (seq 0 nB) (combine (i0_segments nB ns) (i1_segments nB ns))) (O, (O, O)) = (b, (first ns b, first ns (S b)))).
  { intros b Hb. rewrite combine_nth by (rewrite combine_length; unfold i0_segments, i1_segments; rewrite !map_length, !seq_length; lia).
    rewrite combine_nth by (unfold i0_segments, i1_segments; rewrite !map_length; auto). unfold i0_segments, i1_segments.
    rewrite !nth_map_seq by auto. rewrite seq_nth by auto. reflexivity. }
  split.
  - intros I. apply (In_nth _ _ (O, (O, O))) in I. destruct I as [b [Hb E]]. rewrite LL in Hb. exists b. split; auto. rewrite <- E. apply N. auto.
  - intros [b [Hb ->]]. rewrite <- N by auto. apply nth_In. lia.
Qed.

(** ** Writes *)
Lemma fold_write (v : nat -> nat -> R) l M i j :
  fold_left (fun M c => write M (snd c) (fst c) (v (fst c) (snd c))) l M i j = v j i /\ In (j, i) l \/
  fold_left (fun M c => write M (snd c) (fst c) (v (fst c) (snd c))) l M i j = M i j /\ ~ In (j, i) l.
Proof.
  revert M. induction l as [|[a b] l IH]; intros M; [right; split; auto|]. cbn [fold_left fst snd].
  destruct (IH (write M b a (v a b))) as [[E I]|[E I]]; [left; split; auto; right; auto|].
  rewrite E. unfold write. destruct (Nat.eqb_spec i b) as [->|N1]; [destruct (Nat.eqb_spec j a) as [->|N2]|]; cbn [andb].
  - left. split; auto. left; auto.
  - right. split; auto. intros [Q|Q]; [congruence|auto].
  - right. split; auto. intros [Q|Q]; [congruence|auto].
Qed.

Lemma fold_cell {A} (f : Mx -> A -> Mx) l M i j a v : In a l -> (forall M, f M a i j = v) ->
  (forall x M, In x l -> x = a \/ f M x i j = M i j) -> fold_left f l M i j = v.
Proof.
  intros I S K. assert (Q : forall l', (forall x, In x l' -> In x l) -> forall M, (In a l' -> fold_left f l' M i j = v) /\ (M i j = v -> fold_left f l' M i j = v)).
  { induction l' as [|x l' IH]; intros Sub M0; cbn [fold_left]; [split; auto; intros []|].
    destruct (IH (fun y Hy => Sub y (or_intror Hy)) (f M0 x)) as [P1 P2]. split.
    - intros [->|Ia]; [apply P2, S|apply P1; auto].
    - intros E. apply P2. destruct (K x M0 (Sub x (or_introl eq_refl))) as [->|E2]; auto. rewrite E2. auto. }
  exact (proj1 (Q l (fun x Hx => Hx) M) I).
Qed.

Lemma fold_keep {A} (f : Mx -> A -> Mx) l M i j : (forall x M, In x l -> f M x i j = M i j) -> fold_left f l M i j = M i j.
Proof.
  revert M. induction l as [|x l IH]; intros M K; auto. cbn [fold_left]. rewrite IH by (intros; apply K; right; auto). apply K. left; auto.
Qed.

Section Matrix.
  Variable ker : bool -> bore -> bore -> R.
  Variables (bs : list bore) (ns : list nat) (rs : list (list R)).
  Hypothesis W : segmented bs ns rs.
  Local Notation seg k := (nth k (bore_segments bs ns rs) no_bore).

  Lemma pairs_in i j : In (i, j) (combine (i_segment bs ns) (j_segment bs ns)) <-> exists b, (b < length bs)%nat /\ owns ns b i /\ owns ns b j.
  Proof.
    destruct W as [L1 [L2 L3]]. unfold i_segment, j_segment.
    set (zip := combine (combine (i0_segments (length bs) ns) (i1_segments (length bs) ns)) ns).
    assert (Z : forall c, In c zip -> exists b, (b < length bs)%nat /\ c = ((first ns b, first ns (S b)), nth b ns O)) by (intros c Hc; apply (in_zip3 (length bs)); auto).
    assert (Q : forall c, In c zip -> combine (flat_map (fun k => repeat k (snd c)) (seq (fst (fst c)) (snd (fst c) - fst (fst c)))) (concat (repeat (seq (fst (fst c)) (snd (fst c) - fst (fst c))) (snd c)))
                       = list_prod (seq (fst (fst c)) (snd c)) (seq (fst (fst c)) (snd c))
                     /\ length (flat_map (fun k => repeat k (snd c)) (seq (fst (fst c)) (snd (fst c) - fst (fst c)))) = length (concat (repeat (seq (fst (fst c)) (snd (fst c) - fst (fst c))) (snd c)))).
    { intros c Hc. destruct (Z c Hc) as [b [Hb ->]]. cbn [fst snd]. rewrite first_S by lia.
      replace (first ns b + nth b ns O - first ns b)%nat with (nth b ns O) by lia.
      pose proof (repeat_tile (seq (first ns b) (nth b ns O)) (seq (first ns b) (nth b ns O))) as R1.
      pose proof (repeat_tile_length (seq (first ns b) (nth b ns O)) (seq (first ns b) (nth b ns O))) as R2. rewrite !seq_length in R1, R2. auto. }
    rewrite combine_flat by (intros c Hc; apply Q; auto). rewrite in_flat_map. split.
    - intros [c [Hc I]]. rewrite (proj1 (Q c Hc)) in I. destruct (Z c Hc) as [b [Hb ->]]. cbn [fst snd] in I. apply in_prod_iff in I. rewrite !in_seq in I.
      exists b. unfold owns. tauto.
    - intros [b [Hb [O1 O2]]]. exists ((first ns b, first ns (S b)), nth b ns O).
      assert (Hc : In ((first ns b, first ns (S b)), nth b ns O) zip) by (apply (in_zip3 (length bs)); auto; exists b; auto).
      split; auto. rewrite (proj1 (Q _ Hc)). cbn [fst snd]. apply in_prod_iff. rewrite !in_seq. unfold owns in *. lia.
  Qed.

  (** segments of the same borehole *)
  Lemma matrix_self b r c : (b < length bs)%nat -> owns ns b r -> owns ns b c ->
    detailed_matrix ker bs ns rs r c = ker (forallb vertical bs) (seg c) (seg r).
  Proof.
    intros Hb Or Oc. unfold detailed_matrix. rewrite fold_keep.
    - unfold self_matrix. destruct (fold_write (fun e r => ker (forallb vertical bs) (seg e) (seg r)) (combine (i_segment bs ns) (j_segment bs ns)) (fun _ _ => 0) r c) as [[E _]|[_ N]]; auto.
      exfalso. apply N. apply pairs_in. exists b. auto.
    - intros x M Hx. apply in_loop in Hx. destruct Hx as [a [Ha ->]]. unfold block_step. destruct (Nat.ltb (a + 1) (length bs)); auto.
      destruct W as [L1 _]. rewrite first_S by lia. unfold owns in *.
      match goal with |- (if ?x then _ else _) = _ => destruct x eqn:E1 end.
      { rewrite !andb_true_iff, !Nat.leb_le, !Nat.ltb_lt in E1. exfalso. assert (a = b) by (apply (owner_unique ns a b r); unfold owns; lia). subst. lia. }
      match goal with |- (if ?x then _ else _) = _ => destruct x eqn:E2 end; auto.
      rewrite !andb_true_iff, !Nat.leb_le, !Nat.ltb_lt in E2. exfalso. assert (a = b) by (apply (owner_unique ns a b c); unfold owns; lia). subst. lia.
  Qed.

  (** whether the pair of boreholes a < b is evaluated as vertical *)
  Definition block_vertical (a : nat) : bool :=
    forallb vertical (skipn (first ns (S a)) (bore_segments bs ns rs)) && forallb vertical (slice (first ns a) (first ns (S a)) (bore_segments bs ns rs)).

  Lemma matrix_upper a b r c : (a < b)%nat -> (b < length bs)%nat -> owns ns a r -> owns ns b c ->
    detailed_matrix ker bs ns rs r c = ker (block_vertical a) (seg c) (seg r) /\
    detailed_matrix ker bs ns rs c r = ker (block_vertical a) (seg c) (seg r) * (bH (seg r) / bH (seg c)).
  Proof.
    intros Hab Hb Or Oc. destruct W as [L1 [L2 L3]]. pose proof (segments_all bs ns rs W) as [LS _].
    pose proof (first_S ns a ltac:(lia)) as FS. pose proof (first_mono ns (S a) b ltac:(lia) ltac:(lia)) as FM. pose proof (first_le ns b ltac:(lia)) as FL.
    assert (Hn : (c < n_sources bs ns rs)%nat) by (unfold n_sources, bore_segments; rewrite LS; unfold owns in *; lia).
    unfold owns in Or, Oc. unfold detailed_matrix. split.
    - apply (fold_cell _ _ _ _ _ (a, (first ns a, first ns (S a)))).
      + apply in_loop. exists a. split; auto. lia.
      + intros M. unfold block_step. destruct (Nat.ltb_spec (a + 1) (length bs)); [|lia].
        destruct (Nat.leb_spec (first ns a) r); [|lia]. destruct (Nat.ltb_spec r (first ns (S a))); [|lia].
        destruct (Nat.leb_spec (first ns (S a)) c); [|lia]. destruct (Nat.ltb_spec c (n_sources bs ns rs)); [|lia]. cbn [andb]. reflexivity.
      + intros x M Hx. apply in_loop in Hx. destruct Hx as [d [Hd ->]]. destruct (Nat.eq_dec d a) as [->|Nd]; auto. right.
        unfold block_step. destruct (Nat.ltb (d + 1) (length bs)); auto. rewrite (first_S ns d) by lia.
        destruct (Nat.leb_spec (first ns d) r) as [A1|A1]; destruct (Nat.ltb_spec r (first ns d + nth d ns O)) as [A2|A2]; cbn [andb].
        * exfalso. apply Nd. apply (owner_unique ns d a r); unfold owns; lia.
        * destruct (Nat.leb_spec (first ns d + nth d ns O) r); [|lia]. cbn [andb]. destruct (Nat.ltb r (n_sources bs ns rs)); auto. cbn [andb].
          destruct (Nat.leb_spec (first ns d) c) as [B1|B1]; destruct (Nat.ltb_spec c (first ns d + nth d ns O)) as [B2|B2]; cbn [andb]; auto.
          exfalso. assert (d = b) by (apply (owner_unique ns d b c); unfold owns; lia). subst d. lia.
        * destruct (Nat.leb_spec (first ns d + nth d ns O) r); auto. lia.
        * lia.
    - apply (fold_cell _ _ _ _ _ (a, (first ns a, first ns (S a)))).
      + apply in_loop. exists a. split; auto. lia.
      + intros M. unfold block_step. destruct (Nat.ltb_spec (a + 1) (length bs)); [|lia].
        destruct (Nat.leb_spec (first ns a) c); [|lia]. destruct (Nat.ltb_spec c (first ns (S a))); [lia|]. cbn [andb].
        destruct (Nat.leb_spec (first ns (S a)) c); [|lia]. destruct (Nat.ltb_spec c (n_sources bs ns rs)); [|lia].
        destruct (Nat.leb_spec (first ns a) r); [|lia]. destruct (Nat.ltb_spec r (first ns (S a))); [|lia]. cbn [andb]. reflexivity.
      + intros x M Hx. apply in_loop in Hx. destruct Hx as [d [Hd ->]]. destruct (Nat.eq_dec d a) as [->|Nd]; auto. right.
        unfold block_step. destruct (Nat.ltb (d + 1) (length bs)); auto. rewrite (first_S ns d) by lia.
        destruct (Nat.leb_spec (first ns d) r) as [A1|A1]; destruct (Nat.ltb_spec r (first ns d + nth d ns O)) as [A2|A2]; rewrite ?andb_false_r.
        * exfalso. apply Nd. apply (owner_unique ns d a r); unfold owns; lia.
        * destruct (Nat.leb_spec (first ns d) c) as [B1|B1]; destruct (Nat.ltb_spec c (first ns d + nth d ns O)) as [B2|B2]; cbn [andb]; auto.
          destruct (Nat.leb_spec (first ns d + nth d ns O) r); cbn [andb]; auto.
          assert (d = b) by (apply (owner_unique ns d b c); unfold owns; lia). subst d. lia.
        * destruct (Nat.leb_spec (first ns d) c) as [B1|B1]; destruct (Nat.ltb_spec c (first ns d + nth d ns O)) as [B2|B2]; cbn [andb]; auto.
          destruct (Nat.leb_spec (first ns d + nth d ns O) r); cbn [andb]; auto. lia.
        * lia.
  Qed.
End Matrix.
