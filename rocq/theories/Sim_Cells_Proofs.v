(** Positions written in the response matrix by the similarities solver. *)
From Verif Require Import Base LinAlg FLS_Model FLS_Spec.
From Verif Require Import Bore_Model Solve_Model Detailed_Model Detailed_Spec Detailed_Proofs Sim_Model Sim_Spec.

Lemma assign_pred (P : R -> Prop) M rows cols vs r c :
  (forall v, In ((r, c), v) (combine (combine rows cols) vs) -> P v) ->
  (exists v, In ((r, c), v) (combine (combine rows cols) vs)) \/ P (M r c) -> P (assign M rows cols vs r c).
Proof.
  unfold assign. generalize (combine (combine rows cols) vs) as Z. clear rows cols vs. intros Z. revert M.
  induction Z as [|[[a b] v] Z IH]; intros M All H; cbn [fold_left]; [destruct H as [[? []]|H]; auto|].
  apply IH; [intros w Hw; apply All; right; auto|]. cbn [fst snd].
  destruct (Nat.eq_dec r a) as [->|Na]; [destruct (Nat.eq_dec c b) as [->|Nb]|].
  - right. unfold write. rewrite !Nat.eqb_refl. cbn [andb]. apply All. left. auto.
  - destruct H as [[w [E|Hw]]|H]; [congruence|left; exists w; auto|]. right. unfold write. rewrite (proj2 (Nat.eqb_neq c b) Nb), andb_false_r. auto.
  - destruct H as [[w [E|Hw]]|H]; [congruence|left; exists w; auto|]. right. unfold write. rewrite (proj2 (Nat.eqb_neq r a) Na). auto.
Qed.

Lemma combine_swap {A B C} (a : list A) (b : list B) (l : list C) x y z : In ((x, y), z) (combine (combine a b) l) -> In ((y, x), z) (combine (combine b a) l).
Proof.
  revert b l. induction a as [|a0 a IH]; intros [|b0 b] [|l0 l]; cbn; try tauto. intros [E|I]; [left; congruence|right; auto].
Qed.

Lemma flat_length {A B} (f : A -> list B) K l : (forall x, In x l -> length (f x) = K) -> length (flat_map f l) = (length l * K)%nat.
Proof. induction l as [|x l IH]; intros H; auto. cbn [flat_map length]. rewrite app_length, IH by (intros; apply H; right; auto). rewrite H by (left; auto). lia. Qed.

Lemma nth_flat {A B} (f : A -> list B) K l q m d0 d : (forall x, In x l -> length (f x) = K) -> (q < length l)%nat -> (m < K)%nat ->
  nth (q * K + m) (flat_map f l) d = nth m (f (nth q l d0)) d.
Proof.
  revert q. induction l as [|x l IH]; intros q H Hq Hm; [cbn in Hq; lia|]. cbn [flat_map]. destruct q as [|q].
  - cbn [nth]. rewrite app_nth1 by (rewrite H by (left; auto); lia). auto.
  - rewrite app_nth2 by (rewrite H by (left; auto); lia). rewrite H by (left; auto). replace (S q * K + m - K)%nat with (q * K + m)%nat by lia.
    cbn [nth]. apply IH; auto; [intros; apply H; right; auto|cbn in Hq; lia].
Qed.

Lemma concat_repeat {A} (k : list A) n : concat (repeat k n) = flat_map (fun _ => k) (repeat tt n).
Proof. induction n; cbn; auto. rewrite IHn. auto. Qed.

(** division of a position *)
Lemma position n K p : (p < n * K)%nat -> exists q m, (q < n)%nat /\ (m < K)%nat /\ p = (q * K + m)%nat.
Proof.
  intros H. assert (HK : (K <> 0)%nat) by lia. exists (p / K)%nat, (p mod K)%nat. split; [apply Nat.div_lt_upper_bound; lia|]. split; [apply Nat.mod_upper_bound; auto|].
  rewrite (Nat.div_mod p K HK) at 1. lia.
Qed.

Section Blocks.
  Variables (bs : list bore) (ns : list nat).
  Local Notation nB := (length bs).
  Local Notation n_ i := (nth i ns 0%nat).

  Lemma i_pair_nth i j a b : (a < n_ i)%nat -> (b < n_ j)%nat -> nth (a * n_ j + b) (i_pair ns i j) O = a.
  Proof.
    intros Ha Hb. unfold i_pair. rewrite (nth_flat _ (n_ j) _ a b O) by (rewrite ?seq_length; auto; intros; apply repeat_length).
    rewrite seq_nth by auto. cbn. assert (H : forall (x : nat) n k, (k < n)%nat -> nth k (repeat x n) O = x) by (induction n; intros [|k] Hk; cbn; auto; try lia; apply IHn; lia).
    apply H; auto.
  Qed.
  Lemma j_pair_nth i j a b : (a < n_ i)%nat -> (b < n_ j)%nat -> nth (a * n_ j + b) (j_pair ns i j) O = b.
  Proof.
    intros Ha Hb. unfold j_pair. rewrite concat_repeat. rewrite (nth_flat _ (n_ j) _ a b tt) by (rewrite ?repeat_length; auto; intros; apply seq_length).
    rewrite seq_nth by auto. auto.
  Qed.
  Lemma i_pair_length i j : length (i_pair ns i j) = (n_ i * n_ j)%nat.
  Proof. unfold i_pair. rewrite (flat_length _ (n_ j)), seq_length; auto. intros; apply repeat_length. Qed.
  Lemma j_pair_length i j : length (j_pair ns i j) = (n_ i * n_ j)%nat.
  Proof. unfold j_pair. rewrite concat_repeat, (flat_length _ (n_ j)), repeat_length; auto. intros; apply seq_length. Qed.

  Lemma i_segments_length i j ps : length (i_segments bs ns i j ps) = (length ps * (n_ i * n_ j))%nat.
  Proof. unfold i_segments. apply flat_length. intros. rewrite map_length. apply i_pair_length. Qed.
  Lemma j_segments_length i j ps : length (j_segments bs ns i j ps) = (length ps * (n_ i * n_ j))%nat.
  Proof. unfold j_segments. apply flat_length. intros. rewrite map_length. apply j_pair_length. Qed.

  Lemma i_segments_nth i j ps q a b : (q < length ps)%nat -> (a < n_ i)%nat -> (b < n_ j)%nat -> (fst (nth q ps (O, O)) < nB)%nat ->
    nth (q * (n_ i * n_ j) + (a * n_ j + b)) (i_segments bs ns i j ps) O = (first ns (fst (nth q ps (O, O))) + a)%nat.
  Proof.
    intros Hq Ha Hb Hp. assert (Hm : (a * n_ j + b < n_ i * n_ j)%nat) by nia.
    unfold i_segments. rewrite (nth_flat _ (n_ i * n_ j) _ q _ (O, O)) by (auto; intros; rewrite map_length; apply i_pair_length).
    rewrite (nth_map _ _ _ O) by (rewrite i_pair_length; auto). rewrite i_pair_nth by auto. unfold i0_segments. rewrite nth_map_seq by auto. unfold first. lia.
  Qed.
  Lemma j_segments_nth i j ps q a b : (q < length ps)%nat -> (a < n_ i)%nat -> (b < n_ j)%nat -> (snd (nth q ps (O, O)) < nB)%nat ->
    nth (q * (n_ i * n_ j) + (a * n_ j + b)) (j_segments bs ns i j ps) O = (first ns (snd (nth q ps (O, O))) + b)%nat.
  Proof.
    intros Hq Ha Hb Hp. assert (Hm : (a * n_ j + b < n_ i * n_ j)%nat) by nia.
    unfold j_segments. rewrite (nth_flat _ (n_ i * n_ j) _ q _ (O, O)) by (auto; intros; rewrite map_length; apply j_pair_length).
    rewrite (nth_map _ _ _ O) by (rewrite j_pair_length; auto). rewrite j_pair_nth by auto. unfold i0_segments. rewrite nth_map_seq by auto. unfold first. lia.
  Qed.

  (** the positions of a group and what is written there *)
  Lemma block_cells {V} (vals : list V) (dv : V) i j ps r c v :
    length vals = (length ps * (n_ i * n_ j))%nat -> (forall p, In p ps -> (fst p < nB)%nat /\ (snd p < nB)%nat) ->
    In ((r, c), v) (combine (combine (j_segments bs ns i j ps) (i_segments bs ns i j ps)) vals) <->
    exists q a b, (q < length ps)%nat /\ (a < n_ i)%nat /\ (b < n_ j)%nat /\ r = (first ns (snd (nth q ps (O, O))) + b)%nat /\
      c = (first ns (fst (nth q ps (O, O))) + a)%nat /\ v = nth (q * (n_ i * n_ j) + (a * n_ j + b)) vals dv.
  Proof.
    intros Lv Rg. assert (LL : length (combine (j_segments bs ns i j ps) (i_segments bs ns i j ps)) = (length ps * (n_ i * n_ j))%nat)
      by (rewrite combine_length, i_segments_length, j_segments_length; lia).
    assert (Nth : forall p, (p < length ps * (n_ i * n_ j))%nat -> nth p (combine (combine (j_segments bs ns i j ps) (i_segments bs ns i j ps)) vals) ((O, O), dv)
      = ((nth p (j_segments bs ns i j ps) O, nth p (i_segments bs ns i j ps) O), nth p vals dv)).
    { intros p Hp. rewrite combine_nth by lia. rewrite combine_nth by (rewrite i_segments_length, j_segments_length; auto). auto. }
    split.
    - intros I. destruct (In_nth _ _ ((O, O), dv) I) as [p [Hp E]]. rewrite combine_length, LL, Lv, Nat.min_id in Hp.
      rewrite Nth in E by auto. destruct (position _ _ _ Hp) as [q [m [Hq [Hm ->]]]]. destruct (position _ _ _ Hm) as [a [b [Ha [Hb ->]]]].
      destruct (Rg (nth q ps (O, O)) (nth_In _ _ Hq)) as [R1 R2].
      exists q, a, b. rewrite i_segments_nth, j_segments_nth in E by auto. injection E as <- <- <-. auto 10.
    - intros [q [a [b [Hq [Ha [Hb [-> [-> ->]]]]]]]]. destruct (Rg (nth q ps (O, O)) (nth_In _ _ Hq)) as [R1 R2].
      assert (Hp : (q * (n_ i * n_ j) + (a * n_ j + b) < length ps * (n_ i * n_ j))%nat) by (assert (a * n_ j + b < n_ i * n_ j)%nat by nia; nia).
      rewrite <- (i_segments_nth i j ps q a b Hq Ha Hb R1), <- (j_segments_nth i j ps q a b Hq Ha Hb R2). rewrite <- Nth by auto.
      apply nth_In. rewrite combine_length, LL, Lv. lia.
  Qed.
End Blocks.

(** unique pairs *)
Lemma find_index_spec {A} (f : A -> bool) l : match find_index f l with
  | Some k => (k < length l)%nat /\ forall d, f (nth k l d) = true
  | None => forall x, In x l -> f x = false end.
Proof.
  induction l as [|x l IH]; cbn [find_index]; [intros x []|]. destruct (f x) eqn:E; [split; [cbn; lia|auto]|].
  destruct (find_index f l) as [k|]; cbn [option_map].
  - split; [cbn; lia|]. intros d. apply IH.
  - intros y [<-|I]; auto.
Qed.

Lemma unique_pairs_spec {A} (cmp : A -> A -> bool) (d : A) ps : forall U V ks, unique_pairs cmp ps U = (V, ks) ->
  (exists W, V = U ++ W /\ incl W ps) /\ length ks = length ps /\
  (forall m, (m < length ps)%nat -> (nth m ks O < length V)%nat /\ (nth (nth m ks O) V d = nth m ps d \/ cmp (nth m ps d) (nth (nth m ks O) V d) = true)) /\
  (forall k, (length U <= k < length V)%nat -> In k ks).
Proof.
  induction ps as [|p ps IH]; intros U V ks; cbn [unique_pairs].
  - intros E. injection E as <- <-. split; [exists []; rewrite app_nil_r; split; auto; intros x []|]. split; auto. split; [intros m Hm; cbn in Hm; lia|]. intros; lia.
  - pose proof (find_index_spec (cmp p) U) as F. destruct (find_index (cmp p) U) as [k|].
    + destruct (unique_pairs cmp ps U) as [V' ks'] eqn:E'. intros E. injection E as <- <-. destruct (IH _ _ _ E') as [[W [-> I]] [L [N C]]].
      split; [exists W; split; auto; intros x Hx; right; auto|]. split; [cbn; lia|]. split.
      * intros [|m] Hm; cbn [nth].
        -- destruct F as [F1 F2]. split; [rewrite app_length; lia|]. right. rewrite app_nth1 by auto. apply F2.
        -- apply N. cbn in Hm. lia.
      * intros q Hq. right. apply C. auto.
    + destruct (unique_pairs cmp ps (U ++ [p])) as [V' ks'] eqn:E'. intros E. injection E as <- <-. destruct (IH _ _ _ E') as [[W [-> I]] [L [N C]]].
      split; [exists (p :: W); split; [rewrite <- app_assoc; auto|]; intros x [<-|Hx]; [left; auto|right; auto]|]. split; [cbn; lia|]. split.
      * intros [|m] Hm; cbn [nth].
        -- split; [rewrite !app_length; cbn; lia|]. left. rewrite <- app_assoc, app_nth2 by lia. rewrite Nat.sub_diag. auto.
        -- apply N. cbn in Hm. lia.
      * intros q Hq. destruct (Nat.eq_dec q (length U)) as [->|Ne]; [left; auto|right; apply C]. rewrite app_length. cbn [length]. lia.
Qed.

Lemma list_max_in l k n : In k l -> (forall x, In x l -> (x < n)%nat) -> (n = k + 1)%nat -> (list_max l + 1 = n)%nat.
Proof.
  intros I B ->. assert (H : (list_max l <= k)%nat). { apply list_max_le. apply Forall_forall. intros x Hx. pose proof (B x Hx). lia. }
  assert (H2 : (k <= list_max l)%nat). { clear B H. induction l as [|x l IH]; [destruct I|]. cbn [list_max fold_right]. fold (list_max l). destruct I as [->|I]; [lia|]. specialize (IH I). lia. }
  lia.
Qed.
