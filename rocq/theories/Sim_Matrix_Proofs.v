(** Stages of the response matrix of the similarities solver. *)
From Verif Require Import Base LinAlg FLS_Model FLS_Spec.
From Verif Require Import Bore_Model Solve_Model Detailed_Model Detailed_Spec Detailed_Proofs Sim_Model Sim_Spec Sim_Dist_Proofs Sim_Group_Proofs Sim_Cells_Proofs.

Lemma list_prod_flat {A B} (l1 : list A) (l2 : list B) : list_prod l1 l2 = flat_map (fun x => map (fun y => (x, y)) l2) l1.
Proof. induction l1 as [|x l1 IH]; cbn; auto. rewrite IH. auto. Qed.

Lemma nth_list_prod {A B} (l1 : list A) (l2 : list B) a b da db : (a < length l1)%nat -> (b < length l2)%nat ->
  nth (a * length l2 + b) (list_prod l1 l2) (da, db) = (nth a l1 da, nth b l2 db).
Proof.
  intros Ha Hb. rewrite list_prod_flat. rewrite (nth_flat _ (length l2) _ a b da) by (auto; intros; apply map_length).
  rewrite (nth_map _ _ _ db) by auto. auto.
Qed.

Lemma k_segments_length kp (ps : list (nat * nat)) : length (k_segments kp ps) = (length ps * length kp)%nat.
Proof. unfold k_segments. rewrite concat_repeat, (flat_length _ (length kp)), repeat_length; auto. Qed.
Lemma k_segments_nth kp (ps : list (nat * nat)) q m : (q < length ps)%nat -> (m < length kp)%nat -> nth (q * length kp + m) (k_segments kp ps) O = nth m kp O.
Proof. intros Hq Hm. unfold k_segments. rewrite concat_repeat. rewrite (nth_flat _ (length kp) _ q m tt); auto. rewrite repeat_length. auto. Qed.
Lemma l_segments_length kp ind : length (l_segments kp ind) = (length ind * length kp)%nat.
Proof. unfold l_segments. apply flat_length. intros; apply repeat_length. Qed.
Lemma l_segments_nth kp ind q m : (q < length ind)%nat -> (m < length kp)%nat -> nth (q * length kp + m) (l_segments kp ind) O = nth q ind O.
Proof.
  intros Hq Hm. unfold l_segments. rewrite (nth_flat _ (length kp) _ q m O); auto.
  - assert (H : forall (x : nat) n k, (k < n)%nat -> nth k (repeat x n) O = x) by (induction n; intros [|k] Hk; cbn; auto; try lia; apply IHn; lia). apply H. auto.
  - intros; apply repeat_length.
Qed.

Section Stages.
  Variables (tol disTol : R) (bs : list bore) (ns : list nat) (rs : list (list R)).
  Hypothesis W : segmented bs ns rs.
  Local Notation nB := (length bs).
  Local Notation b_ i := (nth i bs no_bore).
  Local Notation n_ i := (nth i ns 0%nat).
  Local Notation r_ i := (nth i rs []).
  Definition sg (i k : nat) : bore := nth k (segments (b_ i) (n_ i) (Some (r_ i))) no_bore.
  Definition no_pair : pair := (no_bore, no_bore).

  Lemma map_pairs_spec cmp i j U kp : (i < nB)%nat -> (j < nB)%nat -> map_pairs bs ns rs cmp i j = (U, kp) ->
    length kp = (n_ i * n_ j)%nat /\
    (forall p, In p U -> exists a b, (a < n_ i)%nat /\ (b < n_ j)%nat /\ p = (sg i a, sg j b)) /\
    (forall a b, (a < n_ i)%nat -> (b < n_ j)%nat -> (nth (a * n_ j + b) kp O < length U)%nat /\
       (nth (nth (a * n_ j + b) kp O) U no_pair = (sg i a, sg j b) \/ cmp (sg i a, sg j b) (nth (nth (a * n_ j + b) kp O) U no_pair) = true)) /\
    ((0 < n_ i)%nat -> (0 < n_ j)%nat -> (list_max kp + 1 = length U)%nat).
  Proof.
    intros Hi Hj. destruct W as [L1 [L2 L3]]. unfold map_pairs. change (Bore 0 0 0 0 0 0 0) with no_bore.
    pose proof (segments_length (b_ i) (n_ i) (r_ i)) as S1. rewrite L3 in S1 by auto. pose proof (segments_length (b_ j) (n_ j) (r_ j)) as S2. rewrite L3 in S2 by auto.
    intros E. destruct (unique_pairs_spec cmp no_pair _ _ _ _ E) as [[W' [EV I]] [L [N C]]]. cbn [app] in EV. subst W'.
    assert (Lp : @length pair (list_prod (segments (b_ i) (n_ i) (Some (r_ i))) (segments (b_ j) (n_ j) (Some (r_ j)))) = (n_ i * n_ j)%nat)
      by (etransitivity; [apply prod_length|rewrite S1, S2; auto]). rewrite Lp in L, N.
    assert (Np : forall a b, (a < n_ i)%nat -> (b < n_ j)%nat -> nth (a * n_ j + b) (list_prod (segments (b_ i) (n_ i) (Some (r_ i))) (segments (b_ j) (n_ j) (Some (r_ j)))) no_pair = (sg i a, sg j b)).
    { intros a b Ha Hb. pose proof (nth_list_prod (segments (b_ i) (n_ i) (Some (r_ i))) (segments (b_ j) (n_ j) (Some (r_ j))) a b no_bore no_bore) as Q.
      rewrite S1, S2 in Q. exact (Q Ha Hb). }
    assert (Bd : forall a b, (a < n_ i)%nat -> (b < n_ j)%nat -> (a * n_ j + b < n_ i * n_ j)%nat) by (intros; nia).
    split; auto. split; [|split].
    - intros p Hp. apply I in Hp. destruct (In_nth _ _ no_pair Hp) as [k [Hk Ek]]. rewrite Lp in Hk. destruct (position _ _ _ Hk) as [a [b [Ha [Hb ->]]]].
      exists a, b. rewrite <- Ek, Np by auto. auto.
    - intros a b Ha Hb. pose proof (N _ (Bd a b Ha Hb)) as Q. rewrite Np in Q by auto. exact Q.
    - intros P1 P2. assert (P0 : (0 < length U)%nat) by (destruct (N O ltac:(nia)); lia).
      apply (list_max_in kp (length U - 1) (length U)); [apply C; cbn; lia| |lia].
      intros x Hx. destruct (In_nth _ _ O Hx) as [m [Hm <-]]. apply N. lia.
  Qed.

  (** one group of same-borehole or inclined interactions *)
  Definition gen_step (s : self_data) (dis : R) (U : list pair) (kp : list nat) (i j off : nat) (ps : list (nat * nat)) : self_data :=
    mkself (s_dp s ++ map (fun p => (dis, p)) U) (s_i s ++ i_segments bs ns i j ps) (s_j s ++ j_segments bs ns i j ps)
           (s_k s ++ map (fun k => (k + s_k0 s)%nat) (k_segments kp ps)) (s_k0 s + off)%nat.
  Definition balanced (s : self_data) : Prop := length (s_i s) = length (s_k s) /\ length (s_j s) = length (s_k s).
  Definition cells (s : self_data) := combine (combine (s_j s) (s_i s)) (s_k s).

  Lemma gen_step_cells s dis U kp i j off ps : balanced s -> length kp = (n_ i * n_ j)%nat -> (forall p, In p ps -> (fst p < nB)%nat /\ (snd p < nB)%nat) ->
    balanced (gen_step s dis U kp i j off ps) /\
    forall r c k, In ((r, c), k) (cells (gen_step s dis U kp i j off ps)) <-> In ((r, c), k) (cells s) \/
      exists q a b, (q < length ps)%nat /\ (a < n_ i)%nat /\ (b < n_ j)%nat /\ r = (first ns (snd (nth q ps (O, O))) + b)%nat /\
        c = (first ns (fst (nth q ps (O, O))) + a)%nat /\ k = (nth (a * n_ j + b) kp O + s_k0 s)%nat.
  Proof.
    intros [B1 B2] Lk Rg. set (vals := map (fun k => (k + s_k0 s)%nat) (k_segments kp ps)).
    assert (Lv : length vals = (length ps * (n_ i * n_ j))%nat) by (unfold vals; rewrite map_length, k_segments_length, Lk; auto).
    split.
    - unfold balanced, gen_step. cbn [s_i s_j s_k]. rewrite !app_length, i_segments_length, j_segments_length. fold vals. lia.
    - intros r c k. unfold cells, gen_step. cbn [s_i s_j s_k]. fold vals. rewrite combine_app by lia. rewrite combine_app by (rewrite combine_length; lia).
      rewrite in_app_iff. rewrite (block_cells bs ns vals O i j ps r c k Lv Rg).
      assert (Nv : forall q a b, (q < length ps)%nat -> (a < n_ i)%nat -> (b < n_ j)%nat -> nth (q * (n_ i * n_ j) + (a * n_ j + b)) vals O = (nth (a * n_ j + b) kp O + s_k0 s)%nat).
      { intros q a b Hq Ha Hb. assert (Hm : (a * n_ j + b < n_ i * n_ j)%nat) by nia. unfold vals.
        rewrite (nth_map _ _ _ O) by (rewrite k_segments_length, Lk; nia). rewrite <- Lk, k_segments_nth by (auto; lia). auto. }
      split; intros [H|[q [a [b [Hq [Ha [Hb [-> [-> ->]]]]]]]]]; auto; right; exists q, a, b; rewrite Nv by auto; auto 10.
  Qed.

  Lemma gather_spec h k l : gather h k = Some l -> length l = length k /\ (forall i, In i k -> (i < length h)%nat) /\ l = map (fun i => nth i h 0) k.
  Proof.
    unfold gather. destruct (forallb _ _) eqn:E; [|discriminate]. intros Q. injection Q as <-. rewrite forallb_forall in E.
    split; [apply map_length|]. split; auto. intros i Hi. apply Nat.ltb_lt. auto.
  Qed.
  Lemma gather_some h k : (forall i, In i k -> (i < length h)%nat) -> gather h k = Some (map (fun i => nth i h 0) k).
  Proof. intros H. unfold gather. rewrite (proj2 (forallb_forall _ _)); auto. intros i Hi. apply Nat.ltb_lt. auto. Qed.

  Lemma combine_map_r {A B C} (a : list A) (f : B -> C) k x v : In (x, v) (combine a (map f k)) <-> exists i, In (x, i) (combine a k) /\ v = f i.
  Proof.
    revert k. induction a as [|a0 a IH]; intros [|k0 k]; cbn; try (split; [tauto|intros [i [[] _]]]).
    split.
    - intros [E|I]; [exists k0; split; [left; congruence|congruence]|]. apply IH in I. destruct I as [i [I ->]]. exists i. auto.
    - intros [i [[E|I] ->]]; [left; congruence|right; apply IH; exists i; auto].
  Qed.
End Stages.
