(** The response matrix of two fields with the same responses between segments. *)
From Verif Require Import Base LinAlg FLS_Model.
From Verif Require Import Bore_Model Solve_Model Detailed_Model Detailed_Spec Detailed_Proofs.
Local Open Scope R_scope.

Lemma forallb_as_map {A} (f : A -> bool) l : forallb f l = forallb (fun x => x) (map f l).
Proof. induction l as [|x l IH]; cbn; auto. rewrite IH. auto. Qed.

Section Agree.
  Variables (ker ker' : bool -> bore -> bore -> R) (bs bs' : list bore) (ns : list nat) (rs rs' : list (list R)).
  Local Notation B := (bore_segments bs ns rs).
  Local Notation B' := (bore_segments bs' ns rs').
  Local Notation seg k := (nth k B no_bore).
  Local Notation seg' k := (nth k B' no_bore).
  Hypothesis L : length bs = length bs'.
  Hypothesis V : map vertical bs = map vertical bs'.
  Hypothesis N : length B = length B'.
  Hypothesis W : map vertical B = map vertical B'.
  Hypothesis K : forall v i j, (i < length B)%nat -> (j < length B)%nat -> ker v (seg i) (seg j) = ker' v (seg' i) (seg' j).
  Hypothesis Q : forall i j, (i < length B)%nat -> (j < length B)%nat -> bH (seg i) / bH (seg j) = bH (seg' i) / bH (seg' j).

  Lemma detailed_agree r c : (r < length B)%nat -> (c < length B)%nat -> detailed_matrix ker bs ns rs r c = detailed_matrix ker' bs' ns rs' r c.
  Proof.
    unfold detailed_matrix. rewrite <- L.
    set (l := combine (seq 0 (length bs)) (combine (i0_segments (length bs) ns) (i1_segments (length bs) ns))).
    assert (Fold : forall l M M', (forall r c, (r < length B)%nat -> (c < length B)%nat -> M r c = M' r c) ->
      forall r c, (r < length B)%nat -> (c < length B)%nat -> fold_left (block_step ker bs ns rs) l M r c = fold_left (block_step ker' bs' ns rs') l M' r c).
    { clear l. intros l. induction l as [|[i [i0 i1]] l IH]; intros M M' EM r0 c0 Hr Hc; cbn [fold_left]; auto.
      apply IH; auto. clear r0 c0 Hr Hc. intros r0 c0 Hr Hc. unfold block_step. rewrite <- L. destruct (Nat.ltb (i + 1) (length bs)); auto.
      assert (Ev : forallb vertical (skipn i1 B) && forallb vertical (slice i0 i1 B) = forallb vertical (skipn i1 B') && forallb vertical (slice i0 i1 B')).
      { rewrite !(forallb_as_map vertical). unfold slice. rewrite <- !firstn_map, <- !skipn_map, W. auto. }
      rewrite Ev. unfold n_sources. rewrite <- N.
      destruct (Nat.leb i0 r0 && Nat.ltb r0 i1 && Nat.leb i1 c0 && Nat.ltb c0 (length B)). { apply K; auto. }
      destruct (Nat.leb i1 r0 && Nat.ltb r0 (length B) && Nat.leb i0 c0 && Nat.ltb c0 i1); auto.
      rewrite (K _ r0 c0) by auto. f_equal. unfold segment_length. apply (Q c0 r0); auto. }
    apply Fold. clear Fold l. intros r0 c0 Hr Hc. unfold self_matrix.
    rewrite !(forallb_as_map vertical bs), V, <- (forallb_as_map vertical bs').
    replace (i_segment bs' ns) with (i_segment bs ns) by (unfold i_segment; rewrite L; auto).
    replace (j_segment bs' ns) with (j_segment bs ns) by (unfold j_segment; rewrite L; auto).
    set (v := forallb vertical bs'). set (l := combine (i_segment bs ns) (j_segment bs ns)).
    pose proof (fold_write (fun i j => ker v (seg i) (seg j)) l (fun _ _ => 0) r0 c0) as P1.
    pose proof (fold_write (fun i j => ker' v (seg' i) (seg' j)) l (fun _ _ => 0) r0 c0) as P2. cbv beta in P1, P2. fold no_bore.
    destruct P1 as [[P1 I1]|[P1 I1]], P2 as [[P2 I2]|[P2 I2]]; try contradiction.
    - rewrite P1, P2. apply K; auto.
    - rewrite P1, P2. auto.
  Qed.
End Agree.
