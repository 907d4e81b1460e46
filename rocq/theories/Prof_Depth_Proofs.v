From Coq Require Import String.
From Verif Require Import Base LinAlg FLS_Model.
From Verif Require Import Bore_Model Bore_Proofs Net_Model Net_Spec Solve_Model Solve_Spec Solve_Rec_Proofs Detailed_Model Detailed_Spec Detailed_Proofs Sim_Model Eq_Model GFun_Model GFun_Spec GFun_Eval_Proofs
  Prof_Model Prof_Spec Prof_Proofs Prof_Call_Proofs Prof_Main_Proofs Prof_Field_Proofs Prof_Fig_Proofs.
Local Open Scope string_scope.
Local Open Scope R_scope.

Lemma strictly_incr time : strictly time -> incr time.
Proof.
  intros H i j Hij. induction j as [|j IH]; [lia|]. intros Hj. destruct (Nat.eq_dec i j) as [->|N]; [apply H; auto|].
  apply Rlt_trans with (nth j time 0); [apply IH; lia|apply H; auto].
Qed.

Section Object.
  Variable V : object.
  Local Notation bs := (b_bores V).
  Local Notation ns := (b_n V).
  Local Notation rs := (b_r V).
  Local Notation nB := (List.length bs).
  Hypothesis Sg : segmented bs ns rs.
  Hypothesis Gr : good_ratios rs.

  Lemma mid_depths_nth i u : (i < nB)%nat -> (u < nth i ns O)%nat ->
    nth u (mid_depths V i) 0 = bD (nth i bs no_bore) + bH (nth i bs no_bore) * (sumn u (fun k => nth k (nth i rs []) 0) + nth u (nth i rs []) 0 / 2).
  Proof.
    intros Hi Hu. destruct Sg as [_ [_ L]]. rewrite <- (L i Hi) in Hu. unfold mid_depths, bore_at. change (Bore 0 0 0 0 0 0 0) with no_bore.
    assert (Lm : List.length (segment_midpoints (nth i bs no_bore) (nth i ns O) (Some (nth i rs []))) = List.length (nth i rs [])).
    { unfold segment_midpoints, segment_edges. cbn [default_ratios]. rewrite map_length, combine_length, removelast_firstn_len, firstn_length, map_length. cbn [List.length].
      assert (X : forall a l, List.length (cumsum_from a l) = List.length l) by (intros a l; revert a; induction l; intros; cbn; auto). unfold cumsum. rewrite X. lia. }
    rewrite (nth_map _ _ _ 0) by lia. f_equal. rewrite midpoints_spec by (cbn [default_ratios]; lia). rewrite !edges_nth by (cbn [default_ratios]; lia). cbn [default_ratios sumn]. field.
  Qed.

  Lemma mid_depths_length i : (i < nB)%nat -> List.length (mid_depths V i) = nth i ns O.
  Proof.
    intros Hi. destruct Sg as [_ [_ L]]. unfold mid_depths. rewrite map_length. unfold segment_midpoints, segment_edges. cbn [default_ratios].
    rewrite map_length, combine_length, removelast_firstn_len, firstn_length, map_length. cbn [List.length].
    assert (X : forall a l, List.length (cumsum_from a l) = List.length l) by (intros a l; revert a; induction l; intros; cbn; auto). unfold cumsum. rewrite X, (L i Hi). lia.
  Qed.

  Lemma ratios_one i : (i < nB)%nat -> (0 < nth i ns O)%nat /\ Rsum (nth i rs []) = 1.
  Proof.
    intros Hi. destruct Sg as [L1 [L2 L]]. destruct (Gr (nth i rs [])) as [S1 _]; [apply nth_In; lia|]. split; auto. rewrite <- (L i Hi).
    destruct (nth i rs []); [cbn in S1; lra|cbn; lia].
  Qed.

  Lemma profile_shows i q rows n x rows' : (i < nB)%nat -> profile V i rows = (x, rows') -> nth_error rows n = Some (map q (own V i)) ->
    exists y, nth_error rows' n = Some y /\ List.length x = List.length y /\
      shows (nth i bs no_bore) (nth i rs []) (combine y x) (sumn (nth i ns O) (fun u => q (first ns i + u)%nat * nth u (nth i rs []) 0)).
  Proof.
    intros Hi P E. destruct (ratios_one i Hi) as [Pn S1]. pose proof (proj2 (proj2 Sg) i Hi) as Lr. rewrite (own_seq V Sg i Hi) in E.
    unfold profile in P. destruct (Nat.ltb_spec 1 (nth i ns O)) as [L|L].
    - injection P as <- <-. exists (map q (seq (first ns i) (nth i ns O))). split; auto.
      assert (Le : List.length (mid_depths V i) = List.length (map q (seq (first ns i) (nth i ns O)))) by (rewrite mid_depths_length, map_length, seq_length; auto).
      split; auto. split; [intros X; lia|]. intros _. split; [rewrite combine_length, <- Le, mid_depths_length by auto; lia|]. split.
      + unfold profile_mean. rewrite Lr. apply sumn_ext. intros u Hu. rewrite abscissa_combine by auto. rewrite (nth_map _ _ _ O) by (rewrite seq_length; auto). rewrite seq_nth by auto. ring.
      + intros u Hu. rewrite combine_nth by auto. cbn [snd]. apply mid_depths_nth; auto. lia.
    - injection P as <- <-. assert (N1 : nth i ns O = 1%nat) by lia. rewrite N1 in *. cbn [seq map] in E.
      exists [q (first ns i); q (first ns i)]. split; [apply (map_nth_error (flat_map (fun v => [v; v])) n rows E)|]. split; auto.
      destruct (nth i rs []) as [|r0 [|r1 rl]] eqn:Er; cbn [List.length] in Lr; try lia. cbn in S1. split; [|cbn; lia]. intros _.
      cbn [sumn nth]. replace r0 with 1 by lra. rewrite Nat.add_0_r. unfold ends, bore_at. change (Bore 0 0 0 0 0 0 0) with no_bore. cbn [combine]. replace (0 + q (first ns i) * 1) with (q (first ns i)) by ring. auto.
  Qed.

  (** interpolation *)
  Lemma values_step t p x ks rows : strictly (b_time V) -> within_step (b_time V) p x t -> List.length rows = List.length (b_time V) ->
    values_at V t ks rows = Some (map (fun k => (1 - x) * nth p rows zero_vec k + x * nth (S p) rows zero_vec k) ks).
  Proof.
    intros St [Hp [Lt [Hx Et]]] Lr. unfold values_at.
    assert (Hb : nth (S p - 1) (b_time V) 0 <= t <= nth (S p) (b_time V) 0).
    { replace (S p - 1)%nat with p by lia. rewrite Et. split; nra. }
    destruct (interp_cell (b_time V) t (S p) (strictly_incr _ St) ltac:(lia) Hp Hb) as [f [E Ef]].
    rewrite E. cbn [option_map]. f_equal. apply map_ext. intros k. rewrite Ef. replace (S p - 1)%nat with p by lia.
    rewrite !(nth_map (fun q : vec => q k) rows _ zero_vec 0) by lia. rewrite Et. field. lra.
  Qed.

  Lemma sum_step i p x (rows : list vec) :
    sumn (nth i ns O) (fun u => ((1 - x) * nth p rows zero_vec (first ns i + u)%nat + x * nth (S p) rows zero_vec (first ns i + u)%nat) * nth u (nth i rs []) 0)
    = (1 - x) * sumn (nth i ns O) (fun u => nth p rows zero_vec (first ns i + u)%nat * nth u (nth i rs []) 0)
      + x * sumn (nth i ns O) (fun u => nth (S p) rows zero_vec (first ns i + u)%nat * nth u (nth i rs []) 0).
  Proof. rewrite <- !sumn_scal, <- sumn_plus. apply sumn_ext. intros. ring. Qed.
End Object.
