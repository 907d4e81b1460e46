From Coquelicot Require Import Coquelicot.
From Verif Require Import Base LinAlg FLS_Model FLS_Spec FLS_Steady_Proofs FLS_Line_Proofs.
From Verif Require Import Bore_Model Solve_Model Detailed_Model Detailed_Spec Sim_Model Sim_Group_Proofs Eq_Model Eq_Spec Eq_Group_Proofs Eq_Cluster_Proofs.

Lemma steady_nonneg dis H1 D1 H2 D2 : 0 < dis -> 0 < H1 -> 0 < H2 -> 0 <= D1 -> 0 <= D2 -> 0 <= fls_steady dis H1 D1 H2 D2 true true.
Proof.
  intros. pose proof (steady_limit 1 dis H1 D1 H2 D2 true true ltac:(auto) ltac:(lra) ltac:(auto)) as L.
  assert (Q : Rbar_le (Finite 0) (Finite (fls_steady dis H1 D1 H2 D2 true true))).
  { apply (is_lim_le_loc (fun _ => 0) (fun t => fls t 1 dis H1 D1 H2 D2 true true) p_infty 0 (fls_steady dis H1 D1 H2 D2 true true)); [|apply is_lim_const|exact L].
    exists 1. intros t Ht. left. apply fls_pos; auto; lra. }
  exact Q.
Qed.

Definition mixb (h x y : R) : bore := Bore h 4 (3 / 40) x y 0 0.
Definition mix_field : list bore := [mixb 100 0 0; mixb 50 5 0; mixb 100 5 5; mixb 50 0 5].

Section Mix.
  Variables (link : list R -> tree) (kC : nat).
  Hypothesis Ag : agglomerative link.

  Lemma two_equal x : 0 <= x -> t_number (link [x; x]) (n_clusters kC (link [x; x]) (maxR [x; x]) 2) = [O; O] /\ n_clusters kC (link [x; x]) (maxR [x; x]) 2 = 1%nat.
  Proof.
    intros Hx. destruct (Ag [x; x] ltac:(cbn; lia)) as [_ [Y [_ Lb]]].
    assert (N : n_clusters kC (link [x; x]) (maxR [x; x]) 2 = 1%nat).
    { unfold n_clusters, max_clusters. assert (F : filter (fun d => Rltb (/ 10 ^ 6 * maxR [x; x]) (y1 d)) (t_dcoord (link [x; x])) = []).
      { assert (Z : forall d, In d (t_dcoord (link [x; x])) -> Rltb (/ 10 ^ 6 * maxR [x; x]) (y1 d) = false).
        { intros d I. destruct (Y d I) as [a [b [Ia [Ib ->]]]]. assert (a = x /\ b = x) as [-> ->] by (cbn in Ia, Ib; intuition congruence).
          apply Rltb_false. rewrite Rminus_eq_0, Rabs_R0. cbn [maxR fold_left]. rewrite Rmax_left by lra. apply Rmult_le_pos; auto. left. apply Rinv_0_lt_compat, pow_lt. lra. }
        revert Z. generalize (t_dcoord (link [x; x])) as l. induction l as [|d l IH]; intros Z; auto. cbn [filter]. rewrite Z by (left; auto). apply IH. intros e I. apply Z. right; auto. }
      rewrite F. cbn [length]. lia. }
    split; auto. rewrite N. destruct (Lb 1%nat ltac:(cbn; lia)) as [L0 [L1 _]]. destruct (t_number (link [x; x]) 1) as [|a [|b [|c l]]]; cbn in L0; try lia.
    pose proof (L1 a ltac:(left; auto)). pose proof (L1 b ltac:(right; left; auto)). f_equal; [lia|f_equal; lia].
  Qed.

  Lemma mix_close h x y x' y' : eq_compare (/ 10 ^ 6) (mixb h x y) (mixb h x' y') = true.
  Proof.
    unfold eq_compare, mixb. cbn [bH bD br]. assert (T : 0 < / 10 ^ 6) by (apply Rinv_0_lt_compat, pow_lt; lra). rewrite !Rminus_eq_0. unfold Rdiv. rewrite !Rmult_0_l, Rabs_R0.
    rewrite !andb_true_iff, !Rltb_true. auto.
  Qed.
  Lemma mix_far h h' x y x' y' : h = 100 /\ h' = 50 \/ h = 50 /\ h' = 100 -> eq_compare (/ 10 ^ 6) (mixb h x y) (mixb h' x' y') = false.
  Proof.
    intros H. unfold eq_compare, mixb. cbn [bH bD br]. assert (Q : Rltb (Rabs ((h - h') / h)) (/ 10 ^ 6) = false); [|rewrite Q; auto].
    apply Rltb_false. destruct H as [[-> ->]|[-> ->]]; unfold Rabs; destruct Rcase_abs; lra.
  Qed.

  Lemma mix_groups : unique_boreholes (/ 10 ^ 6) mix_field = [[0; 2]; [1; 3]]%nat.
  Proof.
    unfold unique_boreholes. cbn [length mix_field seq fold_left]. repeat (cbn [add_group nth app mix_field]; first [rewrite mix_close | rewrite mix_far by auto]). reflexivity.
  Qed.

  Lemma mix_data : exists u v, steady_data mix_field = [u; v; u; v] /\ 0 <= u /\ 0 <= v.
  Proof.
    set (st := fun d h h' => fls_steady d h 4 h' 4 true true). set (a := Rmax (sqrt 0) (3 / 40)). set (b := Rmax (sqrt 25) (3 / 40)). set (c := Rmax (sqrt 50) (3 / 40)).
    exists (st a 100 100 + 2 * st b 50 100 + st c 100 100), (st a 50 50 + 2 * st b 100 50 + st c 50 50).
    assert (Pa : 0 < a /\ 0 < b /\ 0 < c). { unfold a, b, c. repeat split; (apply Rlt_le_trans with (3 / 40); [lra|apply Rmax_r]). }
    assert (P : forall d h h', 0 < d -> 0 < h -> 0 < h' -> 0 <= st d h h') by (intros; apply steady_nonneg; auto; lra).
    split; [|split].
    - unfold steady_data, mix_field, mixb, planar. cbn [map Rsum bH bD br bx by_].
      repeat match goal with |- context [sqrt ?e] =>
        lazymatch e with 0 => fail | 25 => fail | 50 => fail | _ => first [replace e with 0 by ring | replace e with 25 by ring | replace e with 50 by ring] end end.
      fold a b c. change (fun d h h' => fls_steady d h 4 h' 4 true true) with st. fold (st a 100 100) (st b 50 100) (st c 100 100) (st a 50 50) (st b 100 50) (st c 50 50).
      f_equal; [ring|f_equal; [ring|f_equal; [ring|f_equal; ring]]].
    - pose proof (P a 100 100). pose proof (P b 50 100). pose proof (P c 100 100). lra.
    - pose proof (P a 50 50). pose proof (P b 100 50). pose proof (P c 50 50). lra.
  Qed.

  Lemma mix_clusters : clusters link kC (/ 10 ^ 6) mix_field = ([0; 0; 1; 1]%nat, 2%nat).
  Proof.
    destruct mix_data as [u [v [D [Pu Pv]]]]. unfold clusters. change (Nat.ltb 1 (length mix_field)) with true. cbv iota. rewrite mix_groups, D.
    cbn [fold_left]. unfold cluster_step. cbn [length Nat.ltb Nat.leb map nth]. destruct (two_equal u Pu) as [-> ->]. cbn [map app plus].
    destruct (two_equal v Pv) as [-> ->]. reflexivity.
  Qed.

  Lemma mix_wrong : equivalent_boreholes link kC (/ 10 ^ 6) mix_field
    = Some [EBore 100 4 (3 / 40) [0; 5] [0; 0] 0 [0; 0]; EBore 100 4 (3 / 40) [5; 0] [5; 5] 0 [0; 0]].
  Proof. unfold equivalent_boreholes. rewrite mix_clusters. reflexivity. Qed.
End Mix.

(** a clustering that meets the contract *)
Definition plain_link (data : list R) : tree :=
  mktree (repeat (0, 0, 0, 0) (length data - 1)) (fun _ => repeat O (length data)) (fun k => map (fun i => Nat.min i (k - 1)) (seq 0 (length data))).
Lemma plain_ok : agglomerative plain_link.
Proof.
  intros data H. unfold plain_link. cbn [t_dcoord t_height t_number]. split; [apply repeat_length|]. split; [|split].
  - intros d I. apply repeat_spec in I. subst. destruct data as [|x l]; [cbn in H; lia|]. exists x, x. split; [left; auto|]. split; [left; auto|]. cbn. rewrite Rminus_eq_0, Rabs_R0. auto.
  - intros h. exists 1%nat. split; [lia|]. split; [apply repeat_length|]. split.
    + intros x I. apply repeat_spec in I. lia.
    + intros j Hj. assert (j = O) by lia. subst. destruct data; [cbn in H; lia|left; auto].
  - intros k Hk. split; [rewrite map_length, seq_length; auto|]. split.
    + intros x I. apply in_map_iff in I. destruct I as [i [<- _]]. lia.
    + intros j Hj. apply in_map_iff. exists j. split; [lia|apply in_seq; lia].
Qed.
