(** Four equal boreholes at the corners of a square. *)
From Verif Require Import Base LinAlg FLS_Model FLS_Spec FLS_Steady_Proofs FLS_Line_Proofs.
From Verif Require Import Bore_Model Solve_Model Detailed_Model Detailed_Spec Sim_Model Sim_Spec Sim_Group_Proofs Eq_Model Eq_Spec Eq_Group_Proofs Eq_Cluster_Proofs Eq_Mix_Proofs.
From Coq Require Import Permutation.

Lemma all_equal_one link kC x m : agglomerative link -> 0 <= x -> (1 < m)%nat ->
  let d := repeat x m in n_clusters kC (link d) (maxR d) m = 1%nat /\ t_number (link d) 1 = repeat O m.
Proof.
  intros Ag Hx Hm d. assert (Ld : length d = m) by apply repeat_length. destruct (Ag d ltac:(lia)) as [_ [Y [_ Lb]]]. rewrite Ld in Lb.
  assert (Mx : 0 <= maxR d). { unfold d. destruct m as [|m]; [lia|]. cbn [repeat maxR]. generalize m as q. clear -Hx. intros q. set (y := x) at 2. assert (0 <= y) by exact Hx. clearbody y. revert y H. induction q as [|q IH]; intros y H; cbn [repeat fold_left]; auto. apply IH. apply Rle_trans with y; auto. apply Rmax_l. }
  split.
  - unfold n_clusters, max_clusters. assert (F : filter (fun e => Rltb (/ 10 ^ 6 * maxR d) (y1 e)) (t_dcoord (link d)) = []).
    { assert (Z : forall e, In e (t_dcoord (link d)) -> Rltb (/ 10 ^ 6 * maxR d) (y1 e) = false).
      { intros e I. destruct (Y e I) as [a [b [Ia [Ib ->]]]]. apply repeat_spec in Ia, Ib. rewrite Ia, Ib. apply Rltb_false. rewrite Rminus_eq_0, Rabs_R0. apply Rmult_le_pos; auto. left. apply Rinv_0_lt_compat, pow_lt. lra. }
      revert Z. generalize (t_dcoord (link d)) as l. induction l as [|e l IH]; intros Z; auto. cbn [filter]. rewrite Z by (left; auto). apply IH. intros f I. apply Z. right; auto. }
    rewrite F. cbn [length]. lia.
  - destruct (Lb 1%nat ltac:(lia)) as [L0 [L1 _]]. apply (list_eq_nth O); [rewrite repeat_length; auto|]. intros k Hk. rewrite nth_repeat. pose proof (L1 _ (nth_In _ O Hk)). lia.
Qed.

Definition square : list bore := [mixb 100 0 0; mixb 100 5 0; mixb 100 5 5; mixb 100 0 5].

Lemma square_data : exists u, steady_data square = repeat u 4 /\ 0 <= u.
Proof.
  set (st := fun d => fls_steady d 100 4 100 4 true true). set (a := Rmax (sqrt 0) (3 / 40)). set (b := Rmax (sqrt 25) (3 / 40)). set (c := Rmax (sqrt 50) (3 / 40)).
  exists (st a + 2 * st b + st c).
  assert (Pa : 0 < a /\ 0 < b /\ 0 < c). { unfold a, b, c. repeat split; (apply Rlt_le_trans with (3 / 40); [lra|apply Rmax_r]). }
  assert (P : forall d, 0 < d -> 0 <= st d) by (intros; apply steady_nonneg; auto; lra).
  split.
  - unfold steady_data, square, mixb, planar. cbn [map Rsum bH bD br bx by_ repeat].
    repeat match goal with |- context [sqrt ?e] =>
      lazymatch e with 0 => fail | 25 => fail | 50 => fail | _ => first [replace e with 0 by ring | replace e with 25 by ring | replace e with 50 by ring] end end.
    fold a b c. fold (st a) (st b) (st c).
    f_equal; [ring|f_equal; [ring|f_equal; [ring|f_equal; ring]]].
  - pose proof (P a). pose proof (P b). pose proof (P c). lra.
Qed.

Lemma square_clusters link kC : agglomerative link -> clusters link kC (/ 10 ^ 6) square = ([0; 0; 0; 0]%nat, 1%nat).
Proof.
  intros Ag. destruct square_data as [u [D Pu]]. unfold clusters. change (Nat.ltb 1 (length square)) with true. cbv iota.
  assert (U : unique_boreholes (/ 10 ^ 6) square = [[0; 1; 2; 3]]%nat).
  { unfold unique_boreholes. cbn [length square seq fold_left]. repeat (cbn [add_group nth app square]; rewrite mix_close). reflexivity. }
  rewrite U, D. cbn [fold_left]. unfold cluster_step. cbn [length Nat.ltb Nat.leb map nth repeat]. destruct (all_equal_one link kC u 4 Ag Pu ltac:(lia)) as [Q1 Q2]. cbn [repeat] in Q1, Q2. rewrite Q1, Q2. reflexivity.
Qed.
Lemma square_boreholes link kC : agglomerative link ->
  equivalent_boreholes link kC (/ 10 ^ 6) square = Some [EBore 100 4 (3 / 40) [0; 5; 5; 0] [0; 0; 5; 5] 0 [0; 0; 0; 0]].
Proof. intros Ag. unfold equivalent_boreholes. rewrite square_clusters by auto. reflexivity. Qed.

Lemma square_planar a b : (a < 4)%nat -> (b < 4)%nat -> a <> b -> let d := planar (nth a square no_bore) (nth b square no_bore) in d = sqrt 25 \/ d = sqrt 50.
Proof.
  intros Ha Hb N. destruct a as [|[|[|[|a]]]], b as [|[|[|[|b]]]]; try lia; cbn [nth square mixb]; unfold planar; cbn [bx by_ mixb];
    match goal with |- context [sqrt ?e] => first [replace e with 25 by ring; auto | replace e with 50 by ring; auto] end.
Qed.
Lemma sqrt25 : sqrt 25 = 5. Proof. replace 25 with (5 * 5) by ring. apply sqrt_square. lra. Qed.
Lemma sqrt50 : 7 < sqrt 50. Proof. rewrite <- (sqrt_square 7) by lra. apply sqrt_lt_1; lra. Qed.

Lemma square_regular : regular_field (/ 10 ^ 6) (1 / 100) 1 100 square 2 [1 / 2; 1 / 2].
Proof.
  pose proof sqrt25. pose proof sqrt50. unfold regular_field.
  assert (SP : forall a b, (a < 4)%nat -> (b < 4)%nat -> a <> b -> 5 <= planar (nth a square no_bore) (nth b square no_bore)) by (intros a b A B Nq; destruct (square_planar a b A B Nq); lra).
  assert (SB : forall b, In b square -> exists x y, b = mixb 100 x y) by (intros b I; cbn in I; decompose [or] I; subst; try contradiction; eauto).
  assert (SN : forall k, (k < 4)%nat -> exists x y, nth k square no_bore = mixb 100 x y) by (intros k Hk; apply SB, nth_In; auto).
  assert (Sg : forall x y, segments (mixb 100 x y) 2 (Some [1 / 2; 1 / 2]) = [nth 0 (segments (mixb 100 x y) 2 (Some [1 / 2; 1 / 2])) no_bore; nth 1 (segments (mixb 100 x y) 2 (Some [1 / 2; 1 / 2])) no_bore]) by reflexivity.
  split; [cbn; lia|]. split; [split|].
  - intros b I. destruct (SB b I) as [x [y ->]]. cbn; lra.
  - intros a b A B Nq. destruct (SN a A) as [x [y E]]. rewrite E at 1. cbn [br mixb]. apply Rle_trans with 5; [lra|apply SP; auto].
  - split; auto. split; [intros r [<-|[]]; split; [cbn; lra|intros x [<-|[<-|[]]]; lra]|]. split; [|split; [|split; [|split; [|split]]]].
    + unfold Sim_Spec.on_grid. assert (T : 0 < / 10 ^ 30 < 1). { split; [apply Rinv_0_lt_compat, pow_lt; lra|]. rewrite <- Rinv_1. apply Rinv_lt_contravar; [rewrite Rmult_1_l; apply pow_lt; lra|]. apply Rlt_pow_R1; [lra|lia]. }
      split; [lra|]. split; [apply Rinv_0_lt_compat, pow_lt; lra|]. split; [lra|].
      intros s I. assert (Q : exists x y, s = mixb 100 x y \/ In s (segments (mixb 100 x y) 2 (Some [1 / 2; 1 / 2]))).
      { apply in_app_or in I. destruct I as [I|I]; [destruct (SB s I) as [x [y ->]]; eauto|]. cbn [square length repeat borehole_segments] in I. rewrite app_nil_r, !in_app_iff in I. destruct I as [I|[I|[I|I]]]; eauto. }
      destruct Q as [x [y [->|Is]]]; [cbn [bH bD mixb]; split; [exists 100%Z; ring|split; [exists 4%Z; ring|lra]]|]. rewrite Sg in Is.
      destruct Is as [<-|[<-|[]]]; cbn; rewrite cos_0.
      * split; [exists 50%Z; field|]. split; [exists 4%Z; field|]. lra.
      * split; [exists 50%Z; field|]. split; [exists 54%Z; field|]. lra.
    + intros a b Ia Ib _. destruct (SB a Ia) as [x [y ->]], (SB b Ib) as [x' [y' ->]]. auto.
    + intros a b Ia Ib _. destruct (SB a Ia) as [x [y ->]], (SB b Ib) as [x' [y' ->]]. auto.
    + intros a b c L1 L2 L3 _. cbn in L3. destruct (SN a ltac:(lia)) as [x [y ->]], (SN b ltac:(lia)) as [x' [y' ->]]. repeat split.
    + lra.
    + intros a b A B Nq. pose proof (SP a b A B Nq) as P. cbn [nth square mixb br] in *. lra.
Qed.

Lemma square_apart : distances_apart (1 / 100) square.
Proof.
  pose proof sqrt25. pose proof sqrt50. intros x y [a [b [A [B [N ->]]]]] [a' [b' [A' [B' [N' ->]]]]] L.
  destruct (square_planar a b A B N) as [E|E], (square_planar a' b' A' B' N') as [E'|E']; rewrite E, E' in *; lra.
Qed.

Lemma square_gathers : gathers square [0; 0; 0; 0]%nat [EBore 100 4 (3 / 40) [0; 5; 5; 0] [0; 0; 5; 5] 0 [0; 0; 0; 0]].
Proof.
  split; auto. split; [intros [|[|[|[|k]]]] Hk; cbn in *; lia|]. intros [|i] Hi; cbn in Hi; [|lia]. cbn. repeat split; try reflexivity. discriminate.
Qed.

Lemma square_equitable : equitable [0; 0; 0; 0]%nat square.
Proof.
  intros y y' Hy Hy' _ i. destruct i as [|i].
  2:{ assert (Z : owners [0; 0; 0; 0]%nat (length square) (S i) = []) by reflexivity. rewrite Z. constructor. }
  change (owners [0; 0; 0; 0]%nat (length square) 0) with [0; 1; 2; 3]%nat.
  assert (One : forall z, (z < length square)%nat -> Permutation (map (fun x => planar (nth x square no_bore) (nth z square no_bore)) [0; 1; 2; 3]%nat) [sqrt 0; sqrt 25; sqrt 50; sqrt 25]).
  { intros z Hz. destruct z as [|[|[|[|z]]]]; [| | | |cbn in Hz; lia]; cbn [map nth square mixb]; unfold planar; cbn [bx by_ mixb];
      repeat match goal with |- context [sqrt ?e] =>
        lazymatch e with 0 => fail | 25 => fail | 50 => fail | _ => first [replace e with 0 by ring | replace e with 25 by ring | replace e with 50 by ring] end end.
    - reflexivity.
    - apply perm_trans with [sqrt 0; sqrt 25; sqrt 25; sqrt 50]; [apply perm_swap|]. do 2 apply perm_skip. apply perm_swap.
    - apply perm_trans with [sqrt 50; sqrt 0; sqrt 25; sqrt 25]; [apply perm_skip, perm_swap|]. apply perm_trans with [sqrt 0; sqrt 50; sqrt 25; sqrt 25]; [apply perm_swap|]. apply perm_skip, perm_swap.
    - apply perm_trans with [sqrt 25; sqrt 50; sqrt 0; sqrt 25]; [do 2 apply perm_skip; apply perm_swap|]. apply perm_trans with [sqrt 25; sqrt 0; sqrt 50; sqrt 25]; [apply perm_skip, perm_swap|]. apply perm_swap. }
  apply perm_trans with [sqrt 0; sqrt 25; sqrt 50; sqrt 25]; [apply One; auto|apply Permutation_sym, One; auto].
Qed.
