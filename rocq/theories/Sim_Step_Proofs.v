(** Three vertical boreholes of the same length in a row, the second one at another depth. *)
From Coq Require Import Reals Lra Lia List Bool Psatz ZArith.
From Verif Require Import Base FLS_Model FLS_Spec FLS_Proofs.
From Verif Require Import Bore_Model Solve_Model Detailed_Model Detailed_Spec Detailed_Proofs Detailed_Sol_Proofs
  Sim_Model Sim_Spec Sim_Exact_Proofs Sim_Matrix_Proofs Sim_Sol_Proofs Sim_Kernel_Proofs Sim_Dist_Proofs Sim_Skew_Proofs.
Local Open Scope R_scope.

Definition post (D x : R) : bore := Bore 100 D (3 / 40) x 0 0 0.
Definition posts (D : R) : list bore := [post 1 0; post D 5; post 1 10].
Definition post_ns : list nat := [2; 2; 2]%nat.
Definition post_rs : list (list R) := [[1 / 2; 1 / 2]; [1 / 2; 1 / 2]; [1 / 2; 1 / 2]].

Lemma post_segmented D : segmented (posts D) post_ns post_rs.
Proof. repeat split; auto. intros [|[|[|i]]] Hi; cbn in *; auto; lia. Qed.

Lemma post_ratios : good_ratios post_rs.
Proof. intros r [<-|[<-|[<-|[]]]]; (split; [cbn; lra|intros x [<-|[<-|[]]]; lra]). Qed.

Lemma post_planar D E x y : planar (post D x) (post E y) = Rabs (x - y).
Proof. unfold planar, post. cbn [bx by_]. apply line_dist. Qed.

Lemma post_field D : 0 <= D -> vertical_field (posts D).
Proof.
  intros HD. split.
  - intros b [<-|[<-|[<-|[]]]]; cbn; lra.
  - intros [|[|[|a]]] [|[|[|b]]] Ha Hb N; cbn in Ha, Hb; try lia; cbn [nth posts]; rewrite post_planar; cbn [br post]; unfold Rabs; destruct Rcase_abs; lra.
Qed.

Lemma no_tilt : tilted 0 = false.
Proof. apply Rltb_false. rewrite Rabs_R0. lra. Qed.

Lemma post_segs D x : exists s0 s1, segments (post D x) 2 (Some [1 / 2; 1 / 2]) = [s0; s1] /\ bH s0 = 50 /\ bH s1 = 50 /\ bD s0 = D /\ bD s1 = D + 50.
Proof. eexists. eexists. split; [reflexivity|]. cbn. rewrite cos_0. repeat split; field. Qed.

Lemma post_grid k : (0 <= k <= 50)%Z -> on_grid skew_tol 1 100 (posts (IZR k)) post_ns post_rs.
Proof.
  intros [K0 K1]. apply IZR_le in K0, K1. unfold on_grid, skew_tol.
  split; [pose proof tiny_pos as T; unfold tiny in T; lra|]. split; [lra|]. split; [pose proof tiny_pos as T; unfold tiny in T; lra|].
  assert (I : forall n : Z, multiple 1 (IZR n)) by (intros n; exists n; ring).
  assert (S : forall b D x (n : Z), D = IZR n -> 0 <= D <= 50 -> In b (post D x :: segments (post D x) 2 (Some [1 / 2; 1 / 2])) -> multiple 1 (bH b) /\ multiple 1 (bD b) /\ bH b <= 100 /\ bD b <= 100).
  { intros b D x n E B. destruct (post_segs D x) as [s0 [s1 [-> [H0 [H1 [D0 D1]]]]]].
    assert (multiple 1 (D + 50)) by (exists (n + 50)%Z; rewrite plus_IZR, E; ring). assert (multiple 1 D) by (exists n; rewrite E; ring).
    pose proof (I 50%Z). pose proof (I 100%Z). intros [<-|[<-|[<-|[]]]]; [cbn [post bH bD]|rewrite H0, D0|rewrite H1, D1]; repeat split; auto; lra. }
  intros s Hs. cbn [posts post_ns post_rs borehole_segments] in Hs. rewrite app_nil_r in Hs. rewrite !in_app_iff in Hs. cbn [In] in Hs.
  assert (In s (post 1 0 :: segments (post 1 0) 2 (Some [1 / 2; 1 / 2])) \/ In s (post (IZR k) 5 :: segments (post (IZR k) 5) 2 (Some [1 / 2; 1 / 2])) \/ In s (post 1 10 :: segments (post 1 10) 2 (Some [1 / 2; 1 / 2]))) as [X|[X|X]].
  { unfold posts in Hs. cbn [In] in Hs |- *. tauto. }
  - apply (S s 1 0 1%Z); auto; lra.
  - apply (S s (IZR k) 5 k); auto; lra.
  - apply (S s 1 10 1%Z); auto; lra.
Qed.

Lemma post_radii D : radii_apart skew_tol (posts D).
Proof. intros a b [<-|[<-|[<-|[]]]] [<-|[<-|[<-|[]]]] _; auto. Qed.

Lemma post_split : ratios_apart skew_tol post_rs.
Proof.
  split.
  - intros r r' [<-|[<-|[<-|[]]]] [<-|[<-|[<-|[]]]]; auto.
  - intros r [<-|[<-|[<-|[]]]] _ [|[|k]] Hk; cbn in *; auto; lia.
Qed.

Lemma post_far D : distances_apart skew_dis (posts D).
Proof.
  assert (V : forall x, field_distance (posts D) x -> x = 5 \/ x = 10).
  { intros x [a [b [Ha [Hb [N ->]]]]]. destruct a as [|[|[|a]]], b as [|[|[|b]]]; cbn in Ha, Hb; try lia; cbn [nth posts]; rewrite post_planar; unfold Rabs; destruct Rcase_abs; try lra; auto. }
  intros x y Hx Hy L. unfold skew_dis. destruct (V x Hx), (V y Hy); lra.
Qed.

Lemma post_level : level (posts 1).
Proof. intros a b [<-|[<-|[<-|[]]]] [<-|[<-|[<-|[]]]] _; auto. Qed.

Lemma post_equal : equal_ratios post_ns post_rs = true.
Proof.
  unfold equal_ratios, post_ns, post_rs. cbn [forallb nth Nat.eqb]. unfold allclose. cbn [combine forallb fst snd].
  assert (E : Rleb (Rabs (1 / 2 - 1 / 2)) (/ 10 ^ 8 + / 10 ^ 5 * Rabs (1 / 2)) = true).
  { apply Rleb_true. rewrite Rminus_eq_0, Rabs_R0, Rabs_right by lra. lra. }
  rewrite E. auto.
Qed.

Lemma post_similar : compare_vertical skew_tol (post 3 5, post 1 10) (post 1 0, post 3 5) = true.
Proof.
  assert (0 < skew_tol) by (unfold skew_tol; lra).
  unfold compare_vertical, compare_real, compare_image, cond_H. cbn [fst snd bH bD post].
  rewrite !near_true' by (auto; lra). rewrite (near_true' (Rabs (1 - 3)) (Rabs (3 - 1))); [|auto|apply Rabs_minus_sym].
  cbn [andb]. rewrite orb_true_r. cbn [andb]. apply near_true'; auto. lra.
Qed.

Lemma post_other a b c d e f : a <> c -> (a = 1 \/ a = 3) -> (c = 1 \/ c = 3) ->
  compare_vertical skew_tol (post 1 d, post 1 e) (post a f, post c b) = false.
Proof.
  intros N Ha Hc. pose proof tiny_pos as T. unfold compare_vertical. apply andb_false_iff. right. unfold compare_image. apply andb_false_iff. right.
  cbn [fst snd bD post]. apply Rltb_false. unfold skew_tol.
  assert (E : c + a = 4) by lra. rewrite E. replace ((1 + 1 - 4) / (1 + 1 + tiny)) with (- (2 / (2 + tiny))) by (field; lra).
  rewrite Rabs_Ropp, Rabs_right; [|apply Rle_ge; left; apply Rdiv_lt_0_compat; lra].
  apply Rmult_le_reg_r with (2 + tiny); [lra|]. unfold Rdiv. rewrite Rmult_assoc, Rinv_l by lra. lra.
Qed.

Lemma post_pairs : pair_groups skew_tol skew_dis (posts 3) post_ns post_rs = ([[(0, 1); (1, 2)]; [(0, 2)]]%nat, []).
Proof.
  unfold pair_groups. change (Nat.ltb 1 (length (posts 3))) with true. cbv iota.
  change (index_pairs (length (posts 3))) with [(0, 1); (0, 2); (1, 2)]%nat. cbn [fold_left]. unfold pair_step. cbn [nth posts]. unfold vertical. cbn [btilt post].
  rewrite no_tilt. cbn [negb andb fst snd add_group]. unfold pair_similar. cbn [nth posts]. rewrite post_equal.
  fold (post 1 0) (post 3 5) (post 1 10). rewrite !post_other by lra. cbn [andb orb add_group app]. rewrite post_similar. reflexivity.
Qed.

Lemma post_value alpha t ki : 0 < alpha -> 0 < t -> exists m,
  sim_matrix skew_tol skew_dis (posts 3) post_ns post_rs (kernel_v alpha t) ki = Some m /\
  m 5%nat 2%nat = fls t alpha 5 50 1 50 53 true true.
Proof.
  intros Ha Ht. assert (Td : 0 < skew_dis) by (unfold skew_dis; lra).
  destruct (sim_vertical alpha t skew_tol skew_dis 1 100 (posts 3) post_ns post_rs ki) as [m [E Z]]; auto.
  { apply post_segmented. } { apply post_field; lra. } { apply post_ratios. } { apply (post_grid 3); lia. } { apply post_radii. } { apply post_split. } { cbn; lia. }
  exists m. split; auto.
  destruct (Z 5%nat 2%nat ltac:(cbn; lia) ltac:(cbn; lia) 2%nat 1%nat) as [_ S]; try (cbn; lia); try (unfold owns, first; cbn; lia).
  destruct (S ltac:(lia)) as [g [p [i [j [a [b [d [Ig [Ip [Eh [La [Lb [Cm V]]]]]]]]]]]]]. rewrite post_pairs in Ig. cbn [fst] in Ig.
  destruct (post_segs 1 0) as [s0 [s1 [E1 [A1 [A2 [A3 A4]]]]]]. destruct (post_segs 3 5) as [t0 [t1 [E2 [B1 [B2 [B3 B4]]]]]].
  destruct Ig as [<-|[<-|[]]].
  - injection Eh as <- <-. cbn [nth post_ns] in La, Lb. destruct Ip as [<-|[<-|[]]]; cbn [fst snd] in *; unfold first in V; cbn in V.
    + exfalso. destruct V as [[X _]|[X _]]; lia.
    + destruct V as [[X [Y W]]|[X _]]; [|exfalso; lia]. assert (b = 1 /\ a = 0)%nat as [-> ->] by lia. rewrite W.
      apply (class_mean_exact skew_dis _ _ _ Td) in Cm; [|apply post_far]. cbn [nth posts] in Cm. rewrite post_planar in Cm.
      replace d with 5 by (rewrite Cm; unfold Rabs; destruct Rcase_abs; lra).
      unfold kernel_v. cbn. rewrite cos_0. f_equal; lra.
  - injection Eh as <- <-. cbn [nth post_ns] in La, Lb. destruct Ip as [<-|[]]; cbn [fst snd] in *; unfold first in V; cbn in V.
    exfalso. destruct V as [[_ [Y _]]|[_ [Y _]]]; lia.
Qed.

Lemma post_segs_at D x : segments (post D x) 2 (Some [1 / 2; 1 / 2]) = [Bore 50 D (3 / 40) x 0 0 0; Bore 50 (D + 50) (3 / 40) x 0 0 0].
Proof. cbn. unfold mk_bore. rewrite no_tilt, cos_0, sin_0. f_equal; [|f_equal]; f_equal; field. Qed.

Lemma post_detailed alpha t uw : detailed_matrix (line_kernel alpha t uw) (posts 3) post_ns post_rs 5%nat 2%nat = fls t alpha 5 50 3 50 51 true true.
Proof.
  rewrite matrix_response; [|apply post_segmented|apply post_field; lra|apply post_ratios|cbn; lia|cbn; lia].
  unfold bore_segments, posts, post_ns, post_rs. cbn [borehole_segments]. rewrite !post_segs_at. cbn [app nth]. unfold response, planar. cbn [bx by_ bH bD br].
  rewrite line_dist. replace (Rmax (Rabs (5 - 10)) (3 / 40)) with 5; [|rewrite Rmax_left; unfold Rabs; destruct Rcase_abs; lra]. f_equal; try lra.
Qed.

Lemma post_wrong alpha t uw : 0 < alpha -> 0 < t -> exists m,
  sim_matrix skew_tol skew_dis (posts 3) post_ns post_rs (kernel_v alpha t) (kernel_i alpha t uw) = Some m /\
  m 5%nat 2%nat < detailed_matrix (line_kernel alpha t uw) (posts 3) post_ns post_rs 5%nat 2%nat.
Proof.
  intros Ha Ht. destruct (post_value alpha t (kernel_i alpha t uw) Ha Ht) as [m [E V]]. exists m. split; auto. rewrite V, post_detailed.
  pose proof (fls_apart t alpha 5 50 1 2) as F. replace (1 + 50 + 2) with 53 in F by ring. replace (1 + 2) with 3 in F by ring. replace (1 + 50) with 51 in F by ring.
  apply F; lra.
Qed.

(** the same fields, for the other statements *)
Lemma post_depths : depths_apart skew_tol (posts 1) post_ns post_rs.
Proof.
  intros i a b Hi Ha Hb N. cbv zeta. destruct i as [|[|[|i]]]; cbn in Hi, Ha, Hb; try lia; cbn [nth posts post_ns post_rs]; rewrite post_segs_at;
    pose proof tiny_pos as T; unfold tiny in T; unfold skew_tol;
    destruct a as [|[|a]], b as [|[|b]]; try lia; cbn [nth bD]; unfold Rabs; repeat destruct Rcase_abs; try lra.
Qed.
