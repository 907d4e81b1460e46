(** Three inclined boreholes in a row: two point one way, the last one the other way. *)
From Coq Require Import Reals Lra Lia List Bool Psatz.
From Verif Require Import Base FLS_Model FLS_Spec FLS_Proofs FLS_Incl_Proofs FLS_Exact_Proofs.
From Verif Require Import Bore_Model Solve_Model Detailed_Model Detailed_Spec Detailed_Proofs Sim_Model Sim_Spec Sim_Incl_Proofs.
Local Open Scope R_scope.

Definition skew (x o : R) : bore := Bore 100 4 (3 / 40) x 0 (PI / 6) o.
Definition skew_field : list bore := [skew 0 (PI / 3); skew 5 (PI / 3); skew 10 (- (PI / 3))].
Definition skew_ns : list nat := [1; 1; 1]%nat.
Definition skew_rs : list (list R) := [[1]; [1]; [1]].
Definition skew_tol : R := / 10 ^ 6.
Definition skew_dis : R := 1 / 100.

Lemma near_true a b c tol : 0 < tol -> a = b -> Rltb (Rabs (a - b) / c) tol = true.
Proof. intros Ht ->. apply Rltb_true. rewrite Rminus_eq_0, Rabs_R0. unfold Rdiv. lra. Qed.

Lemma near_true' a b c tol : 0 < tol -> a = b -> Rltb (Rabs ((a - b) / c)) tol = true.
Proof. intros Ht ->. apply Rltb_true. rewrite Rminus_eq_0. unfold Rdiv. rewrite Rmult_0_l, Rabs_R0. auto. Qed.

Lemma skew_tilted : tilted (PI / 6) = true.
Proof. apply Rltb_true. pose proof PI2_3_2. rewrite Rabs_right by lra. lra. Qed.

Lemma skew_equal : equal_ratios skew_ns skew_rs = true.
Proof.
  unfold equal_ratios, skew_ns, skew_rs. cbn. unfold allclose. cbn.
  assert (E : Rleb (Rabs (1 - 1)) (/ 10 ^ 8 + / 10 ^ 5 * Rabs 1) = true).
  { apply Rleb_true. rewrite Rminus_eq_0, Rabs_R0, Rabs_R1. lra. }
  cbn in E. rewrite E. auto.
Qed.

Lemma skew_bores x o x' o' : compare_boreholes skew_tol (skew x o) (skew x' o') = true.
Proof.
  unfold compare_boreholes, skew, skew_tol. cbn [bH br bD btilt]. assert (0 < / 10 ^ 6) by lra.
  rewrite !near_true' by auto. rewrite near_true by auto. auto.
Qed.

Lemma skew_self : self_groups skew_tol skew_field skew_ns skew_rs = ([], [[0; 1; 2]]%nat).
Proof.
  unfold self_groups. cbn [length skew_field Nat.ltb Nat.leb seq fold_left]. unfold self_step. cbn [nth skew_field]. unfold vertical. cbn [btilt skew].
  rewrite skew_tilted. cbn [negb fst snd add_group]. unfold self_similar. cbn [nth skew_field]. rewrite skew_equal. cbn [add_group]. repeat (rewrite skew_bores; cbn [andb orb add_group app]). reflexivity.
Qed.

Lemma from_half dx o : dx < 0 -> cos o = 1 / 2 -> cos_from dx 0 o = - (1 / 2).
Proof.
  intros N E. unfold cos_from. replace (Reqb dx 0) with false by (symmetry; apply Reqb_false; lra). cbn [andb]. rewrite E.
  replace (dx ^ 2 + 0 ^ 2) with (Rsqr dx) by (unfold Rsqr; ring). rewrite sqrt_Rsqr_abs, Rabs_left by auto. field. lra.
Qed.

Lemma line_dist x y : sqrt ((x - y) ^ 2 + (0 - 0) ^ 2) = Rabs (x - y).
Proof. replace ((x - y) ^ 2 + (0 - 0) ^ 2) with (Rsqr (x - y)) by (unfold Rsqr; ring). apply sqrt_Rsqr_abs. Qed.

Lemma skew_cmp x o x' o' y p y' p' : x < x' -> y < y' -> cos o = 1 / 2 -> cos o' = 1 / 2 -> cos p = 1 / 2 -> cos p' = 1 / 2 ->
  compare_inclined skew_tol skew_dis (skew x o, skew x' o') (skew y p, skew y' p')
  = Rltb (Rabs (Rabs (x - x') - Rabs (y - y')) / (Rabs (Rabs (x - x')) + tiny)) skew_dis.
Proof.
  intros Hx Hy A B C D. assert (0 < skew_tol) by (unfold skew_tol; lra).
  unfold compare_inclined, cond_H. cbn [fst snd skew bH bD bx by_ btilt bori]. rewrite !line_dist.
  replace (0 - 0) with 0 by ring. rewrite !from_half by (auto; lra). rewrite !near_true' by auto.
  rewrite (near_true 4 4), (near_true (Rabs (PI / 6)) (Rabs (PI / 6))), (near_true (sin (PI / 6) * - (1 / 2)) (sin (PI / 6) * - (1 / 2))) by auto.
  rewrite !andb_true_r. auto.
Qed.

Lemma skew_not x o x' o' y p y' p' :
  Rltb (Rabs (Rabs (x - x') - Rabs (y - y')) / (Rabs (Rabs (x - x')) + tiny)) skew_dis = false ->
  compare_inclined skew_tol skew_dis (skew x o, skew x' o') (skew y p, skew y' p') = false.
Proof.
  intros E. unfold compare_inclined. cbn [fst snd skew bx by_]. rewrite !line_dist, E. rewrite !andb_false_r. auto.
Qed.

Lemma cos_q : cos (PI / 3) = 1 / 2.
Proof. apply cos_PI3. Qed.
Lemma cos_mq : cos (- (PI / 3)) = 1 / 2.
Proof. rewrite cos_neg. apply cos_PI3. Qed.

Lemma tiny_pos : 0 < tiny < / 10 ^ 6.
Proof. unfold tiny. split; [apply Rinv_0_lt_compat, pow_lt; lra|]. apply Rinv_lt_contravar; [apply Rmult_lt_0_compat; apply pow_lt; lra|]. apply Rlt_pow; [lra|lia]. Qed.

Lemma skew_pairs : pair_groups skew_tol skew_dis skew_field skew_ns skew_rs = ([], [[(0, 1); (1, 2)]; [(0, 2)]]%nat).
Proof.
  pose proof tiny_pos as T. assert (Td : 0 < skew_dis) by (unfold skew_dis; lra).
  assert (N : Rltb (Rabs (Rabs (0 - 10) - Rabs (0 - 5)) / (Rabs (Rabs (0 - 10)) + tiny)) skew_dis = false).
  { apply Rltb_false. rewrite (Rabs_left1 (0 - 10)), (Rabs_left1 (0 - 5)) by lra. rewrite !Rabs_right by lra. unfold skew_dis.
    apply Rmult_le_reg_r with (- (0 - 10) + tiny); [lra|]. unfold Rdiv at 2. rewrite Rmult_assoc, Rinv_l by lra. lra. }
  assert (N' : Rltb (Rabs (Rabs (10 - 0) - Rabs (0 - 5)) / (Rabs (Rabs (10 - 0)) + tiny)) skew_dis = false).
  { rewrite (Rabs_minus_sym 10 0). auto. }
  assert (Y : Rltb (Rabs (Rabs (5 - 10) - Rabs (0 - 5)) / (Rabs (Rabs (5 - 10)) + tiny)) skew_dis = true).
  { apply near_true; auto. f_equal. ring. }
  pose proof cos_q. pose proof cos_mq.
  unfold pair_groups. change (Nat.ltb 1 (length skew_field)) with true. cbv iota.
  change (index_pairs (length skew_field)) with [(0, 1); (0, 2); (1, 2)]%nat. cbn [fold_left]. unfold pair_step. cbn [nth skew_field]. unfold vertical. cbn [btilt skew].
  rewrite skew_tilted. cbn [negb andb fst snd add_group]. unfold pair_similar. cbn [nth skew_field]. rewrite skew_equal.
  cbn [add_group]. fold (skew 0 (PI / 3)) (skew 5 (PI / 3)) (skew 10 (- (PI / 3))).
  rewrite !(skew_not _ _ _ _ _ _ _ _ N), !(skew_not _ _ _ _ _ _ _ _ N'). cbn [andb orb add_group app].
  rewrite skew_cmp by (auto; lra). rewrite Y. reflexivity.
Qed.

Notation skew_seg k := (hd no_bore (segments (nth k skew_field no_bore) 1 (Some [1]))).

Lemma skew_matrix kv ki : exists m, sim_matrix skew_tol skew_dis skew_field skew_ns skew_rs kv ki = Some m /\
  m 2%nat 1%nat = ki (skew_seg 0, skew_seg 1).
Proof.
  unfold sim_matrix, self_vertical, self_inclined, pair_inclined. rewrite skew_self, skew_pairs. cbn [fst snd].
  eexists. split; reflexivity.
Qed.

Notation skew_bh x o := (mkbh 100 4 (3 / 40) x 0 (PI / 6) o).

Lemma seg_one x o : to_bh (hd no_bore (segments (skew x o) 1 (Some [1]))) = skew_bh x o.
Proof. cbn. unfold mk_bore, to_bh. rewrite skew_tilted. cbn. f_equal; ring. Qed.

(** sin of the tilt, and cos and sin of the orientation *)
Lemma skew_dist x o x' o' xi v : cos o = 1 / 2 -> cos o' = 1 / 2 -> x' = x + 5 ->
  dist2 (point (skew_bh x o) xi) (point (skew_bh x' o') v)
  = (5 - 1 / 4 * (xi - v)) ^ 2 + 1 / 4 * (xi * sin o - v * sin o') ^ 2 + 3 / 4 * (xi - v) ^ 2 /\
  dist2 (mirror (point (skew_bh x o) xi)) (point (skew_bh x' o') v)
  = (5 - 1 / 4 * (xi - v)) ^ 2 + 1 / 4 * (xi * sin o - v * sin o') ^ 2 + (8 + cos (PI / 6) * (xi + v)) ^ 2.
Proof.
  intros E E' ->. unfold dist2, mirror, point. cbn [fst snd b_x b_y b_D b_tilt b_ori]. rewrite E, E', sin_PI6.
  assert (C2 : cos (PI / 6) ^ 2 = 3 / 4). { rewrite cos_PI6. replace ((sqrt 3 / 2) ^ 2) with (sqrt 3 ^ 2 / 4) by field. rewrite pow2_sqrt by lra. lra. }
  rewrite <- C2. split; field.
Qed.

Lemma skew_far x o x' o' : x' = x + 5 -> wall_excess (skew_bh x o) (skew_bh x' o') = 0.
Proof. intros ->. unfold wall_excess. cbn [b_r b_x b_y]. apply Rmax_left. replace (x - (x + 5)) with (-5) by ring. pose proof (pow2_ge_0 (0 - 0)). nra. Qed.

Lemma skew_margin x o x' o' xi v : cos o = 1 / 2 -> cos o' = 1 / 2 -> x' = x + 5 ->
  1 <= dist2 (point (skew_bh x o) xi) (point (skew_bh x' o') v) /\
  (0 <= xi -> 0 <= v -> 1 <= dist2 (mirror (point (skew_bh x o) xi)) (point (skew_bh x' o') v)).
Proof.
  intros E E' X. destruct (skew_dist x o x' o' xi v E E' X) as [-> ->].
  pose proof (pow2_ge_0 (xi * sin o - v * sin o')). split.
  { set (w := xi - v). pose proof (pow2_ge_0 (w - 3 / 2)). set (q := (xi * sin o - v * sin o') ^ 2) in *. nra. }
  intros Hx Hv.
  assert (0 < cos (PI / 6)) by (pose proof PI2_3_2; apply cos_gt_0; lra). assert (0 <= cos (PI / 6) * (xi + v)) by (apply Rmult_le_pos; lra).
  pose proof (pow2_ge_0 (5 - 1 / 4 * (xi - v))). set (z := cos (PI / 6) * (xi + v)) in *. assert (64 <= (8 + z) ^ 2) by nra. lra.
Qed.

Lemma skew_clear uw x o x' o' : cos o = 1 / 2 -> cos o' = 1 / 2 -> x' = x + 5 -> (sin o = sin o' \/ sin o = - sin o') ->
  clear_nodes uw (skew_bh x o) (skew_bh x' o') true true.
Proof.
  intros E E' X Hs c Hc. rewrite skew_far by auto. split; intros _ v; cbn [b_H].
  - destruct (skew_margin x o x' o' (fst c * 100) v E E' X) as [A _]. lra.
  - set (xi := fst c * 100). destruct (skew_dist x o x' o' xi v E E' X) as [_ ->]. rewrite Rplus_0_l.
    assert (S2 : sin o' ^ 2 = 3 / 4). { pose proof (sin2_cos2 o') as Q. unfold Rsqr in Q. rewrite E' in Q. lra. }
    pose proof (pow2_ge_0 (5 - 1 / 4 * (xi - v))). pose proof (pow2_ge_0 (8 + cos (PI / 6) * (xi + v))).
    destruct Hs as [->| ->].
    + replace (1 / 4 * (xi * sin o' - v * sin o') ^ 2) with (1 / 4 * sin o' ^ 2 * (xi - v) ^ 2) by ring. rewrite S2. set (w := xi - v) in *. pose proof (pow2_ge_0 (w - 5)). nra.
    + replace (1 / 4 * (xi * - sin o' - v * sin o') ^ 2) with (1 / 4 * sin o' ^ 2 * (xi + v) ^ 2) by ring. rewrite S2.
      destruct (Req_dec (xi + v) 0) as [Z|Z]; [rewrite Z; nra|]. assert (0 < (xi + v) ^ 2) by (replace ((xi + v) ^ 2) with (Rsqr (xi + v)) by (unfold Rsqr; ring); apply Rsqr_pos_lt; auto). nra.
Qed.

Lemma skew_pd s xi v : 0 < s -> 0 < xi -> 0 < v ->
  pd (skew_bh 5 (PI / 3)) (skew_bh 10 (- (PI / 3))) s xi v < pd (skew_bh 0 (PI / 3)) (skew_bh 5 (PI / 3)) s xi v.
Proof.
  intros Hs Hx Hv. pose proof cos_q as CQ. pose proof cos_mq as CM. pose proof PI2_3_2. assert (CP : 0 < cos (PI / 6)) by (apply cos_gt_0; lra).
  assert (C2 : cos (PI / 6) ^ 2 = 3 / 4). { rewrite cos_PI6. replace ((sqrt 3 / 2) ^ 2) with (sqrt 3 ^ 2 / 4) by field. rewrite pow2_sqrt by lra. lra. }
  unfold pd, pair_source. rewrite !skew_far by lra.
  destruct (skew_dist 5 (PI / 3) 10 (- (PI / 3)) xi v CQ CM ltac:(lra)) as [-> ->]. destruct (skew_dist 0 (PI / 3) 5 (PI / 3) xi v CQ CQ ltac:(lra)) as [-> ->].
  assert (S2 : sin (PI / 3) ^ 2 = 3 / 4). { pose proof (sin2_cos2 (PI / 3)) as Q. unfold Rsqr in Q. rewrite CQ in Q. lra. }
  rewrite sin_neg. set (S := sin (PI / 3)) in *. set (C := cos (PI / 6)) in *. unfold point_source. rewrite !Rplus_0_l.
  replace (1 / 4 * (xi * S - v * - S) ^ 2) with (1 / 4 * S ^ 2 * (xi + v) ^ 2) by ring. replace (1 / 4 * (xi * S - v * S) ^ 2) with (1 / 4 * S ^ 2 * (xi - v) ^ 2) by ring. rewrite S2.
  set (A := (5 - 1 / 4 * (xi - v)) ^ 2).
  rewrite !(Rmult_plus_distr_l (- s ^ 2) (A + _)), !exp_plus, <- !Rmult_minus_distr_l.
  assert (0 < s ^ 2) by (apply pow_lt; auto). assert (0 < xi * v) by (apply Rmult_lt_0_compat; auto).
  apply Rmult_lt_compat_r.
  - assert (L : - s ^ 2 * (8 + C * (xi + v)) ^ 2 < - s ^ 2 * (3 / 4 * (xi - v) ^ 2)).
    { assert (3 / 4 * (xi - v) ^ 2 < (8 + C * (xi + v)) ^ 2); [|nra].
      assert (0 < C * (xi + v)) by (apply Rmult_lt_0_compat; lra).
      replace ((8 + C * (xi + v)) ^ 2) with (64 + 16 * (C * (xi + v)) + C ^ 2 * (xi + v) ^ 2) by ring. rewrite C2. nra. }
    apply exp_increasing in L. lra.
  - apply exp_increasing. assert (A + 1 / 4 * (3 / 4) * (xi - v) ^ 2 < A + 1 / 4 * (3 / 4) * (xi + v) ^ 2) by nra. nra.
Qed.

Lemma skew_lt uw alpha t : good_rule uw -> 0 < alpha -> 0 < t ->
  fls_inclined (skew_bh 5 (PI / 3)) (skew_bh 10 (- (PI / 3))) (rule uw) t alpha true true
  < fls_inclined (skew_bh 0 (PI / 3)) (skew_bh 5 (PI / 3)) (rule uw) t alpha true true.
Proof.
  intros [Nu W] Ha Ht. pose proof cos_q as CQ. pose proof cos_mq as CM.
  apply rule_lt; auto; try (cbn; lra).
  - intros. apply W; auto.
  - apply skew_clear; auto; [lra|right; rewrite sin_neg; ring].
  - apply skew_clear; auto; lra.
  - intros c s v Hc Hs Hv. cbn [b_H] in *. destruct (W c Hc) as [Hu _]. apply skew_pd; lra.
Qed.

Lemma skew_exact_lt alpha t : 0 < alpha -> 0 < t ->
  fls_inclined (skew_bh 5 (PI / 3)) (skew_bh 10 (- (PI / 3))) exact t alpha true true
  < fls_inclined (skew_bh 0 (PI / 3)) (skew_bh 5 (PI / 3)) exact t alpha true true.
Proof.
  intros Ha Ht. pose proof cos_q as CQ. pose proof cos_mq as CM.
  apply (exact_lt _ _ _ _ 1); auto; try (cbn; lra).
  - intros xi v Hx Hv. rewrite skew_far by lra. destruct (skew_margin 5 (PI / 3) 10 (- (PI / 3)) xi v) as [A B]; auto; [lra|]. specialize (B ltac:(lra) ltac:(lra)). lra.
  - intros xi v Hx Hv. rewrite skew_far by lra. destruct (skew_margin 0 (PI / 3) 5 (PI / 3) xi v) as [A B]; auto; [lra|]. specialize (B ltac:(lra) ltac:(lra)). lra.
  - intros s xi v Hs Hx Hv. apply skew_pd; lra.
Qed.

Lemma skew_all : borehole_segments skew_field skew_ns skew_rs = [skew_seg 0; skew_seg 1; skew_seg 2].
Proof. reflexivity. Qed.

Lemma skew_wrong uw alpha t kv : good_rule uw -> 0 < alpha -> 0 < t -> exists m,
  sim_matrix skew_tol skew_dis skew_field skew_ns skew_rs kv (kernel_i alpha t uw) = Some m /\
  kernel_i alpha t uw (skew_seg 1, skew_seg 2) < m 2%nat 1%nat.
Proof.
  intros G Ha Ht. destruct (skew_matrix kv (kernel_i alpha t uw)) as [m [E V]]. exists m. split; auto.
  rewrite V. unfold kernel_i. cbn [fst snd nth skew_field]. rewrite !seg_one. apply skew_lt; auto.
Qed.

Lemma skew_wrong_exact alpha t kv : 0 < alpha -> 0 < t -> exists m,
  sim_matrix skew_tol skew_dis skew_field skew_ns skew_rs kv (kernel_exact alpha t) = Some m /\
  kernel_exact alpha t (skew_seg 1, skew_seg 2) < m 2%nat 1%nat.
Proof.
  intros Ha Ht. destruct (skew_matrix kv (kernel_exact alpha t)) as [m [E V]]. exists m. split; auto.
  rewrite V. unfold kernel_exact. cbn [fst snd nth skew_field]. rewrite !seg_one. apply skew_exact_lt; auto.
Qed.
