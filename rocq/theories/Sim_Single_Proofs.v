(** A field of a single inclined borehole. *)
From Coq Require Import Reals Lra Lia List Bool Psatz.
From Verif Require Import Base FLS_Model FLS_Spec FLS_Proofs FLS_Incl_Proofs FLS_Exact_Proofs.
From Verif Require Import Bore_Model Solve_Model Detailed_Model Detailed_Spec Sim_Model Sim_Spec Sim_Incl_Proofs.
Local Open Scope R_scope.

Lemma single_kinds tol bs ns rs : length bs = 1%nat -> self_groups tol bs ns rs = ([[0%nat]], []).
Proof. intros E. unfold self_groups. rewrite E. auto. Qed.

Lemma single_any tol disTol b n r kv ki ki' : sim_matrix tol disTol [b] [n] [r] kv ki = sim_matrix tol disTol [b] [n] [r] kv ki'.
Proof. reflexivity. Qed.

Lemma single_value tol disTol b kv ki : exists m s, sim_matrix tol disTol [b] [1%nat] [[1]] kv ki = Some m /\
  m O O = kv (br b) (s, s) /\ bH s = bH b /\ bD s = bD b.
Proof.
  eexists. exists (hd no_bore (segments b 1 (Some [1]))). split; [reflexivity|]. split; [reflexivity|].
  cbn. unfold mk_bore. split; cbn; ring.
Qed.

Section Tilted.
  Variable b : bh.
  Hypotheses (PH : 0 < b_H b) (PD : 0 < b_D b) (Pr : 0 < b_r b) (T : 0 < b_tilt b <= PI / 2).
  Definition stand (b : bh) : bh := mkbh (b_H b) (b_D b) (b_r b) (b_x b) (b_y b) 0 (b_ori b).

  Lemma self_excess c : wall_excess c c = b_r c ^ 2.
  Proof. unfold wall_excess. rewrite Rmax_right; [ring|]. pose proof (pow2_ge_0 (b_r c)). lra. Qed.

  Lemma self_margin c : margin c c (b_r c ^ 2).
  Proof.
    intros xi v _ _. rewrite self_excess. pose proof (dist2_pos (point c xi) (point c v)). pose proof (dist2_pos (mirror (point c xi)) (point c v)). lra.
  Qed.

  Lemma self_real c xi v : dist2 (point c xi) (point c v) = (xi - v) ^ 2.
  Proof.
    unfold dist2, point. cbn [fst snd]. pose proof (unit_dir (b_tilt c) (b_ori c)) as U.
    transitivity ((xi - v) ^ 2 * (sin (b_tilt c) ^ 2 * (cos (b_ori c) ^ 2 + sin (b_ori c) ^ 2) + cos (b_tilt c) ^ 2)); [ring|]. rewrite U. ring.
  Qed.

  Lemma self_image c xi v : dist2 (mirror (point c xi)) (point c v)
    = (xi - v) ^ 2 * (1 - cos (b_tilt c) ^ 2) + (2 * b_D c + (xi + v) * cos (b_tilt c)) ^ 2.
  Proof.
    unfold dist2, mirror, point. cbn [fst snd]. pose proof (unit_dir (b_tilt c) (b_ori c)) as U.
    transitivity ((xi - v) ^ 2 * (sin (b_tilt c) ^ 2 * (cos (b_ori c) ^ 2 + sin (b_ori c) ^ 2)) + (2 * b_D c + (xi + v) * cos (b_tilt c)) ^ 2); [ring|].
    replace (sin (b_tilt c) ^ 2 * (cos (b_ori c) ^ 2 + sin (b_ori c) ^ 2)) with (1 - cos (b_tilt c) ^ 2) by lra. ring.
  Qed.

  Lemma tilt_lower time alpha : 0 < alpha -> 0 < time ->
    fls_inclined b b exact time alpha true true < fls time alpha (b_r b) (b_H b) (b_D b) (b_H b) (b_D b) true true.
  Proof.
    intros Ha Ht.
    assert (E : fls_inclined (stand b) (stand b) exact time alpha true true = fls time alpha (b_r b) (b_H b) (b_D b) (b_H b) (b_D b) true true).
    { rewrite up_transient; auto; try reflexivity; [|cbn; lra|discriminate]. f_equal. unfold bh_distance, stand. cbn.
      apply Rmax_left. replace ((b_x b - b_x b) * ((b_x b - b_x b) * 1) + (b_y b - b_y b) * ((b_y b - b_y b) * 1)) with 0 by ring. rewrite sqrt_0. lra. }
    rewrite <- E. assert (Q : 0 < b_r b ^ 2) by (apply pow_lt; auto).
    assert (C : 0 <= cos (b_tilt b) < 1).
    { split; [apply cos_ge_0; lra|]. rewrite <- cos_0. apply cos_decreasing_1; pose proof PI_RGT_0; lra. }
    apply (exact_lt b b (stand b) (stand b) (b_r b ^ 2)); auto; [apply self_margin|apply (self_margin (stand b))|].
    intros s xi v Hs Hx Hv. unfold pd, pair_source. rewrite !self_excess. cbn [stand b_r]. rewrite !self_real, !self_image. cbn [stand b_tilt b_D].
    rewrite cos_0. unfold point_source.
    match goal with |- _ - exp ?x < _ - exp ?y => assert (y < x); [|pose proof (exp_increasing y x H); lra] end.
    set (c := cos (b_tilt b)) in *. set (D := b_D b) in *.
    assert ((xi - v) ^ 2 * (1 - c ^ 2) + (2 * D + (xi + v) * c) ^ 2 < (xi - v) ^ 2 * (1 - 1 ^ 2) + (2 * D + (xi + v) * 1) ^ 2).
    { assert (0 < D * (xi + v) * (1 - c)) by (repeat apply Rmult_lt_0_compat; lra).
      assert (0 <= xi * v * (1 - c ^ 2)) by (repeat apply Rmult_le_pos; nra). nra. }
    assert (0 < s ^ 2) by (apply pow_lt; auto). nra.
  Qed.
End Tilted.
