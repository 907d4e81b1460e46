(** The solutions as superpositions in time of heat kernels. *)
From Coq Require Import Reals Lra Lia List Bool Psatz.
From Verif Require Import Base FLS_Model FLS_Spec FLS_Erf_Proofs FLS_Proofs FLS_Sol_Proofs FLS_Line_Proofs FLS_Incl_Proofs FLS_More_Proofs.
From Coquelicot Require Import Coquelicot.
Local Open Scope R_scope.

Section Any.
  Variable f : R -> R.
  Hypothesis conv : forall a, 0 < a -> converges f a.
  Hypothesis cont : forall s, 0 < s -> continuous f s.

  Lemma quad_derive a : 0 < a -> is_derive (quad_inf f) a (- f a).
  Proof.
    intros Ha. set (a0 := a / 2). assert (H0 : 0 < a0) by (unfold a0; lra).
    apply (is_derive_ext_loc (fun x => quad_inf f a0 - RInt f a0 x)).
    - exists (mkposreal a0 H0). intros y Hy. apply Rabs_def2 in Hy. unfold minus, plus, opp in Hy. simpl in Hy.
      assert (Ly : a0 <= y) by (unfold a0 in *; lra). destruct (quad_chasles f a0 y Ly (conv a0 H0)) as [_ E]. rewrite E. eqR. ring.
    - replace (- f a) with (0 - f a) by ring.
      apply (is_derive_minus (fun _ => quad_inf f a0) (fun x => RInt f a0 x) a 0 (f a)); [apply @is_derive_const|].
      apply (is_derive_RInt f (fun x => RInt f a0 x) a0 a).
      + exists (mkposreal a0 H0). intros y Hy. apply Rabs_def2 in Hy. unfold minus, plus, opp in Hy. simpl in Hy.
        apply (@RInt_correct R_CompleteNormedModule f a0 y). apply (proj1 (conv a0 H0)). unfold a0 in *; lra.
      + apply cont; auto.
  Qed.

  Lemma lower_derive alpha t : 0 < alpha -> 0 < t -> is_derive (lower alpha) t (- lower alpha t / (2 * t)).
  Proof.
    intros Ha Ht. assert (P : 0 < 4 * alpha * t) by (apply Rmult_lt_0_compat; lra). pose proof (sqrt_lt_R0 _ P) as S.
    unfold lower. auto_derive.
    - repeat split; auto; lra.
    - replace (2 * t) with (sqrt (4 * alpha * t) ^ 2 / (2 * alpha)) by (rewrite pow2_sqrt by lra; field; lra). field. split; lra.
  Qed.

  Lemma quad_time alpha t : 0 < alpha -> 0 < t ->
    is_derive (fun t => quad_inf f (lower alpha t)) t (f (lower alpha t) * lower alpha t / (2 * t)).
  Proof.
    intros Ha Ht. pose proof (lower_pos alpha t Ha Ht) as L.
    replace (f (lower alpha t) * lower alpha t / (2 * t)) with (scal (- lower alpha t / (2 * t)) (- f (lower alpha t))).
    - apply (is_derive_comp (quad_inf f) (lower alpha)); [apply quad_derive; auto|apply lower_derive; auto].
    - unfold scal; cbn. unfold mult; cbn. field. lra.
  Qed.

  (** nothing at the initial time *)
  Lemma quad_start alpha : 0 < alpha -> filterlim (fun t => quad_inf f (lower alpha t)) (at_right 0) (locally 0).
  Proof.
    intros Ha.
    assert (L : filterlim (quad_inf f) (Rbar_locally' p_infty) (locally 0)).
    { assert (Z : is_lim (fun a => quad_inf f 1 - RInt f 1 a) p_infty (quad_inf f 1 - quad_inf f 1)).
      { apply (is_lim_minus _ _ _ (quad_inf f 1) (quad_inf f 1)); [apply is_lim_const|apply quad_is, conv; lra|reflexivity]. }
      replace (quad_inf f 1 - quad_inf f 1) with 0 in Z by ring.
      apply (is_lim_ext_loc (fun a => quad_inf f 1 - RInt f 1 a) (quad_inf f) p_infty 0); [|exact Z].
      apply (after 1). intros b Hb. destruct (quad_chasles f 1 b Hb (conv 1 ltac:(lra))) as [_ E]. rewrite E. ring. }
    apply (filterlim_comp _ _ _ (lower alpha) (quad_inf f) (at_right 0) (Rbar_locally' p_infty) (locally 0)); auto.
    intros P [M HM]. set (m := Rmax 1 M). assert (Hm : 1 <= m) by apply Rmax_l. assert (HmM : M <= m) by apply Rmax_r.
    assert (E0 : 0 < / (16 * alpha * m ^ 2)).
    { apply Rinv_0_lt_compat. apply Rmult_lt_0_compat; [lra|]. apply pow_lt. lra. }
    exists (mkposreal _ E0). intros y Hy Py. apply HM. apply Rabs_def2 in Hy. unfold minus, plus, opp in Hy. simpl in Hy.
    assert (B : y < / (16 * alpha * m ^ 2)) by (simpl; lra).
    unfold lower. assert (P4 : 0 < 4 * alpha * y) by (apply Rmult_lt_0_compat; lra).
    assert (S : sqrt (4 * alpha * y) < / m).
    { rewrite <- (sqrt_pow2 (/ m)) by (left; apply Rinv_0_lt_compat; lra). apply sqrt_lt_1; [lra|apply pow2_ge_0|].
      apply (Rmult_lt_compat_l (4 * alpha)) in B; [|lra]. eapply Rlt_trans; [exact B|].
      rewrite <- Rinv_pow by lra. assert (0 < / m ^ 2) by (apply Rinv_0_lt_compat, pow_lt; lra).
      replace (4 * alpha * / (16 * alpha * m ^ 2)) with (/ m ^ 2 / 4) by (field; split; lra). lra. }
    eapply Rle_lt_trans; [exact HmM|]. rewrite <- (Rinv_inv m). unfold Rdiv. rewrite Rmult_1_l.
    apply Rinv_lt_contravar; auto. apply Rmult_lt_0_compat; [apply sqrt_lt_R0; auto|apply Rinv_0_lt_compat; lra].
  Qed.
End Any.

Lemma heat_ps alpha t rho2 : 0 < alpha -> 0 < t ->
  heat_kernel alpha t rho2 = (lower alpha t / sqrt PI) ^ 3 * point_source (lower alpha t) rho2.
Proof.
  intros Ha Ht. assert (P : 0 < 4 * alpha * t) by (apply Rmult_lt_0_compat; lra). pose proof (sqrt_lt_R0 _ P) as S.
  pose proof PI_RGT_0 as PP. pose proof (sqrt_lt_R0 _ PP) as SP.
  unfold heat_kernel, point_source, lower. replace (4 * PI * alpha * t) with (PI * (4 * alpha * t)) by ring. rewrite sqrt_mult by lra.
  replace (- (1 / sqrt (4 * alpha * t)) ^ 2 * rho2) with (- rho2 / (4 * alpha * t)).
  - field. split; lra.
  - replace ((1 / sqrt (4 * alpha * t)) ^ 2) with (/ (sqrt (4 * alpha * t) ^ 2)) by (field; lra). rewrite pow2_sqrt by lra. field. split; lra.
Qed.

Lemma heat_const alpha t : 0 < alpha -> 0 < t ->
  (2 / sqrt PI) * (lower alpha t / (2 * t)) = 4 * PI * alpha * (lower alpha t / sqrt PI) ^ 3.
Proof.
  intros Ha Ht. assert (P : 0 < 4 * alpha * t) by (apply Rmult_lt_0_compat; lra). pose proof (sqrt_lt_R0 _ P) as S.
  pose proof PI_RGT_0 as PP. pose proof (sqrt_lt_R0 _ PP) as SP.
  assert (Q : lower alpha t ^ 2 * (4 * alpha * t) = 1).
  { unfold lower. rewrite <- (pow2_sqrt (4 * alpha * t)) at 2 by lra. field. lra. }
  assert (T : / t = lower alpha t ^ 2 * 4 * alpha) by (apply (Rmult_eq_reg_r t); [rewrite Rinv_l; lra|lra]).
  assert (PS : PI = sqrt PI ^ 2) by (rewrite pow2_sqrt; lra).
  replace (4 * PI * alpha * (lower alpha t / sqrt PI) ^ 3) with (4 * sqrt PI ^ 2 * alpha * (lower alpha t / sqrt PI) ^ 3) by (rewrite <- PS; auto).
  replace (lower alpha t / (2 * t)) with (lower alpha t / 2 * / t) by (field; lra). rewrite T. field. lra.
Qed.

Lemma heat_line_ps rea img alpha t dis H1 D1 H2 D2 : 0 < alpha -> 0 < t ->
  2 / sqrt PI * heat_line rea img alpha t dis H1 D1 H2 D2 = (lower alpha t / sqrt PI) ^ 3 * line_source rea img (lower alpha t) dis H1 D1 H2 D2.
Proof.
  intros Ha Ht. set (s := lower alpha t). set (k := (s / sqrt PI) ^ 3). pose proof (lower_pos alpha t Ha Ht) as L. fold s in L.
  unfold heat_line, line_source.
  assert (I : forall z, RInt (fun z' =>
    (if rea then heat_kernel alpha t (dis ^ 2 + (z - z') ^ 2) else 0)
    - (if img then heat_kernel alpha t (dis ^ 2 + (z + z') ^ 2) else 0)) D1 (D1 + H1) = k * emitted rea img s dis D1 H1 z).
  { intros z. rewrite (RInt_ext _ (fun z' => k * source rea img s dis z z')).
    - etransitivity; [apply (RInt_scal (source rea img s dis z) D1 (D1 + H1) k)|].
      + apply (ex_RInt_continuous (source rea img s dis z)); intros; apply source_cont.
      + rewrite source_RInt by lra. reflexivity.
    - intros z' _. unfold source. eqR. destruct rea, img; rewrite ?heat_ps by auto; fold s; fold k; ring. }
  rewrite (RInt_ext _ (fun z => k * emitted rea img s dis D1 H1 z)) by (intros; apply I).
  assert (J : RInt (fun z => k * emitted rea img s dis D1 H1 z) D2 (D2 + H2) = k * RInt (emitted rea img s dis D1 H1) D2 (D2 + H2)).
  { apply (RInt_scal (emitted rea img s dis D1 H1) D2 (D2 + H2) k).
    apply (ex_RInt_continuous (emitted rea img s dis D1 H1)); intros; apply emitted_cont. }
  rewrite J, (RInt_ext (fun z => RInt (fun z' => source rea img s dis z z') D1 (D1 + H1)) (emitted rea img s dis D1 H1)).
  - eqR. ring.
  - intros z _. apply source_RInt. lra.
Qed.

Lemma fls_heat time alpha dis H1 D1 H2 D2 rea img : 0 < alpha -> 0 < time -> dis <> 0 -> H2 <> 0 ->
  is_derive (fun t => fls t alpha dis H1 D1 H2 D2 rea img) time (2 * PI * alpha / H2 * heat_line rea img alpha time dis H1 D1 H2 D2).
Proof.
  intros Ha Ht Hd Hh. pose proof (lower_pos alpha time Ha Ht) as L. pose proof PI_RGT_0 as PP. pose proof (sqrt_lt_R0 _ PP) as SP.
  assert (D : is_derive (fun t => quad_inf (fls_integrand dis H1 D1 H2 D2 rea img) (lower alpha t)) time
              (fls_integrand dis H1 D1 H2 D2 rea img (lower alpha time) * lower alpha time / (2 * time))).
  { apply quad_time; auto; intros; [apply integrand_conv; auto|apply integrand_cont; auto]. }
  apply (is_derive_scal _ time ((1/2) / H2)) in D. unfold fls. eapply is_derive_ext; [|].
  2:{ replace (2 * PI * alpha / H2 * heat_line rea img alpha time dis H1 D1 H2 D2)
        with ((1/2) / H2 * (fls_integrand dis H1 D1 H2 D2 rea img (lower alpha time) * lower alpha time / (2 * time))); [exact D|].
      pose proof (heat_line_ps rea img alpha time dis H1 D1 H2 D2 Ha Ht) as E. pose proof (heat_const alpha time Ha Ht) as K.
      rewrite line_source_eq by lra. set (S := line_source rea img (lower alpha time) dis H1 D1 H2 D2) in *.
      set (X := heat_line rea img alpha time dis H1 D1 H2 D2) in *. set (c := (lower alpha time / sqrt PI) ^ 3) in *.
      assert (E' : X = sqrt PI / 2 * (c * S)) by (rewrite <- E; field; lra). rewrite E'.
      assert (K' : lower alpha time / (2 * time) = sqrt PI / 2 * (4 * PI * alpha * c)) by (rewrite <- K; field; lra).
      replace (S * lower alpha time / (2 * time)) with (S * (lower alpha time / (2 * time))) by (field; lra). rewrite K'. field. auto. }
  intros; reflexivity.
Qed.

Lemma fls_start alpha dis H1 D1 H2 D2 rea img : 0 < alpha -> dis <> 0 ->
  filterlim (fun t => fls t alpha dis H1 D1 H2 D2 rea img) (at_right 0) (locally 0).
Proof.
  intros Ha Hd. unfold fls.
  assert (Q : filterlim (fun t => quad_inf (fls_integrand dis H1 D1 H2 D2 rea img) (lower alpha t)) (at_right 0) (locally 0)).
  { apply quad_start; auto. intros; apply integrand_conv; auto. }
  replace 0 with ((1/2) / H2 * 0) at 2 by ring.
  apply (filterlim_comp _ _ _ (fun t => quad_inf (fls_integrand dis H1 D1 H2 D2 rea img) (lower alpha t)) (fun x => (1/2) / H2 * x) (at_right 0) (locally 0)); auto.
  apply (continuous_mult (fun _ => (1/2) / H2) (fun x => x) 0); [apply continuous_const|apply continuous_id].
Qed.

(** any inclination *)
Lemma heat_seen_ps b1 b2 ex image alpha t u : 0 < alpha -> 0 < t ->
  heat_seen b1 b2 ex image alpha t u = (lower alpha t / sqrt PI) ^ 3 * seen b1 b2 ex image (lower alpha t) u.
Proof.
  intros Ha Ht. unfold heat_seen, seen. set (k := (lower alpha t / sqrt PI) ^ 3).
  set (g := fun v => point_source (lower alpha t) (ex + dist2 (if image then mirror (point b1 (u * b_H b1)) else point b1 (u * b_H b1)) (point b2 v))).
  rewrite (RInt_ext _ (fun v => scal k (g v))) by (intros; apply heat_ps; auto).
  apply (RInt_scal g 0 (b_H b2) k). apply (ex_RInt_continuous g). intros. apply (seen_f_cont b1 b2 ex image (lower alpha t) u).
Qed.

Lemma nodes_heat uw b1 b2 ex image alpha t : 0 < alpha -> 0 < t ->
  nodes_source uw b1 b2 ex image (lower alpha t) * lower alpha t / (2 * t)
  = 4 * PI * alpha * rule uw (fun u => b_H b1 * heat_seen b1 b2 ex image alpha t u).
Proof.
  intros Ha Ht. unfold nodes_source, rule.
  assert (E : Rsum (map (fun c => b_H b1 * heat_seen b1 b2 ex image alpha t (fst c) * snd c) uw)
     = (lower alpha t / sqrt PI) ^ 3 * Rsum (map (fun c => snd c * (b_H b1 * seen b1 b2 ex image (lower alpha t) (fst c))) uw)).
  { rewrite <- Rsum_map_scal. apply Rsum_map_ext. intros c _. rewrite heat_seen_ps by auto. ring. }
  rewrite E. pose proof (heat_const alpha t Ha Ht) as K.
  set (S := Rsum (map (fun c => snd c * (b_H b1 * seen b1 b2 ex image (lower alpha t) (fst c))) uw)) in *.
  rewrite <- Rmult_assoc, <- K. pose proof (sqrt_lt_R0 _ PI_RGT_0). field. repeat split; lra.
Qed.

Lemma incl_heat uw b1 b2 time alpha rea img : 0 < alpha -> 0 < time -> b_H b2 <> 0 -> clear_nodes uw b1 b2 rea img ->
  is_derive (fun t => fls_inclined b1 b2 (rule uw) t alpha rea img) time
    (2 * PI * alpha / b_H b2 *
      ((if rea then rule uw (fun u => b_H b1 * heat_seen b1 b2 (wall_excess b1 b2) false alpha time u) else 0)
       - (if img then rule uw (fun u => b_H b1 * heat_seen b1 b2 (if rea then wall_excess b1 b2 else 0) true alpha time u) else 0))).
Proof.
  intros Ha Ht Hh C. pose proof (lower_pos alpha time Ha Ht) as L.
  assert (D : is_derive (fun t => quad_inf (inclined_integrand b1 b2 (rule uw) rea img) (lower alpha t)) time
              (inclined_integrand b1 b2 (rule uw) rea img (lower alpha time) * lower alpha time / (2 * time))).
  { apply quad_time; auto; intros; [apply incl_conv; auto|apply incl_cont; auto]. }
  apply (is_derive_scal _ time ((1/2) / b_H b2)) in D. unfold fls_inclined. eapply is_derive_ext; [intros; reflexivity|].
  match goal with |- is_derive _ _ ?x => replace x with ((1/2) / b_H b2 * (inclined_integrand b1 b2 (rule uw) rea img (lower alpha time) * lower alpha time / (2 * time))); [exact D|] end.
  rewrite incl_rule by lra. unfold incl_parts. rewrite <- !nodes_eq by lra.
  set (A := nodes_source uw b1 b2 (wall_excess b1 b2) false (lower alpha time)).
  set (B := nodes_source uw b1 b2 (if rea then wall_excess b1 b2 else 0) true (lower alpha time)).
  transitivity ((1/2) / b_H b2 * ((if rea then A * lower alpha time / (2 * time) else 0) - (if img then B * lower alpha time / (2 * time) else 0))).
  - destruct rea, img; field; split; auto; lra.
  - unfold A, B. rewrite !nodes_heat by auto. destruct rea, img; field; auto.
Qed.

Lemma incl_start uw b1 b2 alpha rea img : 0 < alpha -> clear_nodes uw b1 b2 rea img ->
  filterlim (fun t => fls_inclined b1 b2 (rule uw) t alpha rea img) (at_right 0) (locally 0).
Proof.
  intros Ha C. unfold fls_inclined.
  assert (Q : filterlim (fun t => quad_inf (inclined_integrand b1 b2 (rule uw) rea img) (lower alpha t)) (at_right 0) (locally 0)).
  { apply quad_start; auto. intros; apply incl_conv; auto. }
  replace 0 with ((1/2) / b_H b2 * 0) at 2 by ring.
  apply (filterlim_comp _ _ _ (fun t => quad_inf (inclined_integrand b1 b2 (rule uw) rea img) (lower alpha t)) (fun x => (1/2) / b_H b2 * x) (at_right 0) (locally 0)); auto.
  apply (continuous_mult (fun _ => (1/2) / b_H b2) (fun x => x) 0); [apply continuous_const|apply continuous_id].
Qed.
