(** Friction factors, convection coefficients and resistances of the code. *)
From Coq Require Import Reals Lra Lia List Bool Psatz.
From Verif Require Import Base Conv_Model Conv_Spec Conv_Proofs.
From Coquelicot Require Import Coquelicot.
Local Open Scope R_scope.

Lemma reynolds_duct m r mu rho : 0 < r -> 0 < mu -> 0 < rho -> reynolds m r mu rho = reynolds_of m (2 * PI * r) mu.
Proof. intros. unfold reynolds, reynolds_of. pose proof PI_RGT_0. field. lra. Qed.

Lemma reynolds_annulus_duct m a b mu rho : 0 < a -> a < b -> 0 < mu -> 0 < rho ->
  reynolds_annulus m a b mu rho = reynolds_of m (2 * PI * a + 2 * PI * b) mu.
Proof.
  intros. unfold reynolds_annulus, reynolds_of. pose proof PI_RGT_0.
  assert (0 < b ^ 2 - a ^ 2) by nra. assert (0 < PI * (b ^ 2 - a ^ 2)) by (apply Rmult_lt_0_compat; lra).
  assert (0 < 2 * PI * a + 2 * PI * b) by nra. replace (b ^ 2 - a ^ 2) with ((b - a) * (b + a)) by ring.
  field. repeat split; nra.
Qed.

Lemma tol_ok : 0 < default_tol <= / 2.
Proof. unfold default_tol. lra. Qed.

Lemma friction_terminates m r mu rho eps tol : 0 < r -> 0 <= eps -> eps / (2 * r) <= / 10 -> 0 < tol <= / 2 ->
  exists N f, forall fuel, (N <= fuel)%nat -> friction_factor fuel m r mu rho eps tol = Some f.
Proof.
  intros Hr H0 H1 Ht. assert (HE : 0 <= eps / (2 * r) <= / 10).
  { split; auto. apply Rmult_le_pos; [auto|left; apply Rinv_0_lt_compat; lra]. }
  unfold friction_factor. destruct (Rltb (reynolds m r mu rho) 2300) eqn:Q; [exists 0%nat; eauto|].
  apply Rltb_false in Q. destruct (loop_terminates (reynolds m r mu rho) (eps / (2 * r)) tol Q HE Ht) as [N [v Hv]].
  exists N, v. intros fuel L. replace fuel with (N + (fuel - N))%nat by lia. apply loop_more; auto.
Qed.

Lemma friction_laminar fuel m r mu rho eps tol : reynolds m r mu rho < 2300 ->
  friction_factor fuel m r mu rho eps tol = Some (64 / reynolds m r mu rho).
Proof. intros H. unfold friction_factor. rewrite (proj2 (Rltb_true _ _) H). auto. Qed.

Lemma friction_ok fuel m r mu rho eps tol f : 0 < r -> 0 <= eps -> eps / (2 * r) <= / 10 -> 0 < tol <= / 2 ->
  2300 <= reynolds m r mu rho -> friction_factor fuel m r mu rho eps tol = Some f ->
  ok (reynolds m r mu rho) (eps / (2 * r)) tol f.
Proof.
  intros Hr H0 H1 Ht HR. assert (HE : 0 <= eps / (2 * r) <= / 10).
  { split; auto. apply Rmult_le_pos; [auto|left; apply Rinv_0_lt_compat; lra]. }
  unfold friction_factor. rewrite (proj2 (Rltb_false _ _) HR). apply loop_result; auto.
Qed.

Lemma ok_miss Re E tol f : 0 < Re -> ok Re E tol f -> 0 < f /\ colebrook_miss Re E f <= tol * (1 / sqrt f).
Proof.
  intros HR [y [-> [Hy B]]]. split; [apply Rdiv_lt_0_compat; nra|]. unfold colebrook_miss. rewrite sqrt_inv2 by lra.
  replace (1 / (1 / y)) with y by (field; lra).
  replace (251 / 100 / (Re * (1 / y))) with (251 / 100 * y / Re) by (field; lra).
  eapply Rle_trans; [|exact B]. right. f_equal. unfold gx, log10. ring.
Qed.

Lemma ok_near Re E tol f fx : 2300 <= Re -> 0 <= E <= / 10 -> ok Re E tol f -> colebrook Re E fx ->
  Rabs (1 / sqrt f - 1 / sqrt fx) <= tol * (1 / sqrt f).
Proof.
  intros HR HE Ho Hc. destruct (code_root Re E tol f fx HR HE Ho Hc) as [y [x [-> [-> [Hy [Hx B]]]]]].
  rewrite !sqrt_inv2 by lra. replace (1 / (1 / y)) with y by (field; lra). replace (1 / (1 / x)) with x by (field; lra). auto.
Qed.

Lemma colebrook_unique Re E : 2300 <= Re -> 0 <= E <= / 10 -> exists! f, colebrook Re E f.
Proof.
  intros HR HE. destruct (x_exists Re E HR HE) as [x [Hx Q]]. exists (1 / x ^ 2). split.
  - apply x_colebrook; auto; lra.
  - intros f Hf. destruct (colebrook_x Re E f ltac:(lra) Hf) as [y [Hy [-> Qy]]].
    rewrite (x_unique Re E x y); auto; lra.
Qed.

(** * Convection coefficients *)

Lemma circular_laminar fuel m r mu rho k cp eps : reynolds m r mu rho < 2300 ->
  conv_circular fuel m r mu rho k cp eps = Some (366 / 100 * k / (2 * r)).
Proof.
  intros H. unfold conv_circular. rewrite friction_laminar by auto. rewrite nusselt_laminar by lra. f_equal. unfold Rdiv. ring.
Qed.

Lemma annulus_laminar fuel m a b mu rho k cp eps h : reynolds_annulus m a b mu rho <= 2300 ->
  conv_annulus fuel m a b mu rho k cp eps = Some h ->
  h = ((366 / 100 + 12 / 10 * Rpower (a / b) (- (8 / 10))) * k / (2 * (b - a)),
       (366 / 100 + 12 / 10 * Rpower (a / b) (5 / 10)) * k / (2 * (b - a))).
Proof.
  intros H. unfold conv_annulus. destruct (friction_factor _ _ _ _ _ _ _); [|discriminate].
  rewrite !nusselt_laminar by auto. intros Q. injection Q as <-. f_equal; unfold Rdiv; ring.
Qed.

Lemma friction_sign fuel m r mu rho eps tol : friction_factor fuel (- m) r mu rho eps tol = friction_factor fuel m r mu rho eps tol.
Proof. unfold friction_factor, reynolds. rewrite Rabs_Ropp. auto. Qed.

Lemma circular_sign fuel m r mu rho k cp eps : conv_circular fuel (- m) r mu rho k cp eps = conv_circular fuel m r mu rho k cp eps.
Proof. unfold conv_circular. rewrite friction_sign. unfold reynolds. rewrite Rabs_Ropp. auto. Qed.

Lemma annulus_sign fuel m a b mu rho k cp eps : conv_annulus fuel (- m) a b mu rho k cp eps = conv_annulus fuel m a b mu rho k cp eps.
Proof. unfold conv_annulus. rewrite friction_sign. unfold reynolds_annulus. rewrite Rabs_Ropp. auto. Qed.

Lemma circular_close fuel m r mu rho k cp eps h fx : 0 < r -> 0 < k -> k <= cp * mu -> 0 <= eps -> eps / (2 * r) <= / 10 ->
  2300 <= reynolds m r mu rho -> conv_circular fuel m r mu rho k cp eps = Some h ->
  colebrook (reynolds m r mu rho) (eps / (2 * r)) fx ->
  let hx := k * nusselt (366 / 100) (reynolds m r mu rho) (cp * mu / k) fx / (2 * r) in
  (1 - default_tol) ^ 2 * hx <= h <= (1 + default_tol) ^ 2 * hx.
Proof.
  intros Hr Hk HP H0 H1 HR. unfold conv_circular.
  destruct (friction_factor fuel m r mu rho eps default_tol) as [f|] eqn:Q; [|discriminate]. intros I Hc. injection I as <-. cbv zeta.
  pose proof tol_ok as Ht. pose proof (friction_ok _ _ _ _ _ _ _ _ Hr H0 H1 Ht HR Q) as Ho.
  assert (HE : 0 <= eps / (2 * r) <= / 10).
  { split; auto. apply Rmult_le_pos; [auto|left; apply Rinv_0_lt_compat; lra]. }
  destruct (code_root _ _ _ _ _ HR HE Ho Hc) as [y [x [-> [-> [Hy [Hx B]]]]]].
  assert (HP' : 1 <= cp * mu / k). { apply (Rmult_le_reg_r k); auto. unfold Rdiv. rewrite Rmult_assoc, Rinv_l; lra. }
  destruct (nusselt_close (366 / 100) (reynolds m r mu rho) (cp * mu / k) y x default_tol ltac:(lra) HP' ltac:(lra) ltac:(lra) ltac:(lra) B) as [L U].
  assert (C0 : 0 <= k / (2 * r)) by (left; apply Rdiv_lt_0_compat; lra).
  apply (Rmult_le_compat_l (k / (2 * r)) _ _ C0) in L. apply (Rmult_le_compat_l (k / (2 * r)) _ _ C0) in U.
  unfold Rdiv in *. lra.
Qed.

Lemma exact_continuous_m E F r mu rho k cp : 0 <= E <= / 10 -> 0 < k -> / 2 <= cp * mu / k ->
  (forall Re, 2300 <= Re -> colebrook Re E (F Re)) -> forall m,
  continuity_pt (fun m => k * nusselt (366 / 100) (reynolds m r mu rho) (cp * mu / k) (F (reynolds m r mu rho)) / (2 * r)) m.
Proof.
  intros HE Hk HP HF m.
  apply continuity_pt_mult; [|apply continuity_pt_const; intros ? ?; reflexivity].
  apply continuity_pt_mult; [apply continuity_pt_const; intros ? ?; reflexivity|].
  apply (continuity_pt_comp (fun m => reynolds m r mu rho) (fun Re => nusselt (366 / 100) Re (cp * mu / k) (F Re))).
  - unfold reynolds. apply continuity_pt_mult; [|apply continuity_pt_const; intros ? ?; reflexivity].
    apply continuity_pt_mult; [|apply continuity_pt_const; intros ? ?; reflexivity].
    apply continuity_pt_mult; [apply continuity_pt_const; intros ? ?; reflexivity|].
    apply continuity_pt_mult; [|apply continuity_pt_const; intros ? ?; reflexivity].
    apply continuity_pt_mult; [|apply continuity_pt_const; intros ? ?; reflexivity]. apply Rcontinuity_abs.
  - apply (exact_continuous E F HE HF); auto.
Qed.

(** * The friction factor of the annulus *)

Lemma log10_pow n : log10 (/ 10 ^ n) = - INR n.
Proof.
  unfold log10. pose proof ln10_gt2. rewrite ln_Rinv by (apply pow_lt; lra). rewrite <- Rpower_pow by lra.
  unfold Rpower. rewrite ln_exp. field. lra.
Qed.

Lemma annulus_friction : exists m a b mu rho k cp, let Re := reynolds_of m (2 * PI * a + 2 * PI * b) mu in
  4000 <= Re /\ (exists N, forall fuel, (N <= fuel)%nat -> exists h, conv_annulus fuel m a b mu rho k cp 0 = Some h) /\
  forall fuel h fx, conv_annulus fuel m a b mu rho k cp 0 = Some h -> colebrook Re 0 fx -> exists f,
    snd h = k * nusselt_turbulent Re (cp * mu / k) f / (2 * (b - a)) /\ 1 / sqrt fx + 1 <= 1 / sqrt f.
Proof.
  exists PI, (9 / 100), (11 / 100), (/ 1000), 1, (/ 2), 4000. cbv zeta. pose proof PI_RGT_0 as HPI.
  assert (ER : reynolds_of PI (2 * PI * (9 / 100) + 2 * PI * (11 / 100)) (/ 1000) = 10 ^ 4).
  { unfold reynolds_of. rewrite Rabs_pos_eq by lra. field. lra. }
  assert (EA : reynolds_annulus PI (9 / 100) (11 / 100) (/ 1000) 1 = 10 ^ 4).
  { rewrite reynolds_annulus_duct by lra. exact ER. }
  assert (EC : reynolds PI (2 * (11 / 100 - 9 / 100) / 2) (/ 1000) 1 = 10 ^ 5).
  { rewrite reynolds_duct by lra. unfold reynolds_of. rewrite Rabs_pos_eq by lra. field. lra. }
  rewrite ER. split; [lra|]. pose proof tol_ok as Ht. split.
  - destruct (friction_terminates PI (2 * (11 / 100 - 9 / 100) / 2) (/ 1000) 1 0 default_tol ltac:(lra) ltac:(lra) ltac:(lra) Ht) as [N [f Hf]].
    exists N. intros fuel L. unfold conv_annulus. rewrite Hf by auto. eauto.
  - intros fuel h fx H Hc. unfold conv_annulus in H.
    destruct (friction_factor fuel PI (2 * (11 / 100 - 9 / 100) / 2) (/ 1000) 1 0 default_tol) as [f|] eqn:Q; [|discriminate].
    injection H as <-. exists f. cbn [snd]. rewrite EA. split.
    + unfold nusselt. replace (Rleb 4000 (10 ^ 4)) with true by (symmetry; apply Rleb_true; lra). reflexivity.
    + pose proof (friction_ok fuel PI (2 * (11 / 100 - 9 / 100) / 2) (/ 1000) 1 0 default_tol f ltac:(lra) ltac:(lra) ltac:(lra) Ht ltac:(rewrite EC; lra) Q) as Ho. rewrite EC in Ho.
      replace (0 / (2 * (2 * (11 / 100 - 9 / 100) / 2))) with 0 in Ho by lra.
      destruct Ho as [y [-> [Hy B]]]. destruct (colebrook_x (10 ^ 4) 0 fx ltac:(lra) Hc) as [x [Hx [-> Qx]]].
      rewrite !sqrt_inv2 by lra. replace (1 / (1 / y)) with y by (field; lra). replace (1 / (1 / x)) with x by (field; lra).
      assert (T10 : top (10 ^ 5) 0 <= 10).
      { unfold top. apply Rmax_lub; [lra|]. unfold gx.
        assert (log10 (/ 10 ^ 5) <= log10 (0 / (37 / 10) + 251 / 100 * 2 / 10 ^ 5)) as L by (apply log10_incr; lra).
        rewrite log10_pow in L. cbn [INR] in L. lra. }
      assert (S1 : gx (10 ^ 4) 0 y = gx (10 ^ 5) 0 y - 2).
      { unfold gx, log10. pose proof ln10_gt2.
        replace (0 / (37 / 10) + 251 / 100 * y / 10 ^ 4) with (10 * (0 / (37 / 10) + 251 / 100 * y / 10 ^ 5)) by field.
        rewrite ln_mult by lra. field. lra. }
      assert (B' : Rabs (y - gx (10 ^ 5) 0 y) <= / 10).
      { eapply Rle_trans; [exact B|]. unfold default_tol. lra. }
      apply Rabs_le_between in B'.
      assert (X2 : 2 <= x) by (apply (root_ge2 (10 ^ 4) 0); auto; lra).
      pose proof (gx_lip (10 ^ 4) 0 y x ltac:(lra) ltac:(lra) ltac:(lra) X2) as L.
      destruct (Rle_dec x y) as [I|I].
      * rewrite (Rabs_pos_eq (y - x)) in L by lra. apply Rabs_le_between in L. lra.
      * exfalso. pose proof (gx_decr (10 ^ 4) 0 y x ltac:(lra) ltac:(lra) ltac:(lra) ltac:(lra)). lra.
Qed.

(** * Resistances *)

Lemma friction_pos fuel m r mu rho eps tol f : 0 < r -> 0 <= eps -> eps / (2 * r) <= / 10 -> 0 < tol <= / 2 ->
  0 < mu -> 0 < rho -> friction_factor fuel m r mu rho eps tol = Some f -> 2300 <= reynolds m r mu rho -> 0 < f.
Proof.
  intros Hr H0 H1 Ht Hmu Hrho Q HR. pose proof (friction_ok _ _ _ _ _ _ _ _ Hr H0 H1 Ht HR Q) as Ho.
  refine (proj1 (ok_miss (reynolds m r mu rho) (eps / (2 * r)) tol f _ Ho)). lra.
Qed.

(** the Nusselt number is positive even if the friction factor of a laminar flow is not used *)
Lemma nusselt_pos' lam Re Pr f : 0 < lam -> 1 <= Pr -> (2300 <= Re -> 0 < f) -> 0 < nusselt lam Re Pr f.
Proof.
  intros Hl HP Hf. destruct (Rle_dec 2300 Re) as [L|L]; [apply nusselt_pos; auto|].
  rewrite nusselt_laminar by lra. auto.
Qed.

Lemma circular_defined m r mu rho k cp eps : 0 < r -> 0 < mu -> 0 < rho -> 0 < k -> k <= cp * mu ->
  0 <= eps -> eps / (2 * r) <= / 10 ->
  exists N h, 0 < h /\ forall fuel, (N <= fuel)%nat -> conv_circular fuel m r mu rho k cp eps = Some h.
Proof.
  intros Hr Hmu Hrho Hk HP H0 H1. pose proof tol_ok as Ht.
  destruct (friction_terminates m r mu rho eps default_tol Hr H0 H1 Ht) as [N [f Hf]].
  exists N. eexists. split; [|intros fuel L; unfold conv_circular; rewrite Hf by auto; reflexivity].
  apply Rdiv_lt_0_compat; [|lra]. apply Rmult_lt_0_compat; auto. apply nusselt_pos'; [lra| |].
  - apply (Rmult_le_reg_r k); auto. unfold Rdiv. rewrite Rmult_assoc, Rinv_l; lra.
  - intros HR. eapply (friction_pos N m r mu rho eps default_tol); auto.
Qed.

Lemma annulus_defined m a b mu rho k cp eps : 0 < a -> a < b -> 0 < mu -> 0 < rho -> 0 < k -> k <= cp * mu ->
  0 <= eps -> eps / (2 * (b - a)) <= / 10 ->
  exists N h, 0 < fst h /\ 0 < snd h /\ forall fuel, (N <= fuel)%nat -> conv_annulus fuel m a b mu rho k cp eps = Some h.
Proof.
  intros Ha Hab Hmu Hrho Hk HP H0 H1. pose proof tol_ok as Ht.
  assert (H1' : eps / (2 * (2 * (b - a) / 2)) <= / 10) by (replace (2 * (2 * (b - a) / 2)) with (2 * (b - a)) by field; auto).
  destruct (friction_terminates m (2 * (b - a) / 2) mu rho eps default_tol ltac:(lra) H0 H1' Ht) as [N [f Hf]].
  assert (HP' : 1 <= cp * mu / k). { apply (Rmult_le_reg_r k); auto. unfold Rdiv. rewrite Rmult_assoc, Rinv_l; lra. }
  assert (F0 : 2300 <= reynolds_annulus m a b mu rho -> 0 < f).
  { intros HR. eapply (friction_pos N m (2 * (b - a) / 2) mu rho eps default_tol); auto; try lra.
    eapply Rle_trans; [exact HR|]. rewrite reynolds_annulus_duct, reynolds_duct by lra. unfold reynolds_of, Rdiv.
    pose proof PI_RGT_0. apply Rmult_le_compat_l; [pose proof (Rabs_pos m); lra|]. assert (0 < PI * b) by (apply Rmult_lt_0_compat; lra). assert (PI * a < PI * b) by (apply Rmult_lt_compat_l; lra).
    apply Rinv_le_contravar; [apply Rmult_lt_0_compat; lra|].
    apply Rmult_le_compat_r; [lra|]. assert (0 < PI * a) by (apply Rmult_lt_0_compat; lra). lra. }
  assert (forall u v, 0 < 366 / 100 + 12 / 10 * Rpower u v).
  { intros u v. pose proof (exp_pos (v * ln u)). unfold Rpower. lra. }
  exists N. eexists. split; [|split; [|intros fuel L; unfold conv_annulus; rewrite Hf by auto; reflexivity]]; cbn [fst snd];
    (apply Rdiv_lt_0_compat; [|lra]; apply Rmult_lt_0_compat; auto; apply nusselt_pos'; auto).
Qed.

Lemma conduction_pos a b k : 0 < a -> a < b -> 0 < k -> 0 < conduction a b k.
Proof.
  intros. unfold conduction. pose proof PI_RGT_0. apply Rdiv_lt_0_compat; [|apply Rmult_lt_0_compat; lra].
  rewrite <- ln_1. apply ln_increasing; [lra|]. apply (Rmult_lt_reg_r a); auto. unfold Rdiv. rewrite Rmult_assoc, Rinv_l; lra.
Qed.

Lemma conduction_layers a b c k : 0 < a -> 0 < b -> 0 < c -> 0 < k -> conduction a c k = conduction a b k + conduction b c k.
Proof.
  intros. unfold conduction. pose proof PI_RGT_0. rewrite !ln_div by auto. field. lra.
Qed.

Lemma film_pos h r : 0 < h -> 0 < r -> 0 < 1 / (h * 2 * PI * r).
Proof. intros. pose proof PI_RGT_0. apply Rdiv_lt_0_compat; [lra|]. apply Rmult_lt_0_compat; auto. apply Rmult_lt_0_compat; lra. Qed.

Section Resist.
  Variables (fl : fluid) (m eps : R) (r_in r_out k_p : nat -> R).
  Hypothesis Hfl : good_fluid fl.
  Hypothesis Heps : 0 <= eps.

  Lemma utube_defined ty : ty = SINGLE_UTUBE \/ ty = DOUBLE_UTUBE_PARALLEL \/ ty = DOUBLE_UTUBE_SERIES ->
    0 < r_in 0%nat -> r_in 0%nat < r_out 0%nat -> 0 < k_p 0%nat -> eps / (2 * r_in 0%nat) <= / 10 ->
    exists N v, conduction (r_in 0%nat) (r_out 0%nat) (k_p 0%nat) < v /\
      forall fuel, (N <= fuel)%nat -> fluid_to_pipe fuel ty m r_in r_out k_p eps fl = Some v.
  Proof.
    intros Hty H1 H2 H3 H4. destruct Hfl as [Hmu [Hrho [Hk [Hcp HP]]]].
    destruct (circular_defined (match ty with DOUBLE_UTUBE_PARALLEL => m / 2 | _ => m end) (r_in 0%nat) (fl_mu fl) (fl_rho fl) (fl_k fl) (fl_cp fl) eps) as [N [h [Hh Hf]]]; auto.
    exists N, (conduction (r_in 0%nat) (r_out 0%nat) (k_p 0%nat) + 1 / (h * 2 * PI * r_in 0%nat)).
    pose proof (film_pos h (r_in 0%nat) Hh H1). split; [lra|].
    intros fuel L. unfold fluid_to_pipe.
    destruct Hty as [-> | [-> | ->]]; rewrite Hf by auto; reflexivity.
  Qed.

  Lemma coaxial_defined ty i o : ty = COAXIAL_ANNULAR_IN /\ i = 1%nat /\ o = 0%nat \/ ty = COAXIAL_ANNULAR_OUT /\ i = 0%nat /\ o = 1%nat ->
    in_annulus i o r_in r_out k_p -> eps / (2 * r_in i) <= / 10 -> eps / (2 * (r_in o - r_out i)) <= / 10 ->
    exists N v w, 0 < v /\ 0 < w /\ forall fuel, (N <= fuel)%nat ->
      fluid_to_pipe fuel ty m r_in r_out k_p eps fl = Some v /\ fluid_to_fluid fuel ty m r_in r_out k_p eps fl = Some w.
  Proof.
    intros Hty [A1 [A2 [A3 [A4 [A5 A6]]]]] E1 E2. destruct Hfl as [Hmu [Hrho [Hk [Hcp HP]]]].
    destruct (circular_defined m (r_in i) (fl_mu fl) (fl_rho fl) (fl_k fl) (fl_cp fl) eps) as [N1 [h [Hh Hf]]]; auto.
    destruct (annulus_defined m (r_out i) (r_in o) (fl_mu fl) (fl_rho fl) (fl_k fl) (fl_cp fl) eps) as [N2 [[hi ho] [P1 [P2 Hg]]]]; auto; try lra.
    cbn [fst snd] in P1, P2.
    exists (Nat.max N1 N2), (conduction (r_in o) (r_out o) (k_p o) + 1 / (ho * 2 * PI * r_in o)),
      (1 / (h * 2 * PI * r_in i) + conduction (r_in i) (r_out i) (k_p i) + 1 / (hi * 2 * PI * r_out i)).
    pose proof (film_pos h (r_in i) Hh A1). pose proof (film_pos hi (r_out i) P1 ltac:(lra)). pose proof (film_pos ho (r_in o) P2 ltac:(lra)).
    pose proof (conduction_pos (r_in o) (r_out o) (k_p o) ltac:(lra) A4 A6). pose proof (conduction_pos (r_in i) (r_out i) (k_p i) A1 A2 A5).
    split; [lra|]. split; [lra|]. intros fuel L. unfold fluid_to_pipe, fluid_to_fluid.
    destruct Hty as [[-> [-> ->]] | [-> [-> ->]]]; rewrite Hf by lia; rewrite Hg by lia; split; reflexivity.
  Qed.
End Resist.

Lemma resist_sign fuel ty m r_in r_out k_p eps fl :
  fluid_to_pipe fuel ty (- m) r_in r_out k_p eps fl = fluid_to_pipe fuel ty m r_in r_out k_p eps fl /\
  fluid_to_fluid fuel ty (- m) r_in r_out k_p eps fl = fluid_to_fluid fuel ty m r_in r_out k_p eps fl.
Proof.
  unfold fluid_to_pipe, fluid_to_fluid.
  assert (Q : - m / 2 = - (m / 2)) by field.
  destruct ty; rewrite ?Q, ?circular_sign, ?annulus_sign; auto.
Qed.

Lemma resist_swap fuel m r_in r_out k_p eps fl :
  fluid_to_pipe fuel COAXIAL_ANNULAR_IN m (swapped r_in) (swapped r_out) (swapped k_p) eps fl
  = fluid_to_pipe fuel COAXIAL_ANNULAR_OUT m r_in r_out k_p eps fl /\
  fluid_to_fluid fuel COAXIAL_ANNULAR_IN m (swapped r_in) (swapped r_out) (swapped k_p) eps fl
  = fluid_to_fluid fuel COAXIAL_ANNULAR_OUT m r_in r_out k_p eps fl.
Proof. split; reflexivity. Qed.

Lemma resist_parallel fuel m r_in r_out k_p eps fl :
  fluid_to_pipe fuel DOUBLE_UTUBE_PARALLEL (2 * m) r_in r_out k_p eps fl = fluid_to_pipe fuel SINGLE_UTUBE m r_in r_out k_p eps fl.
Proof. unfold fluid_to_pipe. replace (2 * m / 2) with m by field. reflexivity. Qed.

Lemma resist_laminar fuel m r_in r_out k_p eps fl : 0 < fl_k fl -> 0 < r_in 0%nat ->
  reynolds m (r_in 0%nat) (fl_mu fl) (fl_rho fl) < 2300 ->
  fluid_to_pipe fuel SINGLE_UTUBE m r_in r_out k_p eps fl
  = Some (ln (r_out 0%nat / r_in 0%nat) / (2 * PI * k_p 0%nat) + 1 / (366 / 100 * PI * fl_k fl)).
Proof.
  intros Hk Hr HR. unfold fluid_to_pipe. rewrite circular_laminar by auto. f_equal. unfold conduction. f_equal.
  pose proof PI_RGT_0. field. lra.
Qed.

Lemma resist_series fuel m r_in r_out k_p eps fl :
  fluid_to_pipe fuel DOUBLE_UTUBE_SERIES m r_in r_out k_p eps fl = fluid_to_pipe fuel SINGLE_UTUBE m r_in r_out k_p eps fl.
Proof. reflexivity. Qed.

Lemma coaxial_laminar fuel m r_in r_out k_p eps fl v w : in_annulus 1 0 r_in r_out k_p -> 0 < fl_k fl ->
  reynolds_annulus m (r_out 1%nat) (r_in 0%nat) (fl_mu fl) (fl_rho fl) <= 2300 ->
  reynolds m (r_in 1%nat) (fl_mu fl) (fl_rho fl) < 2300 ->
  fluid_to_pipe fuel COAXIAL_ANNULAR_IN m r_in r_out k_p eps fl = Some v ->
  fluid_to_fluid fuel COAXIAL_ANNULAR_IN m r_in r_out k_p eps fl = Some w ->
  let gap := (r_in 0%nat - r_out 1%nat) / (PI * fl_k fl) in
  let ratio := r_out 1%nat / r_in 0%nat in
  v = ln (r_out 0%nat / r_in 0%nat) / (2 * PI * k_p 0%nat)
      + gap / ((366 / 100 + 12 / 10 * Rpower ratio (5 / 10)) * r_in 0%nat) /\
  w = 1 / (366 / 100 * PI * fl_k fl) + ln (r_out 1%nat / r_in 1%nat) / (2 * PI * k_p 1%nat)
      + gap / ((366 / 100 + 12 / 10 * Rpower ratio (- (8 / 10))) * r_out 1%nat).
Proof.
  intros [A1 [A2 [A3 [A4 [A5 A6]]]]] Hk HRa HR. unfold fluid_to_pipe, fluid_to_fluid. rewrite circular_laminar by auto.
  destruct (conv_annulus _ _ _ _ _ _ _ _ _) as [[hi ho]|] eqn:Q; [|discriminate].
  pose proof (annulus_laminar _ _ _ _ _ _ _ _ _ _ HRa Q) as L. injection L as -> ->.
  intros I J. injection I as <-. injection J as <-. cbv zeta. pose proof PI_RGT_0.
  assert (forall u v, 0 < 366 / 100 + 12 / 10 * Rpower u v).
  { intros u v. pose proof (exp_pos (v * ln u)). unfold Rpower. lra. }
  pose proof (H0 (r_out 1%nat / r_in 0%nat) (5 / 10)). pose proof (H0 (r_out 1%nat / r_in 0%nat) (- (8 / 10))).
  set (p := Rpower _ (5 / 10)) in *. set (q := Rpower _ (- (8 / 10))) in *. unfold conduction. split.
  - f_equal. field. repeat split; lra.
  - f_equal; [f_equal|]; field; repeat split; lra.
Qed.

Lemma nusselt_transition lam Re Pr f : 2300 <= Re <= 4000 ->
  (4000 - 2300) * nusselt lam Re Pr f = (4000 - Re) * lam + (Re - 2300) * nusselt_turbulent 4000 Pr f.
Proof.
  intros H. rewrite nusselt_weight. unfold weight. rewrite (Rmin_left Re 4000), (Rmax_right 2300 Re), (Rmax_right Re 4000) by lra. field.
Qed.
