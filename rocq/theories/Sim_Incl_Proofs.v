(** Comparison of inclined line source solutions from a comparison of the distances. *)
From Coq Require Import Reals Lra Lia List Bool Psatz.
From Verif Require Import Base FLS_Model FLS_Spec FLS_Erf_Proofs FLS_Proofs FLS_Sol_Proofs FLS_Line_Proofs FLS_Steady_Proofs FLS_Incl_Proofs FLS_Incl_Steady_Proofs FLS_Exact_Proofs.
From Coquelicot Require Import Coquelicot.
Local Open Scope R_scope.

(** a point of the emitting borehole minus its image *)
Definition pd b1 b2 s xi v : R :=
  pair_source b1 b2 (wall_excess b1 b2) false s xi v - pair_source b1 b2 (wall_excess b1 b2) true s xi v.

Lemma pair_cont b1 b2 ex image s xi v : continuous (pair_source b1 b2 ex image s xi) v.
Proof. destruct (pair_smooth b1 b2 ex image s) as [fx [fy [Dx [Dy [C _]]]]]. apply c2_snd. auto. Qed.

Lemma pair_ex b1 b2 ex image s xi a b : ex_RInt (pair_source b1 b2 ex image s xi) a b.
Proof. apply (ex_RInt_continuous (pair_source b1 b2 ex image s xi)). intros. apply pair_cont. Qed.

Lemma pd_cont b1 b2 s xi v : continuous (pd b1 b2 s xi) v.
Proof. unfold pd. apply (continuous_minus (pair_source b1 b2 (wall_excess b1 b2) false s xi) (pair_source b1 b2 (wall_excess b1 b2) true s xi)); apply pair_cont. Qed.

Lemma seen_pd b1 b2 s u :
  seen b1 b2 (wall_excess b1 b2) false s u - seen b1 b2 (wall_excess b1 b2) true s u = RInt (pd b1 b2 s (u * b_H b1)) 0 (b_H b2).
Proof.
  symmetry. apply (RInt_minus (pair_source b1 b2 (wall_excess b1 b2) false s (u * b_H b1)) (pair_source b1 b2 (wall_excess b1 b2) true s (u * b_H b1))); apply pair_ex.
Qed.

Lemma pd_lt b1 b2 c1 c2 s xi h : 0 < h -> (forall v, 0 < v < h -> pd b1 b2 s xi v < pd c1 c2 s xi v) ->
  RInt (pd b1 b2 s xi) 0 h < RInt (pd c1 c2 s xi) 0 h.
Proof.
  intros Hh L. apply RInt_lt; auto; intros; apply pd_cont.
Qed.

Lemma rule_lt uw b1 b2 c1 c2 time alpha : 0 < alpha -> 0 < time -> uw <> nil -> (forall c, In c uw -> 0 < snd c) ->
  b_H c1 = b_H b1 -> b_H c2 = b_H b2 -> 0 < b_H b1 -> 0 < b_H b2 ->
  clear_nodes uw b1 b2 true true -> clear_nodes uw c1 c2 true true ->
  (forall c s v, In c uw -> 0 < s -> 0 < v < b_H b2 -> pd b1 b2 s (fst c * b_H b1) v < pd c1 c2 s (fst c * b_H b1) v) ->
  fls_inclined b1 b2 (rule uw) time alpha true true < fls_inclined c1 c2 (rule uw) time alpha true true.
Proof.
  intros Ha Ht Nu Wp E1 E2 P1 P2 Cb Cc L. pose proof (lower_pos alpha time Ha Ht) as Lp. pose proof spi. unfold fls_inclined. rewrite E2.
  apply Rmult_lt_compat_l; [apply Rdiv_lt_0_compat; lra|].
  apply quad_lt; [apply incl_conv; auto|apply incl_conv; auto| |intros; apply incl_cont; lra|intros; apply incl_cont; lra].
  intros s Hs. assert (Hp : 0 < s) by lra. rewrite !incl_rule by lra. unfold incl_parts.
  assert (N : forall b1 b2 ex im, nodes uw b1 b2 ex im s = rule uw (fun u => node b1 b2 ex im u s)).
  { intros. unfold nodes, rule. f_equal. apply map_ext. intros. ring. }
  rewrite !N.
  change (rule uw (fun u => node b1 b2 (wall_excess b1 b2) false u s) - rule uw (fun u => node b1 b2 (wall_excess b1 b2) true u s)
    < rule uw (fun u => node c1 c2 (wall_excess c1 c2) false u s) - rule uw (fun u => node c1 c2 (wall_excess c1 c2) true u s)).
  rewrite <- !rule_minus. unfold rule. apply Rsum_lt; auto. intros c Hc. apply Rmult_lt_compat_r; auto.
  unfold node. rewrite <- !seen_closed by lra. rewrite E1. rewrite <- !Rmult_minus_distr_l.
  apply Rmult_lt_compat_l; [apply Rdiv_lt_0_compat; lra|]. apply Rmult_lt_compat_l; auto.
  rewrite !seen_pd, E1, E2. apply pd_lt; auto.
Qed.

(** * The exact integral *)

Lemma seen_bound b1 b2 ex (image : bool) s u e : 0 < b_H b2 -> 0 <= u <= 1 ->
  (forall xi v : R, 0 <= xi <= b_H b1 -> 0 <= v <= b_H b2 -> e <= ex + dist2 (if image then mirror (point b1 xi) else point b1 xi) (point b2 v)) ->
  0 < b_H b1 -> 0 <= seen b1 b2 ex image s u <= b_H b2 * exp (- s ^ 2 * e).
Proof.
  intros P2 Hu B P1. change (seen b1 b2 ex image s u) with (RInt (pair_source b1 b2 ex image s (u * b_H b1)) 0 (b_H b2)). split.
  - apply RInt_ge_0; [lra|apply pair_ex|]. intros. left. apply exp_pos.
  - replace (b_H b2 * exp (- s ^ 2 * e)) with (RInt (fun _ => exp (- s ^ 2 * e)) 0 (b_H b2)).
    2: { rewrite RInt_const. unfold scal; cbn. unfold mult; cbn. ring. }
    apply RInt_le; [lra|apply pair_ex|apply ex_RInt_const|]. intros v Hv. unfold pair_source, point_source.
    assert (- s ^ 2 * (ex + dist2 (if image then mirror (point b1 (u * b_H b1)) else point b1 (u * b_H b1)) (point b2 v)) <= - s ^ 2 * e) as [X|X].
    + assert (0 <= u * b_H b1 <= b_H b1) by nra. specialize (B (u * b_H b1) v H ltac:(lra)). pose proof (pow2_ge_0 s). nra.
    + left. apply exp_increasing. auto.
    + rewrite X. lra.
Qed.

Lemma exp_lip q x y : 0 <= q -> 0 <= x -> 0 <= y -> Rabs (exp (- x * q) - exp (- y * q)) <= q * Rabs (x - y).
Proof.
  intros Hq. assert (W : forall x y, 0 <= x -> x <= y -> 0 <= exp (- x * q) - exp (- y * q) <= q * (y - x)).
  { intros a b Ha Hb. assert (E : exp (- b * q) = exp (- a * q) * exp (- (b - a) * q)) by (rewrite <- exp_plus; f_equal; ring).
    assert (0 <= (b - a) * q) by (apply Rmult_le_pos; lra).
    assert (1 - (b - a) * q <= exp (- (b - a) * q)).
    { pose proof (exp_ineq1_le (- (b - a) * q)). lra. }
    assert (exp (- (b - a) * q) <= 1).
    { rewrite <- exp_0. destruct (Req_dec ((b - a) * q) 0) as [Z|Z]; [right; f_equal; lra|left; apply exp_increasing; lra]. }
    assert (exp (- a * q) <= 1).
    { rewrite <- exp_0. assert (0 <= a * q) by (apply Rmult_le_pos; lra). destruct (Req_dec (a * q) 0) as [Z|Z]; [right; f_equal; lra|left; apply exp_increasing; lra]. }
    pose proof (exp_pos (- a * q)). rewrite E. split; nra. }
  intros Hx Hy. destruct (Rle_dec x y).
  - destruct (W x y) as [A B]; auto. rewrite Rabs_right by lra. rewrite (Rabs_left1 (x - y)) by lra. lra.
  - destruct (W y x) as [A B]; auto; [lra|]. rewrite Rabs_left1 by lra. rewrite (Rabs_right (x - y)) by lra. lra.
Qed.

Section Source.
  Variables (b1 b2 : bh) (ex : R) (image : bool).
  Hypotheses (P1 : 0 < b_H b1) (P2 : 0 < b_H b2) (Pe : 0 <= ex).
  Notation qd xi v := (ex + dist2 (if image then mirror (point b1 xi) else point b1 xi) (point b2 v)).

  Lemma dist2_pos p q : 0 <= dist2 p q.
  Proof. unfold dist2. repeat apply Rplus_le_le_0_compat; apply pow2_ge_0. Qed.

  Lemma qd_bounded : exists Q, 0 <= Q /\ forall xi v, 0 <= xi <= b_H b1 -> 0 <= v <= b_H b2 -> 0 <= qd xi v <= Q.
  Proof.
    set (A := Rabs (img_r2 b1 b2 ex + zpart b1 b2 image ^ 2)).
    set (k0 := Rabs (k0part b1 b2 image)). set (k1 := Rabs (k1part b1 b2 image)). set (k2 := Rabs (k2part b1 b2 image)).
    assert (0 <= A /\ 0 <= k0 /\ 0 <= k1 /\ 0 <= k2) as [HA [H0 [H1 H2]]] by (repeat split; apply Rabs_pos).
    assert (M : forall a b c d, 0 <= a <= b -> 0 <= c <= d -> a * c <= b * d) by (intros; apply Rmult_le_compat; lra).
    exists (A + b_H b1 * b_H b1 + b_H b2 * b_H b2 + 2 * (b_H b1 * k1) + 2 * (b_H b2 * k2) + 2 * (b_H b1 * b_H b2 * k0)). split.
    - assert (0 <= b_H b1 * b_H b1 /\ 0 <= b_H b2 * b_H b2 /\ 0 <= b_H b1 * k1 /\ 0 <= b_H b2 * k2 /\ 0 <= b_H b1 * b_H b2 * k0) by (repeat split; repeat apply Rmult_le_pos; lra). lra.
    - intros xi v Hx Hv. pose proof (dist2_pos (if image then mirror (point b1 xi) else point b1 xi) (point b2 v)). split; [lra|].
      rewrite <- geo. unfold quadr.
      assert (img_r2 b1 b2 ex + zpart b1 b2 image ^ 2 <= A) by apply Rle_abs.
      assert (xi ^ 2 <= b_H b1 * b_H b1) by (replace (xi ^ 2) with (xi * xi) by ring; apply M; lra).
      assert (v ^ 2 <= b_H b2 * b_H b2) by (replace (v ^ 2) with (v * v) by ring; apply M; lra).
      assert (N : forall a b c k, 0 <= a <= b -> k = Rabs c -> a * c <= b * k /\ - (a * c) <= b * k).
      { intros a b c k Ha ->. pose proof (Rle_abs c). pose proof (Rle_abs (- c)) as Z. rewrite Rabs_Ropp in Z. pose proof (Rabs_pos c). nra. }
      destruct (N xi (b_H b1) (k1part b1 b2 image) k1) as [N1 _]; auto.
      destruct (N v (b_H b2) (k2part b1 b2 image) k2) as [_ N2]; auto.
      destruct (N (xi * v) (b_H b1 * b_H b2) (k0part b1 b2 image) k0) as [_ N3]; auto.
      { split; [apply Rmult_le_pos; lra|apply M; lra]. }
      lra.
  Qed.

  Lemma pair_lip Q s s' xi v : (forall xi v : R, 0 <= xi <= b_H b1 -> 0 <= v <= b_H b2 -> 0 <= qd xi v <= Q) ->
    0 <= xi <= b_H b1 -> 0 <= v <= b_H b2 -> Rabs (pair_source b1 b2 ex image s xi v - pair_source b1 b2 ex image s' xi v) <= Q * Rabs (s ^ 2 - s' ^ 2).
  Proof.
    intros B Hx Hv. destruct (B xi v Hx Hv). unfold pair_source, point_source.
    eapply Rle_trans; [apply exp_lip; auto; apply pow2_ge_0|]. apply Rmult_le_compat_r; auto. apply Rabs_pos.
  Qed.

  Lemma int_abs (f g : R -> R) h K : 0 <= h -> ex_RInt f 0 h -> ex_RInt g 0 h -> (forall x, 0 <= x <= h -> Rabs (f x - g x) <= K) ->
    Rabs (RInt f 0 h - RInt g 0 h) <= h * K.
  Proof.
    intros Hh Ef Eg B. pose proof (norm_RInt_le (fun x => f x - g x) (fun _ => K) 0 h (RInt f 0 h - RInt g 0 h) (scal (h - 0) K) Hh) as N.
    assert (E : scal (h - 0) K = h * K) by (unfold scal; cbn; unfold mult; cbn; ring). rewrite E in N. apply N.
    - intros x Hx. apply B; auto.
    - apply (is_RInt_minus f g); [apply (RInt_correct f)|apply (RInt_correct g)]; auto.
    - rewrite <- E. apply (is_RInt_const 0 h K).
  Qed.

  Lemma source_cont s : continuous (inclined_source b1 b2 ex image) s.
  Proof.
    destruct qd_bounded as [Q [HQ B]]. pose proof spi.
    set (c := 2 / sqrt PI). assert (Hc : 0 < c) by (apply Rdiv_lt_0_compat; lra).
    assert (L : forall s', Rabs (inclined_source b1 b2 ex image s' - inclined_source b1 b2 ex image s) <= c * (b_H b1 * (b_H b2 * (Q * Rabs (s' ^ 2 - s ^ 2))))).
    { intros s'. rewrite !source_unscaled. fold c. rewrite <- Rmult_minus_distr_l, Rabs_mult, (Rabs_right c) by lra. apply Rmult_le_compat_l; [lra|].
      apply (int_abs (fun xi => RInt (pair_source b1 b2 ex image s' xi) 0 (b_H b2)) (fun xi => RInt (pair_source b1 b2 ex image s xi) 0 (b_H b2)) (b_H b1)); [left; exact P1| | |].
      - apply (ex_RInt_continuous (fun xi => RInt (pair_source b1 b2 ex image s' xi) 0 (b_H b2))). intros. apply param_cont, pair_smooth.
      - apply (ex_RInt_continuous (fun xi => RInt (pair_source b1 b2 ex image s xi) 0 (b_H b2))). intros. apply param_cont, pair_smooth.
      - intros xi Hx. apply int_abs; [left; exact P2|apply pair_ex|apply pair_ex|]. intros v Hv. apply pair_lip; auto. }
    set (K := c * (b_H b1 * (b_H b2 * Q))).
    assert (HK : 0 <= K) by (unfold K; apply Rmult_le_pos; [left; exact Hc|repeat apply Rmult_le_pos; lra]).
    assert (C2 : continuous (fun s => s ^ 2) s) by (apply (ex_derive_continuous (fun s => s ^ 2)); auto_derive; auto).
    apply continuity_pt_filterlim. apply continuity_pt_filterlim in C2. intros e He.
    destruct (C2 (e / (K + 1))) as [d [Hd D]]. { apply Rdiv_lt_0_compat; lra. }
    exists d. split; auto. intros x Hx. specialize (D x Hx). cbn in D |- *. unfold R_dist in *.
    change (x * (x * 1)) with (x ^ 2) in D. change (s * (s * 1)) with (s ^ 2) in D.
    eapply Rle_lt_trans; [apply L|].
    replace (c * (b_H b1 * (b_H b2 * (Q * Rabs (x ^ 2 - s ^ 2))))) with (K * Rabs (x ^ 2 - s ^ 2)) by (unfold K; ring).
    pose proof (Rabs_pos (x ^ 2 - s ^ 2)).
    apply Rle_lt_trans with ((K + 1) * Rabs (x ^ 2 - s ^ 2)); [nra|].
    apply (Rmult_lt_compat_l (K + 1)) in D; [|lra]. replace ((K + 1) * (e / (K + 1))) with e in D by (field; lra). auto.
  Qed.

  Lemma source_abs e s : (forall xi v : R, 0 <= xi <= b_H b1 -> 0 <= v <= b_H b2 -> e <= qd xi v) ->
    0 <= inclined_source b1 b2 ex image s <= 2 / sqrt PI * (b_H b1 * b_H b2) * exp (- s ^ 2 * e).
  Proof.
    intros B. pose proof spi. unfold inclined_source. set (c := 2 / sqrt PI). assert (Hc : 0 < c) by (apply Rdiv_lt_0_compat; lra).
    assert (E : ex_RInt (fun u => b_H b1 * seen b1 b2 ex image s u) 0 1).
    { apply (ex_RInt_ext (fun u => scal (b_H b1) (RInt (pair_source b1 b2 ex image s (b_H b1 * u + 0)) 0 (b_H b2)))).
      - intros u _. rewrite Rplus_0_r, (Rmult_comm (b_H b1) u). reflexivity.
      - apply (ex_RInt_continuous (fun u => scal (b_H b1) (RInt (pair_source b1 b2 ex image s (b_H b1 * u + 0)) 0 (b_H b2)))). intros u _.
        apply (continuous_scal_r (b_H b1) (fun u => RInt (pair_source b1 b2 ex image s (b_H b1 * u + 0)) 0 (b_H b2))).
        apply (continuous_comp (fun u => b_H b1 * u + 0) (fun xi => RInt (pair_source b1 b2 ex image s xi) 0 (b_H b2))).
        + apply (ex_derive_continuous (fun u => b_H b1 * u + 0)). auto_derive. auto.
        + apply param_cont, pair_smooth. }
    split.
    - apply Rmult_le_pos; [lra|]. apply RInt_ge_0; [lra|auto|]. intros u Hu. apply Rmult_le_pos; [lra|].
      apply (seen_bound b1 b2 ex image s u e); auto. lra.
    - rewrite Rmult_assoc. apply Rmult_le_compat_l; [lra|].
      replace (b_H b1 * b_H b2 * exp (- s ^ 2 * e)) with (RInt (fun _ => b_H b1 * b_H b2 * exp (- s ^ 2 * e)) 0 1).
      2: { rewrite RInt_const. unfold scal; cbn. unfold mult; cbn. ring. }
      apply RInt_le; [lra|auto|apply ex_RInt_const|]. intros u Hu. rewrite Rmult_assoc. apply Rmult_le_compat_l; [lra|].
      apply (seen_bound b1 b2 ex image s u e); auto. lra.
  Qed.

  Lemma source_conv e a : 0 < a -> 0 < e -> (forall xi v : R, 0 <= xi <= b_H b1 -> 0 <= v <= b_H b2 -> e <= qd xi v) ->
    converges (inclined_source b1 b2 ex image) a.
  Proof.
    intros Ha He B. apply (conv_exp _ _ (2 / sqrt PI * (b_H b1 * b_H b2)) (e * a)); [nra|intros; apply source_cont|].
    intros s Hs. destruct (source_abs e s B) as [L U]. rewrite Rabs_right by lra. eapply Rle_trans; [exact U|].
    apply Rmult_le_compat_l. { pose proof spi. apply Rmult_le_pos; [left; apply Rdiv_lt_0_compat; lra|apply Rmult_le_pos; lra]. }
    assert (- s ^ 2 * e <= - (e * a) * s) as [X|X].
    - replace (- s ^ 2 * e) with (- (e * (s * s))) by ring. replace (- (e * a) * s) with (- (e * (a * s))) by ring.
      apply Ropp_le_contravar. apply Rmult_le_compat_l; [lra|]. apply Rmult_le_compat_r; lra.
    - left. apply exp_increasing. auto.
    - rewrite X. lra.
  Qed.
End Source.

Definition margin b1 b2 e := forall xi v, 0 <= xi <= b_H b1 -> 0 <= v <= b_H b2 ->
  e <= wall_excess b1 b2 + dist2 (point b1 xi) (point b2 v) /\ e <= wall_excess b1 b2 + dist2 (mirror (point b1 xi)) (point b2 v).

Lemma excess_pos b1 b2 : 0 <= wall_excess b1 b2.
Proof. unfold wall_excess. apply Rmax_l. Qed.

Lemma exact_conv b1 b2 e a : 0 < b_H b1 -> 0 < b_H b2 -> 0 < a -> 0 < e -> margin b1 b2 e ->
  converges (inclined_integrand b1 b2 exact true true) a /\ (forall s, 0 < s -> continuous (inclined_integrand b1 b2 exact true true) s).
Proof.
  intros P1 P2 Ha He M. pose proof (excess_pos b1 b2) as X.
  set (f := inclined_source b1 b2 (wall_excess b1 b2) false). set (g := inclined_source b1 b2 (wall_excess b1 b2) true).
  assert (Cf : converges f a) by (apply (source_conv b1 b2 _ false P1 P2 X e a); auto; intros; apply M; auto).
  assert (Cg : converges g a) by (apply (source_conv b1 b2 _ true P1 P2 X e a); auto; intros; apply M; auto).
  destruct (conv_scal (-1) g a Cg) as [Cm _]. destruct (conv_plus f (fun s => -1 * g s) a Cf Cm) as [Cp _].
  assert (E : forall s, 0 < s -> f s + -1 * g s = inclined_integrand b1 b2 exact true true s).
  { intros s Hs. rewrite incl_exact by lra. unfold exact_parts, f, g. ring. }
  split.
  - revert Cp. apply conv_ext. intros. apply E. lra.
  - intros s Hs. apply (continuous_ext_loc _ (fun s => f s + -1 * g s)).
    + exists (mkposreal s Hs). intros y Hy. apply E. apply Rabs_def2 in Hy. unfold minus, plus, opp in Hy. simpl in Hy. lra.
    + apply (continuous_plus f (fun s => -1 * g s)); [apply source_cont; auto|].
      apply (continuous_mult (fun _ => -1) g); [apply continuous_const|apply source_cont; auto].
Qed.

Lemma pd_param b1 b2 s xi : continuous (fun xi => RInt (pd b1 b2 s xi) 0 (b_H b2)) xi.
Proof.
  apply (continuous_ext (fun xi => RInt (pair_source b1 b2 (wall_excess b1 b2) false s xi) 0 (b_H b2) - RInt (pair_source b1 b2 (wall_excess b1 b2) true s xi) 0 (b_H b2))).
  - intros x. symmetry. apply (RInt_minus (pair_source b1 b2 (wall_excess b1 b2) false s x) (pair_source b1 b2 (wall_excess b1 b2) true s x)); apply pair_ex.
  - apply (continuous_minus (fun xi => RInt (pair_source b1 b2 (wall_excess b1 b2) false s xi) 0 (b_H b2)) (fun xi => RInt (pair_source b1 b2 (wall_excess b1 b2) true s xi) 0 (b_H b2)));
    apply param_cont, pair_smooth.
Qed.

Lemma exact_pd b1 b2 s : s <> 0 -> inclined_integrand b1 b2 exact true true s = 2 / sqrt PI * RInt (fun xi => RInt (pd b1 b2 s xi) 0 (b_H b2)) 0 (b_H b1).
Proof.
  intros Hs. rewrite incl_exact by auto. unfold exact_parts. rewrite !source_unscaled, <- Rmult_minus_distr_l. f_equal.
  set (F := fun xi => RInt (pair_source b1 b2 (wall_excess b1 b2) false s xi) 0 (b_H b2)).
  set (G := fun xi => RInt (pair_source b1 b2 (wall_excess b1 b2) true s xi) 0 (b_H b2)).
  transitivity (RInt (fun xi => minus (F xi) (G xi)) 0 (b_H b1)).
  - symmetry. apply (RInt_minus F G).
    + apply (ex_RInt_continuous F). intros. apply param_cont, pair_smooth.
    + apply (ex_RInt_continuous G). intros. apply param_cont, pair_smooth.
  - apply RInt_ext. intros x _. symmetry.
    apply (RInt_minus (pair_source b1 b2 (wall_excess b1 b2) false s x) (pair_source b1 b2 (wall_excess b1 b2) true s x)); apply pair_ex.
Qed.

Lemma exact_lt b1 b2 c1 c2 e time alpha : 0 < alpha -> 0 < time -> 0 < e ->
  b_H c1 = b_H b1 -> b_H c2 = b_H b2 -> 0 < b_H b1 -> 0 < b_H b2 -> margin b1 b2 e -> margin c1 c2 e ->
  (forall s xi v, 0 < s -> 0 < xi < b_H b1 -> 0 < v < b_H b2 -> pd b1 b2 s xi v < pd c1 c2 s xi v) ->
  fls_inclined b1 b2 exact time alpha true true < fls_inclined c1 c2 exact time alpha true true.
Proof.
  intros Ha Ht He E1 E2 P1 P2 Mb Mc L. pose proof (lower_pos alpha time Ha Ht) as Lp. pose proof spi.
  destruct (exact_conv b1 b2 e (lower alpha time)) as [Cb Kb]; auto.
  destruct (exact_conv c1 c2 e (lower alpha time)) as [Cc Kc]; auto; [lra|lra|].
  unfold fls_inclined. rewrite E2. apply Rmult_lt_compat_l; [apply Rdiv_lt_0_compat; lra|].
  apply quad_lt; auto; [|intros; apply Kb; lra|intros; apply Kc; lra].
  intros s Hs. rewrite !exact_pd by lra. rewrite E1, E2. apply Rmult_lt_compat_l; [apply Rdiv_lt_0_compat; lra|].
  apply RInt_lt; auto.
  - intros xi _. rewrite <- E2. apply pd_param.
  - intros xi _. apply pd_param.
  - intros xi Hx. apply pd_lt; auto. intros. apply L; auto. lra.
Qed.
