(** The integrand as sources spread over a line; signs and monotonicity. *)
From Coq Require Import Reals Lra Lia List Bool Psatz.
From Verif Require Import Base FLS_Model FLS_Spec FLS_Erf_Proofs FLS_Proofs FLS_Sol_Proofs.
From Coquelicot Require Import Coquelicot.
Local Open Scope R_scope.

Lemma ps_split s a b : point_source s (a + b) = exp (- s ^ 2 * a) * exp (- s ^ 2 * b).
Proof. unfold point_source. rewrite <- exp_plus. f_equal. ring. Qed.

Lemma erf_lin_derive s c x : is_derive (fun x => erf (s * (x + c))) x (s * (2 / sqrt PI * exp (- s ^ 2 * (x + c) ^ 2))).
Proof.
  replace (s * (2 / sqrt PI * exp (- s ^ 2 * (x + c) ^ 2))) with (scal s (2 / sqrt PI * exp (- (s * (x + c)) ^ 2))).
  - apply (is_derive_comp erf (fun x => s * (x + c))); [apply erf_derive|]. auto_derive; auto. ring.
  - unfold scal; cbn. unfold mult; cbn. do 3 f_equal. ring.
Qed.

Lemma erfint_lin_derive s c x : is_derive (fun x => erfint (s * (x + c))) x (s * erf (s * (x + c))).
Proof.
  change (s * erf (s * (x + c))) with (scal s (erf (s * (x + c)))).
  apply (is_derive_comp erfint (fun x => s * (x + c))); [apply erfint_derive|]. auto_derive; auto. ring.
Qed.

(** the primitive of the sources over the emitting borehole *)
Definition prim1 (rea img : bool) (s dis z z' : R) : R :=
  sqrt PI / (2 * s) * exp (- s ^ 2 * dis ^ 2)
  * ((if rea then erf (s * (z' + - z)) else 0) - (if img then erf (s * (z' + z)) else 0)).

Lemma prim1_derive rea img s dis z z' : s <> 0 -> is_derive (prim1 rea img s dis z) z' (source rea img s dis z z').
Proof.
  intros Hs. unfold prim1, source. pose proof spi as SP.
  set (c := sqrt PI / (2 * s) * exp (- s ^ 2 * dis ^ 2)).
  replace ((if rea then point_source s (dis ^ 2 + (z - z') ^ 2) else 0) - (if img then point_source s (dis ^ 2 + (z + z') ^ 2) else 0))
    with (c * ((if rea then s * (2 / sqrt PI * exp (- s ^ 2 * (z' + - z) ^ 2)) else 0) - (if img then s * (2 / sqrt PI * exp (- s ^ 2 * (z' + z) ^ 2)) else 0))).
  - apply (is_derive_scal (fun z' => (if rea then erf (s * (z' + - z)) else 0) - (if img then erf (s * (z' + z)) else 0))).
    apply (is_derive_minus (fun z' => if rea then erf (s * (z' + - z)) else 0) (fun z' => if img then erf (s * (z' + z)) else 0)).
    + destruct rea; [apply erf_lin_derive|apply (is_derive_const 0)].
    + destruct img; [apply erf_lin_derive|apply (is_derive_const 0)].
  - rewrite !ps_split. replace ((z - z') ^ 2) with ((z' + - z) ^ 2) by ring. replace ((z + z') ^ 2) with ((z' + z) ^ 2) by ring.
    unfold c. destruct rea, img; field; repeat split; auto; lra.
Qed.

Lemma source_cont rea img s dis z z' : continuous (source rea img s dis z) z'.
Proof.
  unfold source, point_source.
  apply (continuous_minus (fun z' => if rea then exp (- s ^ 2 * (dis ^ 2 + (z - z') ^ 2)) else 0) (fun z' => if img then exp (- s ^ 2 * (dis ^ 2 + (z + z') ^ 2)) else 0)).
  - destruct rea; [|apply continuous_const]. apply (ex_derive_continuous (fun z' => exp (- s ^ 2 * (dis ^ 2 + (z - z') ^ 2)))). auto_derive. auto.
  - destruct img; [|apply continuous_const]. apply (ex_derive_continuous (fun z' => exp (- s ^ 2 * (dis ^ 2 + (z + z') ^ 2)))). auto_derive. auto.
Qed.

Lemma source_RInt rea img s dis z D1 H1 : s <> 0 ->
  RInt (source rea img s dis z) D1 (D1 + H1) = prim1 rea img s dis z (D1 + H1) - prim1 rea img s dis z D1.
Proof.
  intros Hs. apply (is_RInt_unique (source rea img s dis z)).
  apply (is_RInt_derive (prim1 rea img s dis z)).
  - intros. apply prim1_derive; auto.
  - intros. apply source_cont.
Qed.

(** the primitive over the receiving borehole *)
Definition prim2 (rea img : bool) (s dis z' z : R) : R :=
  sqrt PI / (2 * s ^ 2) * exp (- s ^ 2 * dis ^ 2)
  * (- (if rea then erfint (s * (z + - z')) else 0) - (if img then erfint (s * (z + z')) else 0)).

Lemma prim2_derive rea img s dis z' z : s <> 0 -> is_derive (prim2 rea img s dis z') z (prim1 rea img s dis z z').
Proof.
  intros Hs. unfold prim2, prim1. set (c := sqrt PI / (2 * s ^ 2) * exp (- s ^ 2 * dis ^ 2)).
  replace (sqrt PI / (2 * s) * exp (- s ^ 2 * dis ^ 2) * ((if rea then erf (s * (z' + - z)) else 0) - (if img then erf (s * (z' + z)) else 0)))
    with (c * (- (if rea then s * erf (s * (z + - z')) else 0) - (if img then s * erf (s * (z + z')) else 0))).
  - apply (is_derive_scal (fun z => - (if rea then erfint (s * (z + - z')) else 0) - (if img then erfint (s * (z + z')) else 0))).
    apply (is_derive_minus (fun z => - (if rea then erfint (s * (z + - z')) else 0)) (fun z => if img then erfint (s * (z + z')) else 0)).
    + apply (is_derive_opp (fun z => if rea then erfint (s * (z + - z')) else 0)). destruct rea; [apply erfint_lin_derive|apply (is_derive_const 0)].
    + destruct img; [apply erfint_lin_derive|apply (is_derive_const 0)].
  - replace (erf (s * (z' + - z))) with (- erf (s * (z + - z'))) by (rewrite <- erf_odd; f_equal; ring).
    replace (z' + z) with (z + z') by ring. unfold c. destruct rea, img; field; auto.
Qed.

Lemma prim1_cont rea img s dis z' z : continuous (fun z => prim1 rea img s dis z z') z.
Proof.
  unfold prim1. apply (continuous_mult (fun _ => sqrt PI / (2 * s) * exp (- s ^ 2 * dis ^ 2))); [apply continuous_const|].
  apply (continuous_minus (fun z => if rea then erf (s * (z' + - z)) else 0) (fun z => if img then erf (s * (z' + z)) else 0)).
  - destruct rea; [|apply continuous_const]. apply (continuous_comp (fun z => s * (z' + - z)) erf); [|apply erf_cont].
    apply (ex_derive_continuous (fun z => s * (z' + - z))). auto_derive. auto.
  - destruct img; [|apply continuous_const]. apply (continuous_comp (fun z => s * (z' + z)) erf); [|apply erf_cont].
    apply (ex_derive_continuous (fun z => s * (z' + z))). auto_derive. auto.
Qed.

Definition emitted rea img s dis D1 H1 z := prim1 rea img s dis z (D1 + H1) - prim1 rea img s dis z D1.

Lemma emitted_cont rea img s dis D1 H1 z : continuous (emitted rea img s dis D1 H1) z.
Proof. apply (continuous_minus (fun z => prim1 rea img s dis z (D1 + H1)) (fun z => prim1 rea img s dis z D1)); apply prim1_cont. Qed.

Lemma emitted_RInt rea img s dis D1 H1 D2 H2 : s <> 0 ->
  RInt (emitted rea img s dis D1 H1) D2 (D2 + H2)
  = sqrt PI / (2 * s ^ 2) * exp (- dis ^ 2 * s ^ 2) * comb rea img (kern s) H1 D1 H2 D2.
Proof.
  intros Hs. rewrite (is_RInt_unique _ _ _ _ (is_RInt_derive (fun z => prim2 rea img s dis (D1 + H1) z - prim2 rea img s dis D1 z) (emitted rea img s dis D1 H1) D2 (D2 + H2)
     ltac:(intros; apply (is_derive_minus (prim2 rea img s dis (D1 + H1)) (prim2 rea img s dis D1)); apply prim2_derive; auto)
     ltac:(intros; apply emitted_cont))).
  match goal with |- minus ?a ?b = ?c => change (@eq R (a - b) c) end. cbv beta. unfold prim2, comb, kern.
  replace (- s ^ 2 * dis ^ 2) with (- dis ^ 2 * s ^ 2) by ring.
  replace (s * (D2 + H2 + - (D1 + H1))) with ((D2 - D1 + H2 - H1) * s) by ring.
  replace (s * (D2 + H2 + (D1 + H1))) with ((D2 + D1 + H2 + H1) * s) by ring.
  replace (s * (D2 + - (D1 + H1))) with ((D2 - D1 - H1) * s) by ring.
  replace (s * (D2 + (D1 + H1))) with ((D2 + D1 + H1) * s) by ring.
  replace (s * (D2 + H2 + - D1)) with ((D2 - D1 + H2) * s) by ring.
  replace (s * (D2 + H2 + D1)) with ((D2 + D1 + H2) * s) by ring.
  replace (s * (D2 + - D1)) with ((D2 - D1) * s) by ring. replace (s * (D2 + D1)) with ((D2 + D1) * s) by ring.
  destruct rea, img; field; auto.
Qed.

Lemma line_source_eq dis H1 D1 H2 D2 rea img s : s <> 0 ->
  fls_integrand dis H1 D1 H2 D2 rea img s = line_source rea img s dis H1 D1 H2 D2.
Proof.
  intros Hs. unfold line_source. rewrite (RInt_ext _ (emitted rea img s dis D1 H1)).
  - rewrite emitted_RInt by auto. rewrite integrand_comb. pose proof spi. field. split; auto; lra.
  - intros z _. apply source_RInt; auto.
Qed.

(** * Signs *)

Lemma ps_lt s a b : s <> 0 -> a < b -> point_source s b < point_source s a.
Proof. intros Hs L. unfold point_source. apply exp_increasing. pose proof (pow2_gt_0 s Hs). nra. Qed.

Lemma ps_pos s a : 0 < point_source s a. Proof. apply exp_pos. Qed.

(** positivity of a double integral of sources *)
Lemma line_pos rea img s dis H1 D1 H2 D2 : s <> 0 -> 0 < H1 -> 0 < H2 ->
  (forall z z', D1 < z' < D1 + H1 -> D2 < z < D2 + H2 -> 0 < source rea img s dis z z') -> 0 < line_source rea img s dis H1 D1 H2 D2.
Proof.
  intros Hs P1 P2 H. unfold line_source. apply Rmult_lt_0_compat; [apply Rdiv_lt_0_compat; [lra|apply spi]|].
  rewrite (RInt_ext _ (emitted rea img s dis D1 H1)); [|intros; apply source_RInt; auto].
  apply RInt_gt_0; [lra| |intros; apply emitted_cont].
  intros z Hz. unfold emitted. rewrite <- source_RInt by auto. apply RInt_gt_0; [lra| |intros; apply source_cont].
  intros. apply H; auto.
Qed.

Lemma source_pos s dis z z' img : s <> 0 -> 0 < z -> 0 < z' -> 0 < source true img s dis z z'.
Proof.
  intros Hs Hz Hz'. unfold source. destruct img; [|pose proof (ps_pos s (dis ^ 2 + (z - z') ^ 2)); lra].
  assert (point_source s (dis ^ 2 + (z + z') ^ 2) < point_source s (dis ^ 2 + (z - z') ^ 2)); [|lra].
  apply ps_lt; auto. nra.
Qed.

Lemma integrand_pos dis H1 D1 H2 D2 img s : s <> 0 -> 0 < H1 -> 0 < H2 -> 0 <= D1 -> 0 <= D2 ->
  0 < fls_integrand dis H1 D1 H2 D2 true img s.
Proof.
  intros. rewrite line_source_eq by auto. apply line_pos; auto. intros. apply source_pos; auto; lra.
Qed.

Lemma integrand_image_neg dis H1 D1 H2 D2 s : s <> 0 -> 0 < H1 -> 0 < H2 -> fls_integrand dis H1 D1 H2 D2 false true s < 0.
Proof.
  intros Hs P1 P2. 
  assert (E : fls_integrand dis H1 D1 H2 D2 false true s = - fls_integrand dis H1 (- D1 - H1) H2 D2 true false s).
  { rewrite !integrand_comb. unfold comb.
    replace (D2 - (- D1 - H1) + H2) with (D2 + D1 + H2 + H1) by ring. replace (D2 - (- D1 - H1)) with (D2 + D1 + H1) by ring.
    replace (D2 + D1 + H2 + H1 - H1) with (D2 + D1 + H2) by ring. replace (D2 + D1 + H1 - H1) with (D2 + D1) by ring. ring. }
  rewrite E. apply Ropp_lt_gt_0_contravar. rewrite line_source_eq by auto. apply line_pos; auto.
  intros. unfold source. pose proof (ps_pos s (dis ^ 2 + (z - z') ^ 2)). lra.
Qed.

(** positive integrands *)
Lemma quad_pos f a : converges f a -> (forall s, a < s -> 0 < f s) -> (forall s, a <= s -> continuous f s) -> 0 < quad_inf f a.
Proof.
  intros C P F. assert (P1 : 0 < RInt f a (a + 1)) by (apply RInt_gt_0; [lra|intros; apply P; lra|intros; apply F; lra]).
  destruct C as [E L]. pose proof (quad_is f a L) as Q.
  assert (B : Rbar_le (RInt f a (a + 1)) (quad_inf f a)); [|change (RInt f a (a + 1) <= quad_inf f a) in B; lra].
  apply (is_lim_le_loc (fun _ => RInt f a (a + 1)) (fun b => RInt f a b) p_infty); [|apply is_lim_const|exact Q].
  apply (after (a + 1)). intros b Hb. rewrite <- (RInt_Chasles f a (a + 1) b).
  - assert (0 <= RInt f (a + 1) b); [|unfold plus; simpl; lra].
    apply RInt_ge_0; [lra|apply (ex_after f a); auto; lra|]. intros s Hs. left. apply P. lra.
  - apply E. lra.
  - apply (ex_after f a); auto; lra.
Qed.

Lemma quad_lt f g a : converges f a -> converges g a -> (forall s, a < s -> f s < g s) ->
  (forall s, a <= s -> continuous f s) -> (forall s, a <= s -> continuous g s) -> quad_inf f a < quad_inf g a.
Proof.
  intros Cf Cg L Ff Fg. destruct (conv_scal (-1) f a Cf) as [Cm Em]. destruct (conv_plus g (fun s => -1 * f s) a Cg Cm) as [C E].
  assert (0 < quad_inf (fun s => g s + -1 * f s) a); [|lra].
  apply quad_pos; auto.
  - intros s Hs. pose proof (L s Hs). lra.
  - intros s Hs. apply (continuous_plus g (fun s => -1 * f s)); [apply Fg; auto|].
    apply (continuous_mult (fun _ => -1) f); [apply continuous_const|apply Ff; auto].
Qed.

Lemma fls_pos time alpha dis H1 D1 H2 D2 img : 0 < alpha -> 0 < time -> dis <> 0 -> 0 < H1 -> 0 < H2 -> 0 <= D1 -> 0 <= D2 ->
  0 < fls time alpha dis H1 D1 H2 D2 true img.
Proof.
  intros Ha Ht Hd P1 P2 Q1 Q2. pose proof (lower_pos alpha time Ha Ht). unfold fls.
  apply Rmult_lt_0_compat; [apply Rdiv_lt_0_compat; lra|].
  apply quad_pos; [apply integrand_conv; auto|intros; apply integrand_pos; auto; lra|intros; apply integrand_cont; lra].
Qed.

Lemma fls_image_neg time alpha dis H1 D1 H2 D2 : 0 < alpha -> 0 < time -> dis <> 0 -> 0 < H1 -> 0 < H2 ->
  fls time alpha dis H1 D1 H2 D2 false true < 0.
Proof.
  intros Ha Ht Hd P1 P2. pose proof (lower_pos alpha time Ha Ht). unfold fls.
  assert (0 < (1/2) / H2) by (apply Rdiv_lt_0_compat; lra).
  assert (quad_inf (fls_integrand dis H1 D1 H2 D2 false true) (lower alpha time) < quad_inf (fun _ => 0) (lower alpha time)) as Q.
  { apply quad_lt; [apply integrand_conv; auto|apply conv_zero|intros; apply integrand_image_neg; auto; lra|intros; apply integrand_cont; lra|intros; apply continuous_const]. }
  rewrite (proj2 (conv_zero _)) in Q. nra.
Qed.

Lemma lower_lt alpha t1 t2 : 0 < alpha -> 0 < t1 -> t1 < t2 -> lower alpha t2 < lower alpha t1.
Proof.
  intros. unfold lower. apply Rmult_lt_compat_l; [lra|]. apply Rinv_lt_contravar.
  - apply Rmult_lt_0_compat; apply sqrt_lt_R0; nra.
  - apply sqrt_lt_1; nra.
Qed.

Lemma fls_incr t1 t2 alpha dis H1 D1 H2 D2 img : 0 < alpha -> 0 < t1 -> t1 < t2 -> dis <> 0 -> 0 < H1 -> 0 < H2 -> 0 <= D1 -> 0 <= D2 ->
  fls t1 alpha dis H1 D1 H2 D2 true img < fls t2 alpha dis H1 D1 H2 D2 true img.
Proof.
  intros Ha Ht L Hd P1 P2 Q1 Q2. pose proof (lower_lt alpha t1 t2 Ha Ht L). pose proof (lower_pos alpha t2 Ha ltac:(lra)). unfold fls.
  apply Rmult_lt_compat_l; [apply Rdiv_lt_0_compat; lra|].
  rewrite (proj2 (quad_chasles (fls_integrand dis H1 D1 H2 D2 true img) (lower alpha t2) (lower alpha t1) ltac:(lra) (integrand_conv _ _ _ _ _ _ _ _ H0 Hd))).
  assert (0 < RInt (fls_integrand dis H1 D1 H2 D2 true img) (lower alpha t2) (lower alpha t1)); [|lra].
  apply RInt_gt_0; [auto|intros; apply integrand_pos; auto; lra|intros; apply integrand_cont; lra].
Qed.

Lemma fls_decr time alpha d1 d2 H1 D1 H2 D2 img : 0 < alpha -> 0 < time -> 0 < d1 -> d1 < d2 -> 0 < H1 -> 0 < H2 -> 0 <= D1 -> 0 <= D2 ->
  fls time alpha d2 H1 D1 H2 D2 true img < fls time alpha d1 H1 D1 H2 D2 true img.
Proof.
  intros Ha Ht Hd L P1 P2 Q1 Q2. pose proof (lower_pos alpha time Ha Ht). unfold fls.
  apply Rmult_lt_compat_l; [apply Rdiv_lt_0_compat; lra|].
  apply quad_lt; [apply integrand_conv; auto; lra|apply integrand_conv; auto; lra| |intros; apply integrand_cont; lra|intros; apply integrand_cont; lra].
  intros s Hs. pose proof (integrand_pos 0 H1 D1 H2 D2 img s ltac:(lra) P1 P2 Q1 Q2) as P. rewrite integrand_comb in P. rewrite !integrand_comb.
  replace (- 0 ^ 2 * s ^ 2) with 0 in P by ring. rewrite exp_0 in P.
  assert (E : exp (- d2 ^ 2 * s ^ 2) < exp (- d1 ^ 2 * s ^ 2)).
  { apply exp_increasing. assert (0 < s ^ 2) by nra. assert (d1 ^ 2 < d2 ^ 2) by nra. nra. }
  set (e1 := exp (- d1 ^ 2 * s ^ 2)) in *. set (e2 := exp (- d2 ^ 2 * s ^ 2)) in *. set (i := / s ^ 2) in *. set (k := comb _ _ _ _ _ _ _) in *.
  apply Rminus_gt_0_lt. replace (i * e1 * k - i * e2 * k) with ((e1 - e2) * (i * 1 * k)) by ring. apply Rmult_lt_0_compat; lra.
Qed.
