(** The finite line source between vertical boreholes: convergence, reciprocity,
    splitting, real and image parts, arrays of times, equivalent boreholes. *)
From Coq Require Import Reals Lra Lia List Bool Psatz.
From Verif Require Import Base FLS_Model FLS_Spec FLS_Erf_Proofs FLS_Proofs.
From Coquelicot Require Import Coquelicot.
Local Open Scope R_scope.

Definition kern (s q : R) : R := erfint (q * s).

Lemma integrand_comb dis H1 D1 H2 D2 rea img s :
  fls_integrand dis H1 D1 H2 D2 rea img s = / s ^ 2 * exp (- dis ^ 2 * s ^ 2) * comb rea img (kern s) H1 D1 H2 D2.
Proof. unfold fls_integrand. rewrite inner_comb. auto. Qed.

Lemma equiv_comb dw H1 D1 H2 D2 rea img s :
  equivalent_integrand dw H1 D1 H2 D2 rea img s = Rsum (map (fun c => snd c * fls_integrand (fst c) H1 D1 H2 D2 rea img s) dw).
Proof.
  unfold equivalent_integrand. rewrite inner_comb. fold (kern s).
  change (fun q => erfint (q * s)) with (kern s). induction dw as [|c dw IH]; cbn [map Rsum]; [ring|].
  rewrite integrand_comb, <- IH. ring.
Qed.

Lemma erfint_cont x : continuous erfint x.
Proof. apply (ex_derive_continuous erfint). eexists. apply erfint_derive. Qed.

Lemma erf_cont x : continuous erf x.
Proof. apply (ex_derive_continuous erf). eexists. apply erf_derive. Qed.

Lemma kern_cont q s : continuous (fun s => kern s q) s.
Proof.
  unfold kern. apply (continuous_comp (fun s => q * s) erfint); [|apply erfint_cont].
  apply (ex_derive_continuous (fun s => q * s)). auto_derive. auto.
Qed.

Lemma cont_comb rea img H1 D1 H2 D2 (K : R -> R -> R) s : (forall q, continuous (fun s => K s q) s) ->
  continuous (fun s => comb rea img (K s) H1 D1 H2 D2) s.
Proof.
  intros C. unfold comb.
  assert (M : forall f g : R -> R, continuous f s -> continuous g s -> continuous (fun s => f s - g s) s)
    by (intros f g Hf Hg; apply (continuous_minus f g); auto).
  assert (P : forall f g : R -> R, continuous f s -> continuous g s -> continuous (fun s => f s + g s) s)
    by (intros f g Hf Hg; apply (continuous_plus f g); auto).
  assert (Z : continuous (fun _ : R => 0) s) by apply continuous_const.
  apply P; [destruct rea|destruct img]; auto; repeat first [apply M | apply P]; auto.
Qed.

Lemma integrand_cont dis H1 D1 H2 D2 rea img s : 0 < s -> continuous (fls_integrand dis H1 D1 H2 D2 rea img) s.
Proof.
  intros Hs. apply (continuous_ext (fun s => mult (/ s ^ 2 * exp (- dis ^ 2 * s ^ 2)) (comb rea img (kern s) H1 D1 H2 D2))).
  { intros x. rewrite integrand_comb. auto. }
  apply (continuous_mult (fun s => / s ^ 2 * exp (- dis ^ 2 * s ^ 2))).
  - apply (ex_derive_continuous (fun s => / s ^ 2 * exp (- dis ^ 2 * s ^ 2))). auto_derive. nra.
  - apply cont_comb. intros. apply kern_cont.
Qed.

(** a bound of a combination *)
Lemma comb_bound rea img K H1 D1 H2 D2 Q B :
  Rabs D1 + Rabs H1 + Rabs D2 + Rabs H2 <= Q -> (forall q, Rabs q <= Q -> Rabs (K q) <= B) -> Rabs (comb rea img K H1 D1 H2 D2) <= 8 * B.
Proof.
  intros HQ HK. assert (HB : 0 <= B).
  { pose proof (HK 0). rewrite Rabs_R0 in H. pose proof (Rabs_pos (K 0)).
    pose proof (Rabs_pos D1). pose proof (Rabs_pos D2). pose proof (Rabs_pos H1). pose proof (Rabs_pos H2). lra. }
  assert (X : forall a b c d e, Rabs a <= Rabs D1 -> Rabs b <= Rabs H1 -> Rabs c <= Rabs D2 -> Rabs d <= Rabs H2 -> e = a + b + c + d -> - B <= K e <= B).
  { intros a b c d e Ha Hb Hc Hd ->. apply Rabs_le_between. apply HK.
    pose proof (Rabs_triang (a + b + c) d). pose proof (Rabs_triang (a + b) c). pose proof (Rabs_triang a b). lra. }
  assert (Z : forall x, Rabs 0 <= Rabs x) by (intros; rewrite Rabs_R0; apply Rabs_pos).
  assert (N : forall x, Rabs (- x) <= Rabs x) by (intros; rewrite Rabs_Ropp; lra).
  pose proof (X (- D1) 0 D2 H2 (D2 - D1 + H2) (N _) (Z _) (Rle_refl _) (Rle_refl _) ltac:(ring)).
  pose proof (X (- D1) 0 D2 0 (D2 - D1) (N _) (Z _) (Rle_refl _) (Z _) ltac:(ring)).
  pose proof (X (- D1) (- H1) D2 0 (D2 - D1 - H1) (N _) (N _) (Rle_refl _) (Z _) ltac:(ring)).
  pose proof (X (- D1) (- H1) D2 H2 (D2 - D1 + H2 - H1) (N _) (N _) (Rle_refl _) (Rle_refl _) ltac:(ring)).
  pose proof (X D1 0 D2 H2 (D2 + D1 + H2) (Rle_refl _) (Z _) (Rle_refl _) (Rle_refl _) ltac:(ring)).
  pose proof (X D1 0 D2 0 (D2 + D1) (Rle_refl _) (Z _) (Rle_refl _) (Z _) ltac:(ring)).
  pose proof (X D1 H1 D2 0 (D2 + D1 + H1) (Rle_refl _) (Rle_refl _) (Rle_refl _) (Z _) ltac:(ring)).
  pose proof (X D1 H1 D2 H2 (D2 + D1 + H2 + H1) (Rle_refl _) (Rle_refl _) (Rle_refl _) (Rle_refl _) ltac:(ring)).
  apply Rabs_le. unfold comb. destruct rea, img; lra.
Qed.

Lemma integrand_conv dis H1 D1 H2 D2 rea img a : 0 < a -> dis <> 0 -> converges (fls_integrand dis H1 D1 H2 D2 rea img) a.
Proof.
  intros Ha Hd. set (Q := Rabs D1 + Rabs H1 + Rabs D2 + Rabs H2).
  assert (HQ : 0 <= Q) by (unfold Q; pose proof (Rabs_pos D1); pose proof (Rabs_pos D2); pose proof (Rabs_pos H1); pose proof (Rabs_pos H2); lra).
  assert (Hd2 : 0 < dis ^ 2) by (apply pow2_gt_0; auto).
  apply (conv_exp _ _ (8 * Q / a) (dis ^ 2 * a)); [nra|intros; apply integrand_cont; lra|].
  intros s Hs. rewrite integrand_comb.
  assert (B : Rabs (comb rea img (kern s) H1 D1 H2 D2) <= 8 * (Q * s)).
  { apply (comb_bound _ _ _ _ _ _ _ Q); [unfold Q; lra|]. intros q Hq. unfold kern.
    destruct (erfint_bound (q * s)) as [L U]. rewrite Rabs_right by lra. rewrite Rabs_mult, (Rabs_right s) in U by lra. nra. }
  rewrite !Rabs_mult. rewrite (Rabs_right (exp _)) by (left; apply exp_pos).
  assert (Hi : 0 < / s ^ 2) by (apply Rinv_0_lt_compat; nra). rewrite (Rabs_right (/ s ^ 2)) by lra.
  assert (E : exp (- dis ^ 2 * s ^ 2) <= exp (- (dis ^ 2 * a) * s)).
  { assert (- dis ^ 2 * s ^ 2 <= - (dis ^ 2 * a) * s) as [L|L].
    - replace (- dis ^ 2 * s ^ 2) with (- (dis ^ 2 * (s * s))) by ring. replace (- (dis ^ 2 * a) * s) with (- (dis ^ 2 * (a * s))) by ring.
      apply Ropp_le_contravar. apply Rmult_le_compat_l; [lra|]. apply Rmult_le_compat_r; lra.
    - left. apply exp_increasing; auto.
    - rewrite L. lra. }
  pose proof (exp_pos (- dis ^ 2 * s ^ 2)).
  apply Rle_trans with (/ s ^ 2 * exp (- dis ^ 2 * s ^ 2) * (8 * (Q * s))).
  - apply Rmult_le_compat_l; auto. apply Rmult_le_pos; lra.
  - replace (/ s ^ 2 * exp (- dis ^ 2 * s ^ 2) * (8 * (Q * s))) with (8 * Q * / s * exp (- dis ^ 2 * s ^ 2)) by (field; lra).
    apply Rmult_le_compat; [|lra| |exact E].
    + apply Rmult_le_pos; [lra|left; apply Rinv_0_lt_compat; lra].
    + apply Rmult_le_compat_l; [lra|]. apply Rinv_le_contravar; lra.
Qed.

Lemma lower_pos alpha time : 0 < alpha -> 0 < time -> 0 < lower alpha time.
Proof. intros. unfold lower. apply Rdiv_lt_0_compat; [lra|]. apply sqrt_lt_R0. nra. Qed.

(** * Reciprocity *)

Lemma integrand_swap dis H1 D1 H2 D2 rea img s :
  fls_integrand dis H1 D1 H2 D2 rea img s = fls_integrand dis H2 D2 H1 D1 rea img s.
Proof.
  rewrite !integrand_comb. f_equal. apply comb_swap. intros q. unfold kern.
  replace (- q * s) with (- (q * s)) by ring. apply erfint_even.
Qed.

Lemma recip_transient time alpha dis H1 D1 H2 D2 rea img : H1 <> 0 -> H2 <> 0 ->
  H2 * fls time alpha dis H1 D1 H2 D2 rea img = H1 * fls time alpha dis H2 D2 H1 D1 rea img.
Proof.
  intros N1 N2. unfold fls. rewrite (quad_ext _ (fls_integrand dis H2 D2 H1 D1 rea img)).
  - field. auto.
  - intros. apply integrand_swap.
Qed.

Lemma steady_flip dis q : dis <> 0 -> steady_term dis (- q) = steady_term dis q + (0 + (- 2 * ln (Rabs dis)) * q).
Proof.
  intros Hd. unfold steady_term. replace ((- q) ^ 2) with (q ^ 2) by ring. set (w := sqrt (q ^ 2 + dis ^ 2)).
  assert (P : 0 < dis ^ 2) by (apply pow2_gt_0; auto).
  assert (W2 : w * w = q ^ 2 + dis ^ 2) by (apply sqrt_def; nra).
  assert (W : Rabs q < w).
  { assert (0 <= w) by apply sqrt_pos. unfold Rabs. destruct (Rcase_abs q); nra. }
  apply Rabs_def2 in W.
  assert (E : ln (- q + w) + ln (q + w) = 2 * ln (Rabs dis)).
  { rewrite <- ln_mult by lra. replace ((- q + w) * (q + w)) with (Rabs dis * Rabs dis).
    - rewrite ln_mult by (apply Rabs_pos_lt; auto). ring.
    - rewrite <- Rabs_mult, Rabs_right by nra. nra. }
  replace (2 * ln (Rabs dis)) with (ln (- q + w) + ln (q + w)) by auto.
  replace (-2 * ln (Rabs dis)) with (- (ln (- q + w) + ln (q + w))) by lra. ring.
Qed.

Lemma recip_steady dis H1 D1 H2 D2 rea img : dis <> 0 -> H1 <> 0 -> H2 <> 0 ->
  H2 * fls_steady dis H1 D1 H2 D2 rea img = H1 * fls_steady dis H2 D2 H1 D1 rea img.
Proof.
  intros Hd N1 N2. unfold fls_steady. rewrite !inner_comb.
  assert (E : comb rea img (steady_term dis) H1 D1 H2 D2 = comb rea img (steady_term dis) H2 D2 H1 D1).
  { (* make the kernel even by subtracting a linear part *)
    set (c := ln (Rabs dis)).
    assert (X : forall H1 D1 H2 D2, comb rea img (steady_term dis) H1 D1 H2 D2 = comb rea img (fun q => steady_term dis q + (0 + (- c) * q)) H1 D1 H2 D2)
      by (intros; rewrite comb_affine; auto).
    rewrite X, (X H2). apply comb_swap. intros q. rewrite steady_flip by auto. fold c. ring. }
  rewrite E. field. auto.
Qed.

Definition approx_kern (exp1 erfc : R -> R) (ab : list (R * R)) (dd q0 : R) : R :=
  let q := Rabs q0 in
  q * Rsum (map (fun c => fst c * ((1/2) * exp1 (dd + q ^ 2 * snd c))) ab)
  + (let x3 := sqrt (dd + q ^ 2) in exp (- x3 ^ 2) / sqrt PI - x3 * erfc x3).

Lemma approx_comb exp1 erfc ab time alpha dis H1 D1 H2 D2 rea img : let L := sqrt (4 * alpha * time) in
  fls_approx exp1 erfc ab time alpha dis H1 D1 H2 D2 rea img
  = (1/2) / (H2 / L) * comb rea img (approx_kern exp1 erfc ab ((dis / L) ^ 2)) (H1 / L) (D1 / L) (H2 / L) (D2 / L).
Proof.
  intros L. unfold fls_approx. fold L. rewrite !map_map. rewrite !inner_comb. f_equal. rewrite <- comb_plus. apply comb_ext. auto.
Qed.

Lemma recip_approx exp1 erfc ab time alpha dis H1 D1 H2 D2 rea img : 0 < alpha -> 0 < time -> H1 <> 0 -> H2 <> 0 ->
  H2 * fls_approx exp1 erfc ab time alpha dis H1 D1 H2 D2 rea img = H1 * fls_approx exp1 erfc ab time alpha dis H2 D2 H1 D1 rea img.
Proof.
  intros Ha Ht N1 N2. rewrite !approx_comb. set (L := sqrt _).
  assert (0 < L) by (apply sqrt_lt_R0; nra).
  rewrite (comb_swap rea img (approx_kern _ _ _ _) (H2 / L)).
  - field. repeat split; auto; lra.
  - intros q. unfold approx_kern. rewrite Rabs_Ropp. auto.
Qed.

(** * Splitting *)

Lemma Rsum_map_scal {A} c (f : A -> R) l : Rsum (map (fun x => c * f x) l) = c * Rsum (map f l).
Proof. induction l; cbn; [ring|]. rewrite IHl. ring. Qed.

Lemma split_in D hs c : In c (split_at D hs) -> In (snd c) hs.
Proof. revert D. induction hs; cbn; intros D H; auto. destruct H as [<-|H]; eauto. Qed.

Lemma Rsum_map_ext {A} (f g : A -> R) l : (forall x, In x l -> f x = g x) -> Rsum (map f l) = Rsum (map g l).
Proof. intros E. f_equal. apply map_ext_in. auto. Qed.

Lemma split_receiver time alpha dis H1 D1 D2 hs rea img : 0 < alpha -> 0 < time -> dis <> 0 -> Rsum hs <> 0 -> (forall h, In h hs -> h <> 0) ->
  Rsum hs * fls time alpha dis H1 D1 (Rsum hs) D2 rea img
  = Rsum (map (fun c => snd c * fls time alpha dis H1 D1 (snd c) (fst c) rea img) (split_at D2 hs)).
Proof.
  intros Ha Ht Hd NS N. pose proof (lower_pos alpha time Ha Ht). unfold fls. set (a := lower alpha time) in *.
  destruct (conv_sum (fun c => fls_integrand dis H1 D1 (snd c) (fst c) rea img) (split_at D2 hs) a) as [_ E].
  { intros. apply integrand_conv; auto. }
  rewrite (Rsum_map_ext _ (fun c => (1/2) * quad_inf (fls_integrand dis H1 D1 (snd c) (fst c) rea img) a)).
  2: { intros c Hc. apply split_in, N in Hc. field. auto. }
  rewrite Rsum_map_scal, <- E. rewrite (quad_ext (fun s => Rsum (map (fun x => fls_integrand _ _ _ _ _ _ _ s) _)) (fls_integrand dis H1 D1 (Rsum hs) D2 rea img)).
  - field. auto.
  - intros s _. rewrite integrand_comb, <- comb_receiver, <- Rsum_map_scal. apply Rsum_map_ext. intros. apply integrand_comb.
Qed.

Lemma split_emitter time alpha dis D1 H2 D2 hs rea img : 0 < alpha -> 0 < time -> dis <> 0 ->
  fls time alpha dis (Rsum hs) D1 H2 D2 rea img
  = Rsum (map (fun c => fls time alpha dis (snd c) (fst c) H2 D2 rea img) (split_at D1 hs)).
Proof.
  intros Ha Ht Hd. pose proof (lower_pos alpha time Ha Ht). unfold fls. set (a := lower alpha time) in *.
  destruct (conv_sum (fun c => fls_integrand dis (snd c) (fst c) H2 D2 rea img) (split_at D1 hs) a) as [_ E].
  { intros. apply integrand_conv; auto. }
  rewrite Rsum_map_scal, <- E. f_equal. apply quad_ext.
  intros s _. rewrite integrand_comb, <- comb_emitter, <- Rsum_map_scal. apply Rsum_map_ext. intros. symmetry. apply integrand_comb.
Qed.

Lemma split_receiver_steady dis H1 D1 D2 hs rea img : Rsum hs <> 0 -> (forall h, In h hs -> h <> 0) ->
  Rsum hs * fls_steady dis H1 D1 (Rsum hs) D2 rea img
  = Rsum (map (fun c => snd c * fls_steady dis H1 D1 (snd c) (fst c) rea img) (split_at D2 hs)).
Proof.
  intros NS N. unfold fls_steady.
  rewrite (Rsum_map_ext _ (fun c => (1/2) * comb rea img (steady_term dis) H1 D1 (snd c) (fst c))).
  2: { intros c Hc. rewrite inner_comb. apply split_in, N in Hc. field. auto. }
  rewrite Rsum_map_scal, comb_receiver, inner_comb. field. auto.
Qed.

Lemma split_emitter_steady dis D1 H2 D2 hs rea img :
  fls_steady dis (Rsum hs) D1 H2 D2 rea img
  = Rsum (map (fun c => fls_steady dis (snd c) (fst c) H2 D2 rea img) (split_at D1 hs)).
Proof.
  unfold fls_steady.
  rewrite (Rsum_map_ext _ (fun c => (1/2) / H2 * comb rea img (steady_term dis) (snd c) (fst c) H2 D2)).
  2: { intros c Hc. rewrite inner_comb. auto. }
  rewrite Rsum_map_scal, comb_emitter, inner_comb. auto.
Qed.

Lemma split_div D hs L : split_at (D / L) (map (fun h => h / L) hs) = map (fun c => (fst c / L, snd c / L)) (split_at D hs).
Proof.
  revert D. induction hs; intros D; cbn; auto. f_equal. rewrite <- IHhs. f_equal. unfold Rdiv. ring.
Qed.

Lemma Rsum_div hs L : Rsum (map (fun h => h / L) hs) = Rsum hs / L.
Proof. induction hs; cbn; [unfold Rdiv; ring|]. rewrite IHhs. unfold Rdiv. ring. Qed.

Lemma split_receiver_approx exp1 erfc ab time alpha dis H1 D1 D2 hs rea img : 0 < alpha -> 0 < time -> Rsum hs <> 0 -> (forall h, In h hs -> h <> 0) ->
  Rsum hs * fls_approx exp1 erfc ab time alpha dis H1 D1 (Rsum hs) D2 rea img
  = Rsum (map (fun c => snd c * fls_approx exp1 erfc ab time alpha dis H1 D1 (snd c) (fst c) rea img) (split_at D2 hs)).
Proof.
  intros Ha Ht NS N. rewrite approx_comb. set (L := sqrt _). assert (0 < L) by (apply sqrt_lt_R0; nra).
  set (K := approx_kern _ _ _ _).
  rewrite (Rsum_map_ext _ (fun c => (1/2) * L * comb rea img K (H1 / L) (D1 / L) (snd c / L) (fst c / L))).
  2: { intros c Hc. rewrite approx_comb. fold L. fold K. apply split_in, N in Hc. field. split; auto. lra. }
  rewrite Rsum_map_scal.
  rewrite <- (map_map (fun c => (fst c / L, snd c / L)) (fun c => comb rea img K (H1 / L) (D1 / L) (snd c) (fst c))).
  rewrite <- split_div, comb_receiver, Rsum_div. field. split; auto. lra.
Qed.

Lemma split_emitter_approx exp1 erfc ab time alpha dis D1 H2 D2 hs rea img :
  fls_approx exp1 erfc ab time alpha dis (Rsum hs) D1 H2 D2 rea img
  = Rsum (map (fun c => fls_approx exp1 erfc ab time alpha dis (snd c) (fst c) H2 D2 rea img) (split_at D1 hs)).
Proof.
  rewrite approx_comb. set (L := sqrt _). set (K := approx_kern _ _ _ _).
  rewrite (Rsum_map_ext _ (fun c => (1/2) / (H2 / L) * comb rea img K (snd c / L) (fst c / L) (H2 / L) (D2 / L))).
  2: { intros c Hc. apply approx_comb. }
  rewrite Rsum_map_scal.
  rewrite <- (map_map (fun c => (fst c / L, snd c / L)) (fun c => comb rea img K (snd c) (fst c) (H2 / L) (D2 / L))).
  rewrite <- split_div, comb_emitter, Rsum_div. auto.
Qed.

(** * Real and image parts *)

Lemma parts_transient time alpha dis H1 D1 H2 D2 : 0 < alpha -> 0 < time -> dis <> 0 ->
  fls time alpha dis H1 D1 H2 D2 true true = fls time alpha dis H1 D1 H2 D2 true false + fls time alpha dis H1 D1 H2 D2 false true.
Proof.
  intros Ha Ht Hd. pose proof (lower_pos alpha time Ha Ht). unfold fls. rewrite <- Rmult_plus_distr_l. f_equal.
  rewrite <- (proj2 (conv_plus _ _ _ (integrand_conv dis H1 D1 H2 D2 true false _ H Hd) (integrand_conv dis H1 D1 H2 D2 false true _ H Hd))).
  apply quad_ext. intros s _. rewrite !integrand_comb, comb_both. ring.
Qed.

Lemma parts_steady dis H1 D1 H2 D2 :
  fls_steady dis H1 D1 H2 D2 true true = fls_steady dis H1 D1 H2 D2 true false + fls_steady dis H1 D1 H2 D2 false true.
Proof. unfold fls_steady. rewrite !inner_comb, comb_both. ring. Qed.

Lemma parts_approx exp1 erfc ab time alpha dis H1 D1 H2 D2 :
  fls_approx exp1 erfc ab time alpha dis H1 D1 H2 D2 true true
  = fls_approx exp1 erfc ab time alpha dis H1 D1 H2 D2 true false + fls_approx exp1 erfc ab time alpha dis H1 D1 H2 D2 false true.
Proof. rewrite !approx_comb, comb_both. ring. Qed.

(** * Arrays of times *)

Lemma pieces_sum f c acc upper l :
  (forall a, In a l -> converges f a) -> (forall a, In a l -> 0 < a) -> (forall x, 0 < x -> continuous f x) ->
  match upper with None => acc = 0 | Some b => 0 < b /\ converges f b /\ acc = c * quad_inf f b end ->
  cumsum_from acc (map (fun v => c * v) (quad_pieces f upper l)) = map (fun a => c * quad_inf f a) l.
Proof.
  revert acc upper. induction l as [|a l IH]; intros acc upper C P F U; cbn [quad_pieces map cumsum_from]; auto.
  assert (E : acc + c * match upper with Some b => RInt f a b | None => quad_inf f a end = c * quad_inf f a).
  { destruct upper as [b|]; [|rewrite U; ring]. destruct U as [Pb [Cb ->]].
    pose proof (P a (or_introl eq_refl)) as Pa. pose proof (C a (or_introl eq_refl)) as Ca.
    destruct (Rle_dec a b) as [L|L].
    - rewrite (proj2 (quad_chasles f a b L Ca)). ring.
    - rewrite (proj2 (quad_chasles f b a ltac:(lra) Cb)). rewrite <- (opp_RInt_swap f b a).
      + unfold opp; cbn. ring.
      + apply (proj1 Cb). lra. }
  assert (G : forall x, x = c * quad_inf f a -> x :: cumsum_from x (map (fun v => c * v) (quad_pieces f (Some a) l))
    = c * quad_inf f a :: map (fun a => c * quad_inf f a) l); [|exact (G _ E)].
  intros x ->. f_equal. apply IH.
  - intros. apply C. right; auto.
  - intros. apply P. right; auto.
  - auto.
  - repeat split; auto; apply C || apply P; left; auto.
Qed.

Lemma array_times times alpha dis H1 D1 H2 D2 rea img : 0 < alpha -> dis <> 0 -> (forall t, In t times -> 0 < t) ->
  fls_array times alpha dis H1 D1 H2 D2 rea img = map (fun t => fls t alpha dis H1 D1 H2 D2 rea img) times.
Proof.
  intros Ha Hd P. unfold fls_array. rewrite pieces_sum.
  - rewrite map_map. auto.
  - intros a Hin. apply in_map_iff in Hin. destruct Hin as [t [<- Ht]]. apply integrand_conv; auto. apply lower_pos; auto.
  - intros a Hin. apply in_map_iff in Hin. destruct Hin as [t [<- Ht]]. apply lower_pos; auto.
  - intros. apply integrand_cont; auto.
  - auto.
Qed.

(** * Equivalent boreholes *)

Lemma equiv_conv dw H1 D1 H2 D2 rea img a : 0 < a -> (forall c, In c dw -> fst c <> 0) ->
  converges (equivalent_integrand dw H1 D1 H2 D2 rea img) a /\
  quad_inf (equivalent_integrand dw H1 D1 H2 D2 rea img) a
  = Rsum (map (fun c => snd c * quad_inf (fls_integrand (fst c) H1 D1 H2 D2 rea img) a) dw).
Proof.
  intros Ha Hd.
  destruct (conv_sum (fun c s => snd c * fls_integrand (fst c) H1 D1 H2 D2 rea img s) dw a) as [C E].
  { intros c Hc. apply conv_scal, integrand_conv; auto. }
  split.
  - revert C. apply conv_ext. intros. symmetry. apply equiv_comb.
  - rewrite (quad_ext _ _ _ (fun s _ => equiv_comb dw H1 D1 H2 D2 rea img s)). rewrite E. apply Rsum_map_ext.
    intros c Hc. apply conv_scal, integrand_conv; auto.
Qed.

Lemma equiv_cont dw H1 D1 H2 D2 rea img s : 0 < s -> continuous (equivalent_integrand dw H1 D1 H2 D2 rea img) s.
Proof.
  intros Hs. apply (continuous_ext (fun s => Rsum (map (fun c => snd c * fls_integrand (fst c) H1 D1 H2 D2 rea img s) dw))).
  { intros. symmetry. apply equiv_comb. }
  induction dw as [|c dw IH]; cbn [map Rsum]; [apply continuous_const|].
  apply (continuous_plus (fun s => snd c * fls_integrand (fst c) H1 D1 H2 D2 rea img s)); auto.
  apply (continuous_mult (fun _ => snd c) (fls_integrand (fst c) H1 D1 H2 D2 rea img)); [apply continuous_const|apply integrand_cont; auto].
Qed.

Lemma equiv_mean time alpha dw H1 D1 H2 D2 N2 rea img : 0 < alpha -> 0 < time -> (forall c, In c dw -> fst c <> 0) -> N2 <> 0 -> H2 <> 0 ->
  fls_equivalent time alpha dw H1 D1 H2 D2 N2 rea img
  = Rsum (map (fun c => snd c * fls time alpha (fst c) H1 D1 H2 D2 rea img) dw) / N2.
Proof.
  intros Ha Ht Hd N0 NH. unfold fls_equivalent. rewrite (proj2 (equiv_conv dw H1 D1 H2 D2 rea img _ (lower_pos alpha time Ha Ht) Hd)).
  rewrite (Rsum_map_ext (fun c => snd c * fls time alpha (fst c) H1 D1 H2 D2 rea img)
             (fun c => (1/2) / H2 * (snd c * quad_inf (fls_integrand (fst c) H1 D1 H2 D2 rea img) (lower alpha time)))).
  - rewrite Rsum_map_scal. field. auto.
  - intros. unfold fls. ring.
Qed.

Lemma equiv_times times alpha dw H1 D1 H2 D2 N2 rea img : 0 < alpha -> (forall c, In c dw -> fst c <> 0) -> (forall t, In t times -> 0 < t) ->
  fls_equivalent_array times alpha dw H1 D1 H2 D2 N2 rea img = map (fun t => fls_equivalent t alpha dw H1 D1 H2 D2 N2 rea img) times.
Proof.
  intros Ha Hd P. unfold fls_equivalent_array. rewrite pieces_sum.
  - rewrite map_map. auto.
  - intros a Hin. apply in_map_iff in Hin. destruct Hin as [t [<- Ht]]. apply equiv_conv; auto. apply lower_pos; auto.
  - intros a Hin. apply in_map_iff in Hin. destruct Hin as [t [<- Ht]]. apply lower_pos; auto.
  - intros. apply equiv_cont; auto.
  - auto.
Qed.
