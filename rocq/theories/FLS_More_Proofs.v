(** Splitting inclined boreholes, scaling, the image alone of a vertical borehole. *)
From Coq Require Import Reals Lra Lia List Bool Psatz.
From Verif Require Import Base FLS_Model FLS_Spec FLS_Erf_Proofs FLS_Proofs FLS_Sol_Proofs FLS_Line_Proofs FLS_Steady_Proofs FLS_Incl_Proofs FLS_Exact_Proofs.
From Coquelicot Require Import Coquelicot.
Local Open Scope R_scope.

Lemma part_point b c v : point (part b c) v = point b (fst c + v).
Proof. unfold point, part. cbn. f_equal; [f_equal|]; ring. Qed.

Lemma part_clear b1 b2 c ex image u : clear b1 b2 ex image u -> clear b1 (part b2 c) ex image u.
Proof. intros H v. rewrite part_point. apply H. Qed.

Definition pt b1 (image : bool) u := if image then mirror (point b1 (u * b_H b1)) else point b1 (u * b_H b1).

Lemma seen_f_cont b1 b2 ex image s u v : continuous (fun v => point_source s (ex + dist2 (pt b1 image u) (point b2 v))) v.
Proof.
  apply (ex_derive_continuous (fun v => point_source s (ex + dist2 (pt b1 image u) (point b2 v)))). unfold point_source, dist2, point. cbn [fst snd]. auto_derive. auto.
Qed.

Lemma seen_part b1 b2 c ex image s u :
  seen b1 (part b2 c) ex image s u = RInt (fun v => point_source s (ex + dist2 (pt b1 image u) (point b2 v))) (fst c) (fst c + snd c).
Proof.
  unfold seen. fold (pt b1 image u). set (f := fun v => point_source s (ex + dist2 (pt b1 image u) (point b2 v))).
  transitivity (RInt (fun v => scal 1 (f (1 * v + fst c))) 0 (snd c)).
  - apply RInt_ext. intros v _. unfold scal; simpl. unfold mult; simpl. unfold f. rewrite part_point, !Rmult_1_l, (Rplus_comm (fst c) v). reflexivity.
  - transitivity (RInt f (1 * 0 + fst c) (1 * snd c + fst c)); [|f_equal; ring].
    apply (RInt_comp_lin f 1 (fst c) 0 (snd c)). apply (ex_RInt_continuous f). intros. apply seen_f_cont.
Qed.

Lemma seen_split b1 b2 ex image s u hs : b_H b2 = Rsum hs ->
  seen b1 b2 ex image s u = Rsum (map (fun c => seen b1 (part b2 c) ex image s u) (split_at 0 hs)).
Proof.
  intros E. unfold seen at 1. fold (pt b1 image u). rewrite E. set (f := fun v => point_source s (ex + dist2 (pt b1 image u) (point b2 v))).
  rewrite (Rsum_map_ext _ (fun c => RInt f (fst c) (fst c + snd c))) by (intros; apply seen_part).
  assert (X : forall x y, ex_RInt f x y) by (intros; apply (ex_RInt_continuous f); intros; apply seen_f_cont).
  clear E. assert (G : forall D, RInt f D (D + Rsum hs) = Rsum (map (fun c => RInt f (fst c) (fst c + snd c)) (split_at D hs))).
  { induction hs as [|h hs IH]; intros D; cbn [split_at map Rsum fst snd].
    - rewrite Rplus_0_r. rewrite RInt_point. reflexivity.
    - rewrite <- IH. replace (D + (h + Rsum hs)) with (D + h + Rsum hs) by ring. rewrite <- (RInt_Chasles f D (D + h)) by auto. reflexivity. }
  rewrite <- G. f_equal. ring.
Qed.

Lemma Rsum_swap {A B} (f : A -> B -> R) l m : Rsum (map (fun x => Rsum (map (f x) m)) l) = Rsum (map (fun y => Rsum (map (fun x => f x y) l)) m).
Proof.
  induction l as [|x l IH]; cbn [map Rsum].
  - induction m; cbn [map Rsum]; [auto|]. rewrite <- IHm. ring.
  - rewrite IH. clear IH. induction m as [|y m IH]; cbn [map Rsum]; [ring|]. rewrite <- IH. ring.
Qed.

Lemma nodes_split uw b1 b2 ex image s hs : s <> 0 -> b_H b2 = Rsum hs ->
  nodes uw b1 b2 ex image s = Rsum (map (fun c => nodes uw b1 (part b2 c) ex image s) (split_at 0 hs)).
Proof.
  intros Hs E. rewrite <- nodes_eq by auto. unfold nodes_source.
  rewrite (Rsum_map_ext (fun c => nodes uw b1 (part b2 c) ex image s) (fun c => 2 / sqrt PI * Rsum (map (fun d => snd d * (b_H b1 * seen b1 (part b2 c) ex image s (fst d))) uw))).
  2: { intros. rewrite <- nodes_eq by auto. reflexivity. }
  rewrite Rsum_map_scal. f_equal. rewrite <- Rsum_swap. apply Rsum_map_ext. intros d _. rewrite (seen_split _ _ _ _ _ _ hs E).
  rewrite !Rsum_map_scal. auto.
Qed.

Lemma parts_split uw b1 b2 rea img s hs : s <> 0 -> b_H b2 = Rsum hs -> apart b1 b2 -> (forall c, In c (split_at 0 hs) -> apart b1 (part b2 c)) ->
  incl_parts uw b1 b2 rea img s = Rsum (map (fun c => incl_parts uw b1 (part b2 c) rea img s) (split_at 0 hs)).
Proof.
  intros Hs E A P.
  rewrite (Rsum_map_ext _ (fun c => (if rea then nodes uw b1 (part b2 c) 0 false s else 0) - (if img then nodes uw b1 (part b2 c) 0 true s else 0))).
  - unfold incl_parts. rewrite (excess_apart _ _ A). replace (if rea then 0 else 0) with 0 by (destruct rea; auto).
    rewrite !(nodes_split uw b1 b2 0 _ s hs Hs E). generalize (split_at 0 hs). intros l.
    induction l as [|c l IH]; cbn [map Rsum]; [destruct rea, img; ring|]. rewrite <- IH. destruct rea, img; ring.
  - intros c Hc. unfold incl_parts. rewrite (excess_apart _ _ (P c Hc)). destruct rea, img; auto.
Qed.

Lemma split_inclined uw b1 b2 time alpha rea img hs : 0 < alpha -> 0 < time -> b_H b2 = Rsum hs -> Rsum hs <> 0 -> (forall h, In h hs -> h <> 0) ->
  apart b1 b2 -> (forall c, In c (split_at 0 hs) -> apart b1 (part b2 c)) -> clear_nodes uw b1 b2 rea img ->
  b_H b2 * fls_inclined b1 b2 (rule uw) time alpha rea img
  = Rsum (map (fun c => snd c * fls_inclined b1 (part b2 c) (rule uw) time alpha rea img) (split_at 0 hs)).
Proof.
  intros Ha Ht E NS NZ A P C. pose proof (lower_pos alpha time Ha Ht) as L. unfold fls_inclined. set (a := lower alpha time) in *.
  destruct (conv_sum (fun c => inclined_integrand b1 (part b2 c) (rule uw) rea img) (split_at 0 hs) a) as [_ Q].
  { intros c Hc. apply incl_conv; auto. intros d Hd. destruct (C d Hd) as [R I]. rewrite (excess_apart _ _ A) in R, I. rewrite (excess_apart _ _ (P c Hc)).
    split; intros; apply part_clear; auto. }
  rewrite (Rsum_map_ext _ (fun c => (1/2) * quad_inf (inclined_integrand b1 (part b2 c) (rule uw) rea img) a)).
  2: { intros c Hc. apply split_in, NZ in Hc. cbn [part b_H]. field. auto. }
  rewrite Rsum_map_scal, <- Q.
  rewrite (quad_ext (inclined_integrand b1 b2 (rule uw) rea img) (fun s => Rsum (map (fun c => inclined_integrand b1 (part b2 c) (rule uw) rea img s) (split_at 0 hs)))).
  - rewrite E. field. auto.
  - intros s Hs. rewrite incl_rule by lra. rewrite (parts_split uw b1 b2 rea img s hs) by (auto; lra). apply Rsum_map_ext. intros. rewrite incl_rule by lra. auto.
Qed.

(** * Scaling *)

Lemma integrand_scale l dis H1 D1 H2 D2 rea img s : l <> 0 ->
  fls_integrand (l * dis) (l * H1) (l * D1) (l * H2) (l * D2) rea img s = l ^ 2 * fls_integrand dis H1 D1 H2 D2 rea img (l * s).
Proof.
  intros Hl. rewrite !integrand_comb.
  replace (comb rea img (kern s) (l * H1) (l * D1) (l * H2) (l * D2)) with (comb rea img (kern (l * s)) H1 D1 H2 D2).
  - replace (- (l * dis) ^ 2 * s ^ 2) with (- dis ^ 2 * (l * s) ^ 2) by ring.
    destruct (Req_dec s 0) as [->|N].
    + replace (l * 0) with 0 by ring. unfold comb, kern. rewrite !Rmult_0_r, !erfint_0. destruct rea, img; ring.
    + field. auto.
  - unfold comb, kern.
    replace ((l * D2 - l * D1 + l * H2) * s) with ((D2 - D1 + H2) * (l * s)) by ring. replace ((l * D2 - l * D1) * s) with ((D2 - D1) * (l * s)) by ring.
    replace ((l * D2 - l * D1 - l * H1) * s) with ((D2 - D1 - H1) * (l * s)) by ring. replace ((l * D2 - l * D1 + l * H2 - l * H1) * s) with ((D2 - D1 + H2 - H1) * (l * s)) by ring.
    replace ((l * D2 + l * D1 + l * H2) * s) with ((D2 + D1 + H2) * (l * s)) by ring. replace ((l * D2 + l * D1) * s) with ((D2 + D1) * (l * s)) by ring.
    replace ((l * D2 + l * D1 + l * H1) * s) with ((D2 + D1 + H1) * (l * s)) by ring. replace ((l * D2 + l * D1 + l * H2 + l * H1) * s) with ((D2 + D1 + H2 + H1) * (l * s)) by ring.
    auto.
Qed.

Lemma quad_scale f a l : 0 < l -> converges f a -> quad_inf (fun s => l * f (l * s)) (a / l) = quad_inf f a.
Proof.
  intros Hl [E L]. apply quad_unique.
  apply (is_lim_ext_loc (fun b => RInt f a (l * b))).
  - apply (after (a / l)). intros b Hb. symmetry.
    assert (Hab : a <= l * b) by (apply (Rmult_le_compat_l l) in Hb; [|lra]; replace (l * (a / l)) with a in Hb by (field; lra); auto).
    transitivity (RInt (fun s => scal l (f (l * s + 0))) (a / l) b).
    + apply RInt_ext. intros s _. rewrite Rplus_0_r. reflexivity.
    + replace (RInt f a (l * b)) with (RInt f (l * (a / l) + 0) (l * b + 0)) by (f_equal; field; lra).
      apply (RInt_comp_lin f l 0 (a / l) b). replace (l * (a / l) + 0) with a by (field; lra). rewrite Rplus_0_r. apply E. auto.
  - apply (is_lim_comp (fun b => RInt f a b) (fun b => l * b) p_infty (Finite (quad_inf f a)) p_infty); [apply quad_is; auto| |apply (after 0); intros; discriminate].
    apply is_lim_spec. intros M. exists (M / l). intros t Ht. apply (Rmult_lt_compat_l l) in Ht; auto.
    replace (l * (M / l)) with M in Ht by (field; lra). auto.
Qed.

Lemma lower_scale alpha time l : 0 < alpha -> 0 < time -> 0 < l -> lower alpha (l ^ 2 * time) = lower alpha time / l.
Proof.
  intros. unfold lower. replace (4 * alpha * (l ^ 2 * time)) with ((l * l) * (4 * alpha * time)) by ring.
  rewrite sqrt_mult by nra. rewrite sqrt_square by lra. assert (0 < sqrt (4 * alpha * time)) by (apply sqrt_lt_R0; nra). field. split; lra.
Qed.

Lemma fls_scale l time alpha dis H1 D1 H2 D2 rea img : 0 < l -> 0 < alpha -> 0 < time -> dis <> 0 -> H2 <> 0 ->
  fls (l ^ 2 * time) alpha (l * dis) (l * H1) (l * D1) (l * H2) (l * D2) rea img = fls time alpha dis H1 D1 H2 D2 rea img.
Proof.
  intros Hl Ha Ht Hd N. pose proof (lower_pos alpha time Ha Ht) as L. unfold fls. rewrite lower_scale by auto.
  rewrite (quad_ext _ (fun s => l * (l * fls_integrand dis H1 D1 H2 D2 rea img (l * s)))) by (intros; rewrite integrand_scale by lra; ring).
  pose proof (integrand_conv dis H1 D1 H2 D2 rea img _ L Hd) as C.
  rewrite (quad_scale (fun s => l * fls_integrand dis H1 D1 H2 D2 rea img s)); [|auto|apply conv_scal; auto].
  rewrite (proj2 (conv_scal l _ _ C)). field. split; auto. lra.
Qed.

(** time only appears together with the diffusivity *)
Lemma fls_diffusivity k time alpha dis H1 D1 H2 D2 rea img : k <> 0 ->
  fls (time / k) (k * alpha) dis H1 D1 H2 D2 rea img = fls time alpha dis H1 D1 H2 D2 rea img.
Proof. intros. unfold fls, lower. do 4 f_equal. field. auto. Qed.

(** * The image alone, of a vertical borehole on itself *)
Lemma image_alone b s : upright b -> 0 < b_r b -> 0 < b_H b -> s <> 0 ->
  inclined_integrand b b exact false true s < fls_integrand (bh_distance b b) (b_H b) (b_D b) (b_H b) (b_D b) false true s.
Proof.
  intros U Hr HH Hs.
  assert (E : inclined_integrand b b exact false true s = fls_integrand 0 (b_H b) (b_D b) (b_H b) (b_D b) false true s).
  { unfold inclined_integrand. replace (dx b b ^ 2 + dy b b ^ 2) with (0 ^ 2) by (unfold dx, dy; ring). rewrite (up_image b b U U) by auto. ring. }
  rewrite E. pose proof (integrand_image_neg 0 (b_H b) (b_D b) (b_H b) (b_D b) s Hs HH HH) as P. rewrite integrand_comb in P. rewrite !integrand_comb.
  assert (D : 0 < bh_distance b b) by (unfold bh_distance; eapply Rlt_le_trans; [exact Hr|apply Rmax_l]).
  replace (- 0 ^ 2 * s ^ 2) with 0 in * by ring. rewrite exp_0 in *.
  assert (X : exp (- bh_distance b b ^ 2 * s ^ 2) < 1).
  { rewrite <- exp_0. apply exp_increasing. pose proof (pow2_gt_0 s Hs). assert (0 < bh_distance b b ^ 2) by (apply pow_lt; auto). nra. }
  set (e := exp _) in *. set (i := / s ^ 2) in *. set (k := comb _ _ _ _ _ _ _) in *.
  apply Rminus_gt_0_lt. replace (i * e * k - i * 1 * k) with ((1 - e) * (- (i * 1 * k))) by ring. apply Rmult_lt_0_compat; lra.
Qed.
