(** finite_line_source for lists of boreholes. *)
From Coq Require Import Reals Lra Lia List Bool Psatz.
From Coquelicot Require Import Coquelicot.
From Verif Require Import Base FLS_Model FLS_Spec FLS_Erf_Proofs FLS_Proofs FLS_Sol_Proofs FLS_Steady_Proofs FLS_Exact_Proofs FLS_Incl_Proofs FLS_More_Proofs.
From Verif Require Import Approx_Model Approx_Spec.
Local Open Scope R_scope.

Lemma distances b1 b2 : list_distance b1 b2 = distance b1 b2.
Proof. unfold list_distance, distance. rewrite Rmax_comm. f_equal. f_equal. ring. Qed.

Lemma same_distance b1 b2 : distance b1 b2 = bh_distance b1 b2.
Proof. reflexivity. Qed.

Lemma pairwise_ext {T} (f g : bh -> bh -> T) l1 l2 : (forall b1 b2, In b1 l1 -> In b2 l2 -> f b1 b2 = g b1 b2) -> pairwise f l1 l2 = pairwise g l1 l2.
Proof. intros E. apply map_ext_in. intros b2 I2. apply map_ext_in. intros b1 I1. auto. Qed.

Section Lists.
  Variables (exp1 erfc : R -> R) (al : along) (uw : list (R * R)) (ab : option (list (R * R))).
  Variables (time : when) (alpha : R) (rea img : bool).
  Notation call := (finite_line_source exp1 erfc al uw ab time alpha rea img).
  Notation pair := (fls_pair exp1 erfc al uw ab time alpha rea img).

  Lemma lists_vertical l1 l2 : (forall b, In b l1 -> is_vertical b = true) -> (forall b, In b l2 -> is_vertical b = true) ->
    fls_lists exp1 erfc al uw ab time alpha rea img l1 l2 = pairwise pair l1 l2.
  Proof.
    intros V1 V2. unfold fls_lists. rewrite (proj2 (forallb_forall _ l1) V1), (proj2 (forallb_forall _ l2) V2). cbn.
    apply pairwise_ext. intros b1 b2 I1 I2. unfold fls_pair. rewrite (V1 _ I1), (V2 _ I2), distances. auto.
  Qed.

  (** when every pair of vertical boreholes has the same value by both formulas *)
  Lemma lists_mixed l1 l2 :
    (forall b1 b2, In b1 l1 -> In b2 l2 -> is_vertical b1 = true -> is_vertical b2 = true ->
       with_inclined exp1 al uw ab time alpha rea img b1 b2 = both_vertical exp1 erfc ab time alpha rea img (distance b1 b2) b1 b2) ->
    fls_lists exp1 erfc al uw ab time alpha rea img l1 l2 = pairwise pair l1 l2.
  Proof.
    intros E. destruct (forallb is_vertical l1 && forallb is_vertical l2) eqn:F.
    - apply andb_true_iff in F. destruct F as [F1 F2]. apply lists_vertical; apply forallb_forall; auto.
    - unfold fls_lists. rewrite F. apply pairwise_ext. intros b1 b2 I1 I2. unfold fls_pair.
      destruct (is_vertical b1 && is_vertical b2) eqn:V; [|auto]. apply andb_true_iff in V. apply E; tauto.
  Qed.

  Lemma call_lists a1 a2 : (forall l1 l2, l1 = as_list a1 -> l2 = as_list a2 -> fls_lists exp1 erfc al uw ab time alpha rea img l1 l2 = pairwise pair l1 l2) ->
    call a1 a2 = pairwise pair (as_list a1) (as_list a2).
  Proof. intros E. destruct a1, a2; cbn [finite_line_source]; auto. Qed.
End Lists.

(** The two formulas of a pair of vertical boreholes. *)
Lemma pieces_ext f g a : forall u, (forall s, 0 < s -> f s = g s) -> List.Forall (fun x => 0 < x) a -> match u with Some b => 0 < b | None => True end ->
  quad_pieces f u a = quad_pieces g u a.
Proof.
  induction a as [|x a IH]; intros u E P Hu; cbn [quad_pieces]; auto. inversion P; subst. f_equal.
  - destruct u as [b|].
    + apply RInt_ext. intros s Hs. apply E. pose proof (Rmin_glb_lt x b 0 H1 Hu). lra.
    + apply quad_ext. intros s Hs. apply E. lra.
  - apply IH; auto.
Qed.

Lemma formulas_agree exp1 erfc uw time alpha rea img b1 b2 :
  upright b1 -> upright b2 -> 0 < alpha -> positive_times time -> 0 < b_r b1 -> 0 < b_H b2 ->
  (rea = false \/ time = Forever /\ img = true -> apart b1 b2) ->
  with_inclined exp1 exact uw None time alpha rea img b1 b2 = both_vertical exp1 erfc None time alpha rea img (distance b1 b2) b1 b2.
Proof.
  intros U1 U2 Ha Ht Hr HH A. unfold with_inclined, both_vertical. rewrite same_distance. destruct time as [|t|ts]; cbn [positive_times] in Ht.
  - f_equal. apply up_steady; auto.
  - f_equal. apply up_transient; auto. lra.
  - unfold fls_inclined_array, fls_array. f_equal. f_equal. apply pieces_ext; auto.
    + intros s Hs. apply up_integrand; auto; lra.
    + apply List.Forall_forall. intros x I. apply in_map_iff in I. destruct I as [t [<- I]]. apply lower_pos; auto.
Qed.

(** * A vertical borehole on itself, steady state *)
Lemma log_less x h d : 0 < x -> 0 < h -> 0 < d -> ln ((x + h + sqrt ((x + h) ^ 2 + d ^ 2)) / (x + sqrt (x ^ 2 + d ^ 2))) < ln ((x + h) / x).
Proof.
  intros Hx Hh Hd. set (a := sqrt ((x + h) ^ 2 + d ^ 2)). set (c := sqrt (x ^ 2 + d ^ 2)).
  assert (A : a ^ 2 = (x + h) ^ 2 + d ^ 2) by (unfold a; rewrite <- Rsqr_pow2, Rsqr_sqrt; nra).
  assert (C : c ^ 2 = x ^ 2 + d ^ 2) by (unfold c; rewrite <- Rsqr_pow2, Rsqr_sqrt; nra).
  assert (A0 : 0 <= a) by apply sqrt_pos. assert (C0 : 0 <= c) by apply sqrt_pos.
  assert (L : x * a < (x + h) * c).
  { apply Rsqr_incrst_0; [|apply Rmult_le_pos; lra|apply Rmult_le_pos; lra]. rewrite !Rsqr_pow2, !Rpow_mult_distr, A, C.
    assert (D2 : 0 < d ^ 2) by (apply pow_lt; auto). assert (x ^ 2 < (x + h) ^ 2) by nra. nra. }
  apply ln_increasing; [apply Rdiv_lt_0_compat; lra|].
  apply Rmult_lt_reg_r with (x * (x + c)); [apply Rmult_lt_0_compat; lra|].
  replace ((x + h + a) / (x + c) * (x * (x + c))) with (x * (x + h + a)) by (field; lra).
  replace ((x + h) / x * (x * (x + c))) with ((x + h) * (x + c)) by (field; lra). lra.
Qed.

Lemma self_image_log b r2 u : upright b -> 0 < b_H b -> 0 < b_D b -> 0 <= u -> 0 <= r2 ->
  let x := u * b_H b + 2 * b_D b in
  inclined_log b b r2 (dzImg b b) (kImg_0 b b) (kImg_1 b b) (kImg_2 b b) u
  = ln ((x + b_H b + sqrt ((x + b_H b) ^ 2 + r2)) / (x + sqrt (x ^ 2 + r2))).
Proof.
  intros U HH HD Hu Hr x. destruct (up_img b b U U) as [-> [-> ->]]. unfold inclined_log, dzImg.
  assert (x0 : 0 < x) by (unfold x; nra).
  set (s1 := sqrt ((x + b_H b) ^ 2 + r2)). set (s2 := sqrt (x ^ 2 + r2)).
  replace (sqrt (r2 + (b_D b + b_D b) ^ 2 + u ^ 2 * b_H b ^ 2 + b_H b ^ 2 + 2 * u * b_H b * (b_D b + b_D b) - 2 * b_H b * - (b_D b + b_D b) - 2 * u * b_H b * b_H b * -1)) with s1
    by (unfold s1, x; f_equal; ring).
  replace (sqrt (r2 + (b_D b + b_D b) ^ 2 + u ^ 2 * b_H b ^ 2 + 2 * u * b_H b * (b_D b + b_D b))) with s2 by (unfold s2, x; f_equal; ring).
  f_equal. assert (0 <= s2) by apply sqrt_pos. unfold x in *. field. split; nra.
Qed.

Lemma self_steady exp1 erfc uw ab alpha b : upright b -> 0 < b_r b -> 0 < b_H b -> 0 < b_D b ->
  exists v w, with_inclined exp1 exact uw ab Forever alpha true true b b = v :: nil
    /\ both_vertical exp1 erfc ab Forever alpha true true (distance b b) b b = w :: nil /\ v < w.
Proof.
  intros U Hr HH HD. exists (inclined_steady b b exact true true), (fls_steady (distance b b) (b_H b) (b_D b) (b_H b) (b_D b) true true).
  split; [reflexivity|]. split; [reflexivity|]. rewrite same_distance. set (d := bh_distance b b).
  assert (Hd : 0 < d) by (unfold d, bh_distance; eapply Rlt_le_trans; [exact Hr|apply Rmax_l]).
  assert (E : rr b b = d ^ 2) by (symmetry; apply bh_dist_sq; lra).
  pose proof (up_log_real b b U U d Hd HH) as R. pose proof (up_log_image b b U U d Hd HH) as I.
  pose proof (log_ex_rea b b U U d Hd HH) as XR. pose proof (log_ex_img b b U U d Hd HH) as XI.
  unfold inclined_steady, fls_steady. rewrite inner_comb, E, comb_both, <- R.
  replace (comb false true (steady_term d) (b_H b) (b_D b) (b_H b) (b_D b)) with (- - comb false true (steady_term d) (b_H b) (b_D b) (b_H b) (b_D b)) by ring.
  rewrite <- I. replace (dx b b ^ 2 + dy b b ^ 2) with 0 by (unfold dx, dy; ring).
  set (f := fun u => inclined_log b b (d ^ 2) (dzRea b b) (kRea_0 b b) (kRea_1 b b) (kRea_2 b b) u) in *.
  set (g := fun u => inclined_log b b (d ^ 2) (dzImg b b) (kImg_0 b b) (kImg_1 b b) (kImg_2 b b) u) in *.
  set (k := fun u => inclined_log b b 0 (dzImg b b) (kImg_0 b b) (kImg_1 b b) (kImg_2 b b) u).
  assert (D2 : 0 < d ^ 2) by (apply pow_lt; auto).
  assert (shape : forall r2 u, 0 <= r2 -> 0 <= u -> inclined_log b b r2 (dzImg b b) (kImg_0 b b) (kImg_1 b b) (kImg_2 b b) u
    = ln ((u * b_H b + 2 * b_D b + b_H b + sqrt ((u * b_H b + 2 * b_D b + b_H b) ^ 2 + r2)) / (u * b_H b + 2 * b_D b + sqrt ((u * b_H b + 2 * b_D b) ^ 2 + r2)))).
  { intros r2 u P Q. apply self_image_log; auto. }
  set (k' := fun u => ln ((u * b_H b + 2 * b_D b + b_H b) / (u * b_H b + 2 * b_D b))).
  assert (pos : forall u, 0 <= u -> 0 < u * b_H b + 2 * b_D b) by (intros; nra).
  assert (kk : forall u, 0 <= u -> k u = k' u).
  { intros u Hu. unfold k, k'. rewrite shape by lra. pose proof (pos u Hu). rewrite !Rplus_0_r.
    rewrite !sqrt_pow2 by lra. f_equal. field. lra. }
  assert (kc : forall u, 0 <= u -> continuous k' u).
  { intros u Hu. pose proof (pos u Hu). apply (ex_derive_continuous k'). unfold k'. auto_derive. repeat split; auto; try (apply Rdiv_lt_0_compat; lra); try (apply Rmult_lt_0_compat; [lra|apply Rinv_0_lt_compat; lra]); lra. }
  assert (XK : ex_RInt k 0 1).
  { apply (ex_RInt_ext k'). { intros u Hu. rewrite Rmin_left, Rmax_right in Hu by lra. symmetry. apply kk. lra. }
    apply (ex_RInt_continuous k'). intros u Hu. rewrite Rmin_left, Rmax_right in Hu by lra. apply kc. lra. }
  assert (L : RInt g 0 1 < RInt k 0 1).
  { rewrite (RInt_ext k k'). 2:{ intros u Hu. rewrite Rmin_left, Rmax_right in Hu by lra. apply kk. lra. }
    apply RInt_lt; [lra|intros u Hu; apply kc; lra| |].
    - intros u Hu. apply (continuous_ext (fun u => S1 d (u * b_H b + (dzImg b b + b_H b)) - S1 d (u * b_H b + dzImg b b))).
      + intros v. symmetry. apply log_up_img; auto.
      + apply (continuous_minus (fun u => S1 d (u * b_H b + (dzImg b b + b_H b))) (fun u => S1 d (u * b_H b + dzImg b b))).
        * apply (continuous_comp (fun u => u * b_H b + (dzImg b b + b_H b)) (S1 d)); [|apply S1_cont; auto]. apply (ex_derive_continuous (fun u => u * b_H b + (dzImg b b + b_H b))). auto_derive. auto.
        * apply (continuous_comp (fun u => u * b_H b + dzImg b b) (S1 d)); [|apply S1_cont; auto]. apply (ex_derive_continuous (fun u => u * b_H b + dzImg b b)). auto_derive. auto.
    - intros u Hu. unfold g, k'. rewrite shape by lra. apply log_less; auto. apply pos. lra. }
  unfold exact in *. replace (RInt (fun u => f u - k u) 0 1) with (RInt f 0 1 - RInt k 0 1) by (symmetry; apply (RInt_minus f k 0 1); auto).
  set (A := RInt f 0 1) in *. set (K := RInt k 0 1) in *. set (G := RInt g 0 1) in *.
  match goal with |- ?p < ?q => replace p with ((A - K) / 2) by (field; lra); replace q with ((A - G) / 2) by (field; lra) end. lra.
Qed.
