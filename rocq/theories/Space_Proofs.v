(** Monotonicity of the mean response of a field in the distances and in the depth. *)
From Coq Require Import Reals Lra Lia List Bool Psatz.
From Coquelicot Require Import Coquelicot.
From Verif Require Import Base LinAlg FLS_Model FLS_Spec FLS_Erf_Proofs FLS_Proofs FLS_Sol_Proofs FLS_Line_Proofs.
From Verif Require Import Bore_Model Detailed_Model Detailed_Spec Detailed_Sol_Proofs Space_Spec.
Import ListNotations.
Local Open Scope R_scope.

(** * Depth *)
Lemma erf_concave a b h : 0 <= a -> a < b -> 0 < h -> erf (b + h) - erf b < erf (a + h) - erf a.
Proof.
  intros Pa L Ph. pose proof spi as SP.
  assert (Df : forall x, is_derive (fun x => erf (x + h) - erf x) x (2 / sqrt PI * exp (- (x + h) ^ 2) - 2 / sqrt PI * exp (- x ^ 2))).
  { intros x. apply (is_derive_minus (fun x => erf (x + h)) erf); [|apply erf_derive].
    replace (2 / sqrt PI * exp (- (x + h) ^ 2)) with (scal 1 (2 / sqrt PI * exp (- (x + h) ^ 2))) by (unfold scal; simpl; unfold mult; simpl; ring).
    apply (is_derive_comp erf (fun x => x + h)); [apply erf_derive|]. auto_derive; auto. }
  destruct (MVT_gen (fun x => erf (x + h) - erf x) a b (fun x => 2 / sqrt PI * exp (- (x + h) ^ 2) - 2 / sqrt PI * exp (- x ^ 2))) as (c & Hc & E).
  - intros x _. apply Df.
  - intros x _. apply continuity_pt_filterlim. apply (ex_derive_continuous (fun x => erf (x + h) - erf x)). eexists. apply Df.
  - rewrite Rmin_left, Rmax_right in Hc by lra. cbv beta in E.
    assert (K : exp (- (c + h) ^ 2) < exp (- c ^ 2)) by (apply exp_increasing; nra).
    assert (P2 : 0 < 2 / sqrt PI) by (apply Rdiv_lt_0_compat; lra).
    assert (F : 2 / sqrt PI * exp (- (c + h) ^ 2) < 2 / sqrt PI * exp (- c ^ 2)) by (apply Rmult_lt_compat_l; lra). nra.
Qed.

Lemma erfint_third x y h1 h2 : 0 <= x -> x < y -> 0 < h1 -> 0 < h2 ->
  erfint (y + h2 + h1) - erfint (y + h1) - erfint (y + h2) + erfint y < erfint (x + h2 + h1) - erfint (x + h1) - erfint (x + h2) + erfint x.
Proof.
  intros Px L P1 P2.
  set (f := fun z => erfint (z + (h2 + h1)) - erfint (z + h1) - erfint (z + h2) + erfint (z + 0)).
  assert (Df : forall z, is_derive f z (erf (z + (h2 + h1)) - erf (z + h1) - erf (z + h2) + erf (z + 0))).
  { assert (D1 : forall k z, is_derive (fun z => erfint (z + k)) z (erf (z + k))).
    { intros k z. replace (erf (z + k)) with (scal 1 (erf (z + k))) by (unfold scal; simpl; unfold mult; simpl; ring). apply (is_derive_comp erfint (fun z => z + k)); [apply erfint_derive|]. auto_derive; auto. }
    intros z. unfold f. apply (is_derive_plus (fun z => erfint (z + (h2 + h1)) - erfint (z + h1) - erfint (z + h2)) (fun z => erfint (z + 0))); [|apply D1].
    apply (is_derive_minus (fun z => erfint (z + (h2 + h1)) - erfint (z + h1)) (fun z => erfint (z + h2))); [|apply D1].
    apply (is_derive_minus (fun z => erfint (z + (h2 + h1))) (fun z => erfint (z + h1))); apply D1. }
  destruct (MVT_gen f x y (fun z => erf (z + (h2 + h1)) - erf (z + h1) - erf (z + h2) + erf (z + 0))) as (c & Hc & E).
  - intros z _. apply Df.
  - intros z _. apply continuity_pt_filterlim. apply (ex_derive_continuous f). eexists. apply Df.
  - rewrite Rmin_left, Rmax_right in Hc by lra. pose proof (erf_concave (c + 0) (c + h1) h2 ltac:(lra) ltac:(lra) P2) as K. replace (c + h1 + h2) with (c + (h2 + h1)) in K by ring. replace (c + 0 + h2) with (c + h2) in K by ring.
    unfold f in E. rewrite !Rplus_0_r in *. replace (y + (h2 + h1)) with (y + h2 + h1) in E by ring. replace (x + (h2 + h1)) with (x + h2 + h1) in E by ring. nra.
Qed.

Lemma integrand_deeper dis H1 D1 H2 D2 d s : 0 < s -> 0 < H1 -> 0 < H2 -> 0 <= D1 -> 0 <= D2 -> 0 < d ->
  fls_integrand dis H1 D1 H2 D2 true true s < fls_integrand dis H1 (D1 + d) H2 (D2 + d) true true s.
Proof.
  intros Ps P1 P2 Q1 Q2 Pd. rewrite !integrand_comb. apply Rmult_lt_compat_l.
  { apply Rmult_lt_0_compat; [apply Rinv_0_lt_compat, pow_lt; auto|apply exp_pos]. }
  unfold comb, kern. replace (D2 + d - (D1 + d)) with (D2 - D1) by ring.
  pose proof (erfint_third ((D2 + D1) * s) ((D2 + d + (D1 + d)) * s) (H1 * s) (H2 * s)) as K.
  rewrite <- !Rmult_plus_distr_r in K. assert (0 < H1 * s) by nra. assert (0 < H2 * s) by nra. assert (0 <= (D2 + D1) * s) by nra. assert ((D2 + D1) * s < (D2 + d + (D1 + d)) * s) by nra. lra.
Qed.

Lemma fls_deeper time alpha dis H1 D1 H2 D2 d : 0 < alpha -> 0 < time -> dis <> 0 -> 0 < H1 -> 0 < H2 -> 0 <= D1 -> 0 <= D2 -> 0 < d ->
  fls time alpha dis H1 D1 H2 D2 true true < fls time alpha dis H1 (D1 + d) H2 (D2 + d) true true.
Proof.
  intros Ha Ht Nd P1 P2 Q1 Q2 Pd. pose proof (lower_pos alpha time Ha Ht) as L. unfold fls. apply Rmult_lt_compat_l; [apply Rdiv_lt_0_compat; lra|].
  apply quad_lt; try (apply integrand_conv; auto); intros s Hs; try (apply integrand_cont; lra). apply integrand_deeper; lra.
Qed.

Section Mean.
  Variables (alpha t : R) (bs : list bore).
  Hypothesis Ha : 0 < alpha.
  Hypothesis Ht : 0 < t.
  Hypothesis V : forall b, In b bs -> btilt b = 0 /\ 0 < bH b /\ 0 <= bD b /\ 0 < br b.

  Lemma mean_deeper d : 0 < d -> bs <> [] -> field_mean alpha t bs < field_mean alpha t (map (deeper d) bs).
  Proof.
    intros Pd N. unfold field_mean. rewrite !map_map. cbn [deeper bH].
    apply Rmult_lt_compat_r; [apply Rinv_0_lt_compat, field_length; auto; intros b Hb; apply (V b Hb)|].
    apply Rsum_lt; auto. intros r Hr. apply Rmult_lt_compat_l; [apply (V r Hr)|]. rewrite map_map. apply Rsum_lt; auto. intros e He.
    unfold response. cbn [deeper bH bD br]. change (planar (deeper d e) (deeper d r)) with (planar e r).
    destruct (V r Hr) as (_ & ? & ? & ?), (V e He) as (_ & ? & ? & ?). apply fls_deeper; auto. pose proof (Rmax_r (planar e r) (br e)). lra.
  Qed.
End Mean.

(** * Distances *)
Lemma Rsum_index (f : bore -> R) bs : Rsum (map f bs) = Rsum (map (fun i => f (nth i bs no_bore)) (seq 0 (length bs))).
Proof.
  induction bs as [|b bs IH]; cbn [map length seq Rsum fold_right nth]; auto. rewrite <- seq_shift, map_map. cbn [nth]. rewrite <- IH. auto.
Qed.
Lemma Rsum_le_all {A} (f g : A -> R) l : (forall x, In x l -> f x <= g x) -> Rsum (map f l) <= Rsum (map g l).
Proof. intros E. induction l as [|a l IH]; cbn; [lra|]. pose proof (E a (or_introl eq_refl)). assert (Rsum (map f l) <= Rsum (map g l)) by (apply IH; intros; apply E; right; auto). lra. Qed.
Lemma Rsum_lt_one {A} (f g : A -> R) l x : In x l -> (forall x, In x l -> f x <= g x) -> f x < g x -> Rsum (map f l) < Rsum (map g l).
Proof.
  intros Hx E L. induction l as [|a l IH]; [contradiction|]. cbn. pose proof (E a (or_introl eq_refl)).
  assert (K : forall y, In y l -> f y <= g y) by (intros; apply E; right; auto). pose proof (Rsum_le_all f g l K). destruct Hx as [->|Hx]; [lra|]. specialize (IH Hx K). lra.
Qed.

Section Further.
  Variables (alpha t : R) (bs bs' : list bore).
  Hypothesis Ha : 0 < alpha.
  Hypothesis Ht : 0 < t.
  Hypothesis V : vertical_field bs.
  Hypothesis F : further bs bs'.

  Lemma further_response i j : (i < length bs)%nat -> (j < length bs)%nat ->
    response alpha t (nth i bs' no_bore) (nth j bs' no_bore) <= response alpha t (nth i bs no_bore) (nth j bs no_bore).
  Proof.
    intros Hi Hj. destruct F as (_ & E & P). unfold response. destruct (E i Hi) as (-> & -> & ->), (E j Hj) as (-> & -> & _).
    destruct (proj1 V _ (nth_In bs no_bore Hi)) as (_ & ? & ? & ?), (proj1 V _ (nth_In bs no_bore Hj)) as (_ & ? & ? & ?).
    set (r := br (nth i bs no_bore)) in *. set (p := planar (nth i bs no_bore) (nth j bs no_bore)). set (p' := planar (nth i bs' no_bore) (nth j bs' no_bore)).
    assert (Q : Rmax p r <= Rmax p' r).
    { destruct (Nat.eq_dec i j) as [->|N].
      - assert (Z : forall b, planar b b = 0) by (intros b; unfold planar; replace ((bx b - bx b) ^ 2 + (by_ b - by_ b) ^ 2) with 0 by ring; apply sqrt_0).
        unfold p, p'. rewrite !Z. lra.
      - apply Rle_max_compat_r. apply P; auto. }
    assert (0 < Rmax p r) by (pose proof (Rmax_r p r); lra).
    destruct Q as [Q|Q]; [left; apply fls_decr; auto|rewrite Q; lra].
  Qed.
  Lemma further_response_strict i j : (i < length bs)%nat -> (j < length bs)%nat -> i <> j -> planar (nth i bs no_bore) (nth j bs no_bore) < planar (nth i bs' no_bore) (nth j bs' no_bore) ->
    response alpha t (nth i bs' no_bore) (nth j bs' no_bore) < response alpha t (nth i bs no_bore) (nth j bs no_bore).
  Proof.
    intros Hi Hj N L. destruct F as (_ & E & _). unfold response. destruct (E i Hi) as (-> & -> & ->), (E j Hj) as (-> & -> & _).
    destruct (proj1 V _ (nth_In bs no_bore Hi)) as (_ & ? & ? & ?), (proj1 V _ (nth_In bs no_bore Hj)) as (_ & ? & ? & ?).
    pose proof (proj2 V i j Hi Hj N) as K. rewrite !Rmax_left by lra. apply fls_decr; auto. lra.
  Qed.

  Lemma further_length : Rsum (map bH bs') = Rsum (map bH bs).
  Proof.
    destruct F as (El & E & _). rewrite (Rsum_index bH bs'), (Rsum_index bH bs), El. f_equal. apply map_ext_in. intros i Hi. apply in_seq in Hi. apply E. lia.
  Qed.
  Lemma further_inner j : (j < length bs)%nat ->
    Rsum (map (fun e => response alpha t e (nth j bs' no_bore)) bs') <= Rsum (map (fun e => response alpha t e (nth j bs no_bore)) bs).
  Proof.
    intros Hj. rewrite (Rsum_index _ bs'), (Rsum_index _ bs), (proj1 F). apply Rsum_le_all. intros i Hi. apply in_seq in Hi. apply further_response; lia.
  Qed.
  Lemma mean_further : bs <> [] -> field_mean alpha t bs' <= field_mean alpha t bs.
  Proof.
    intros N. unfold field_mean. rewrite further_length. apply Rmult_le_compat_r. { left. apply Rinv_0_lt_compat, field_length; auto. intros b Hb. apply (proj1 V b Hb). }
    rewrite (Rsum_index _ bs'), (Rsum_index _ bs), (proj1 F). apply Rsum_le_all. intros j Hj. apply in_seq in Hj. destruct F as (_ & E & _). destruct (E j ltac:(lia)) as (-> & _).
    apply Rmult_le_compat_l; [left; apply (proj1 V), nth_In; lia|]. apply further_inner. lia.
  Qed.
  Lemma mean_further_strict : some_further bs bs' -> field_mean alpha t bs' < field_mean alpha t bs.
  Proof.
    intros (i & j & Hi & Hj & Nij & L). assert (N : bs <> []) by (intros ->; cbn in Hi; lia). unfold field_mean. rewrite further_length. apply Rmult_lt_compat_r. { apply Rinv_0_lt_compat, field_length; auto. intros b Hb. apply (proj1 V b Hb). }
    rewrite (Rsum_index _ bs'), (Rsum_index _ bs), (proj1 F). pose proof F as (_ & E & _).
    apply (Rsum_lt_one _ _ _ j). { apply in_seq. lia. }
    - intros k Hk. apply in_seq in Hk. destruct (E k ltac:(lia)) as (-> & _).
      apply Rmult_le_compat_l; [left; apply (proj1 V), nth_In; lia|]. apply further_inner. lia.
    - destruct (E j Hj) as (-> & _). apply Rmult_lt_compat_l; [apply (proj1 V), nth_In; lia|].
      rewrite (Rsum_index _ bs'), (Rsum_index _ bs), (proj1 F). apply (Rsum_lt_one _ _ _ i). { apply in_seq. lia. }
      + intros k Hk. apply in_seq in Hk. apply further_response; lia.
      + apply further_response_strict; auto.
  Qed.
End Further.
