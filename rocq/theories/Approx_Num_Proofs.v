(** Bounds of the error function and of sums of exponentials in fixed-point arithmetic,
    and a check of their difference over all arguments. *)
From Coq Require Import Reals Lra Lia List Bool Psatz ZArith Machin.
From Coquelicot Require Import Coquelicot.
From Verif Require Import Base FLS_Model FLS_Spec FLS_Erf_Proofs FLS_Proofs FLS_Sol_Proofs.
From Verif Require Import Approx_Model Approx_Spec.
Local Open Scope R_scope.

(** Integers stand for multiples of 2^-28. *)
Definition one : Z := 268435456.
Notation O1 := (IZR one).

Lemma O1_pos : 0 < O1. Proof. unfold one. lra. Qed.
Lemma one_pow : one = (2 ^ 28)%Z. Proof. reflexivity. Qed.

Definition down (z : Z) : Z := Z.shiftr z 28.

Lemma div_le a b : (0 < b)%Z -> IZR (a / b) <= IZR a / IZR b.
Proof.
  intros Hb. assert (0 < IZR b) by (apply IZR_lt; lia). apply Rmult_le_reg_r with (IZR b); auto.
  replace (IZR a / IZR b * IZR b) with (IZR a) by (field; lra). rewrite <- mult_IZR. apply IZR_le. rewrite Z.mul_comm. apply Z.mul_div_le. auto.
Qed.

Lemma div_gt a b : (0 < b)%Z -> IZR a / IZR b <= IZR (a / b + 1).
Proof.
  intros Hb. assert (0 < IZR b) by (apply IZR_lt; lia). apply Rmult_le_reg_r with (IZR b); auto.
  replace (IZR a / IZR b * IZR b) with (IZR a) by (field; lra). rewrite <- mult_IZR. apply IZR_le.
  pose proof (Z.mod_pos_bound a b Hb). pose proof (Z.div_mod a b ltac:(lia)). nia.
Qed.

Lemma shift_div z k : (0 <= k)%Z -> Z.shiftr z k = (z / 2 ^ k)%Z.
Proof. apply Z.shiftr_div_pow2. Qed.

Lemma down_le z : IZR (down z) <= IZR z / O1.
Proof. unfold down. rewrite shift_div by lia. rewrite <- one_pow. apply div_le. reflexivity. Qed.
Lemma down_gt z : IZR z / O1 <= IZR (down z + 1).
Proof. unfold down. rewrite shift_div by lia. rewrite <- one_pow. apply div_gt. reflexivity. Qed.
Lemma down_nonneg z : (0 <= z)%Z -> (0 <= down z)%Z.
Proof. intros. unfold down. apply Z.shiftr_nonneg. auto. Qed.

(** The quotient of [z] by 2^k and by [b]. *)
Definition quot (k : Z) (z b : Z) : Z := (Z.shiftr z k / b)%Z.

Lemma quot_div k z b : (0 <= k)%Z -> (0 < b)%Z -> quot k z b = (z / (b * 2 ^ k))%Z.
Proof.
  intros Hk Hb. unfold quot. rewrite shift_div by auto. pose proof (Z.pow_pos_nonneg 2 k ltac:(lia) Hk). rewrite Z.div_div by lia. f_equal. lia.
Qed.

Definition Lo (t : Z) (x : R) : Prop := IZR t <= x * O1.
Definition Hi (t : Z) (x : R) : Prop := x * O1 <= IZR t.

(** * Exponentials *)
Lemma from_0 (f df : R -> R) : (forall x, is_derive f x (df x)) -> (forall x, 0 <= x -> 0 <= df x) -> f 0 = 0 -> forall x, 0 <= x -> 0 <= f x.
Proof.
  intros D P Z x Hx. destruct (MVT_gen f 0 x df) as [c [Hc E]].
  - intros y _. apply D.
  - intros y _. apply continuity_pt_filterlim, (ex_derive_continuous f). eexists. apply D.
  - rewrite Rmin_left, Rmax_right in Hc by auto. rewrite Z, !Rminus_0_r in E. rewrite E. apply Rmult_le_pos; auto. apply P. lra.
Qed.

Lemma exp_below1 z : 1 - z <= exp (- z).
Proof. pose proof (exp_ineq1_le (- z)). lra. Qed.

Lemma exp_above2 z : 0 <= z -> exp (- z) <= 1 - z + z ^ 2 / 2.
Proof.
  intros Hz. pose proof (from_0 (fun z => 1 - z + z ^ 2 / 2 - exp (- z)) (fun z => exp (- z) - (1 - z))) as F.
  specialize (F ltac:(intros; auto_derive; auto; field)). specialize (F ltac:(cbv beta; intros x _; pose proof (exp_below1 x); lra)).
  specialize (F ltac:(cbv beta; rewrite Ropp_0, exp_0; field) z Hz). lra.
Qed.

Lemma exp_below3 z : 0 <= z -> 1 - z + z ^ 2 / 2 - z ^ 3 / 6 <= exp (- z).
Proof.
  intros Hz. pose proof (from_0 (fun z => exp (- z) - (1 - z + z ^ 2 / 2 - z ^ 3 / 6)) (fun z => 1 - z + z ^ 2 / 2 - exp (- z))) as F.
  specialize (F ltac:(intros; auto_derive; auto; field)). specialize (F ltac:(cbv beta; intros x Hx; pose proof (exp_above2 x Hx); lra)).
  specialize (F ltac:(cbv beta; rewrite Ropp_0, exp_0; field) z Hz). lra.
Qed.

Definition sq_lo (t : Z) : Z := down (t * t).
Definition sq_hi (t : Z) : Z := (down (t * t) + 1)%Z.

Lemma sq_lo_ok t x : (0 <= t)%Z -> Lo t x -> (0 <= sq_lo t)%Z /\ Lo (sq_lo t) (x ^ 2).
Proof.
  intros Ht L. split; [apply down_nonneg; nia|]. unfold Lo, sq_lo in *. pose proof O1_pos. apply IZR_le in Ht.
  eapply Rle_trans; [apply down_le|]. rewrite mult_IZR.
  replace (x ^ 2 * O1) with ((x * O1) * (x * O1) / O1) by (field; lra).
  apply Rmult_le_compat_r; [left; apply Rinv_0_lt_compat; auto|]. apply Rmult_le_compat; lra.
Qed.

Lemma sq_hi_ok t x : 0 <= x -> Hi t x -> Hi (sq_hi t) (x ^ 2).
Proof.
  intros Hx L. unfold Hi, sq_hi in *. pose proof O1_pos.
  eapply Rle_trans; [|apply down_gt]. rewrite mult_IZR.
  replace (x ^ 2 * O1) with ((x * O1) * (x * O1) / O1) by (field; lra).
  assert (0 <= x * O1) by (apply Rmult_le_pos; lra).
  apply Rmult_le_compat_r; [left; apply Rinv_0_lt_compat; auto|]. apply Rmult_le_compat; lra.
Qed.

Fixpoint squares (f : Z -> Z) (k : nat) (t : Z) : Z := match k with O => t | S k => squares f k (f t) end.

Lemma sq_los k : forall t x, (0 <= t)%Z -> Lo t x -> (0 <= squares sq_lo k t)%Z /\ Lo (squares sq_lo k t) (x ^ (2 ^ k)).
Proof.
  induction k as [|k IH]; intros t x Ht L; cbn [squares].
  - split; auto. change (2 ^ 0)%nat with 1%nat. rewrite pow_1. auto.
  - destruct (sq_lo_ok t x Ht L) as [A B]. destruct (IH _ _ A B) as [C D]. split; auto.
    rewrite <- pow_mult in D. replace (2 ^ S k)%nat with (2 * 2 ^ k)%nat by (cbn; lia). auto.
Qed.

Lemma sq_his k : forall t x, 0 <= x -> Hi t x -> Hi (squares sq_hi k t) (x ^ (2 ^ k)).
Proof.
  induction k as [|k IH]; intros t x Ht L; cbn [squares].
  - change (2 ^ 0)%nat with 1%nat. rewrite pow_1. auto.
  - pose proof (sq_hi_ok t x Ht L) as B. pose proof (IH _ _ (pow2_ge_0 x) B) as D.
    rewrite <- pow_mult in D. replace (2 ^ S k)%nat with (2 * 2 ^ k)%nat by (cbn; lia). auto.
Qed.

Lemma exp_root y k : exp (- y) = exp (- (y / 2 ^ k)) ^ (2 ^ k).
Proof.
  rewrite <- exp_INR_mult || idtac.
  assert (G : forall n x, exp x ^ n = exp (INR n * x)).
  { intros n x. induction n as [|n IH]; [cbn; rewrite Rmult_0_l, exp_0; auto|]. cbn [pow]. rewrite IH, <- exp_plus. f_equal. rewrite S_INR. ring. }
  rewrite G. f_equal. rewrite pow_INR. change (INR 2) with 2. field. apply pow_nonzero. lra.
Qed.

Definition exp_lo (k : nat) (Y : Z) : Z :=
  (if 16 * one <=? Y then 0
   else if 128 * Y <=? one then one - Y
   else let z := Z.shiftr Y (Z.of_nat k) + 1 in
        squares sq_lo k (Z.max 0 (quot 56 (6 * one * one * one - 6 * z * one * one + 3 * z * z * one - z * z * z) 6)))%Z.

Definition exp_hi (k : nat) (Y : Z) : Z :=
  (if 16 * one <=? Y then 256
   else if 128 * Y <=? one then one - Y + Z.shiftr (Y * Y) 29 + 1
   else let z := Z.shiftr Y (Z.of_nat k) in
        squares sq_hi k (Z.shiftr (2 * one * one - 2 * z * one + z * z) 29 + 1))%Z.

Lemma exp_le x y : x <= y -> exp x <= exp y.
Proof. intros [L| ->]; [left; apply exp_increasing; auto|right; auto]. Qed.

Lemma IZR_pow2 k : IZR (2 ^ Z.of_nat k) = 2 ^ k.
Proof. rewrite <- pow_IZR. auto. Qed.

Lemma exp_lo_ok k Y y : 0 <= y -> Hi Y y -> (0 <= exp_lo k Y)%Z /\ Lo (exp_lo k Y) (exp (- y)).
Proof.
  intros Hy H. unfold exp_lo, Hi, Lo in *. pose proof O1_pos as P. pose proof (exp_pos (- y)) as E.
  destruct (16 * one <=? Y)%Z eqn:C1; [split; [lia|]; cbn; apply Rmult_le_pos; lra|].
  destruct (128 * Y <=? one)%Z eqn:C2.
  - apply Z.leb_le in C2. split; [unfold one in *; lia|]. rewrite minus_IZR. pose proof (exp_below1 y).
    apply Rle_trans with ((1 - y) * O1); [lra|]. apply Rmult_le_compat_r; lra.
  - set (z := (Z.shiftr Y (Z.of_nat k) + 1)%Z). rewrite quot_div by lia. change (6 * 2 ^ 56)%Z with (6 * one * one)%Z. rewrite (exp_root y k). apply sq_los; [lia|].
    assert (K2 : 0 < 2 ^ k) by (apply pow_lt; lra).
    assert (Y0 : (0 <= Y)%Z). { apply le_IZR. assert (0 <= y * O1) by (apply Rmult_le_pos; lra). lra. }
    assert (Z0 : (0 <= z)%Z). { unfold z. pose proof (proj2 (Z.shiftr_nonneg Y (Z.of_nat k)) Y0). lia. }
    assert (LZ : y / 2 ^ k * O1 <= IZR z).
    { unfold z. rewrite shift_div by lia. eapply Rle_trans; [|apply div_gt; apply Z.pow_pos_nonneg; lia]. rewrite IZR_pow2.
      unfold Rdiv. rewrite Rmult_assoc, (Rmult_comm (/ 2 ^ k)), <- Rmult_assoc. apply Rmult_le_compat_r; [left; apply Rinv_0_lt_compat; auto|auto]. }
    set (w := IZR z / O1). assert (Hw : 0 <= w) by (apply Rmult_le_pos; [apply IZR_le; auto|left; apply Rinv_0_lt_compat; auto]).
    assert (LW : y / 2 ^ k <= w).
    { apply Rmult_le_reg_r with O1; auto. unfold w. replace (IZR z / O1 * O1) with (IZR z) by (field; lra). auto. }
    unfold Lo. assert (B : IZR ((6 * one * one * one - 6 * z * one * one + 3 * z * z * one - z * z * z) / (6 * one * one)) <= exp (- w) * O1).
    { eapply Rle_trans; [apply div_le; reflexivity|]. repeat rewrite ?minus_IZR, ?plus_IZR, ?mult_IZR.
      replace ((6 * O1 * O1 * O1 - 6 * IZR z * O1 * O1 + 3 * IZR z * IZR z * O1 - IZR z * IZR z * IZR z) / (6 * O1 * O1))
        with ((1 - w + w ^ 2 / 2 - w ^ 3 / 6) * O1) by (unfold w; field; lra).
      apply Rmult_le_compat_r; [lra|]. apply exp_below3; auto. }
    assert (L : exp (- w) <= exp (- (y / 2 ^ k))) by (apply exp_le; lra).
    assert (exp (- w) * O1 <= exp (- (y / 2 ^ k)) * O1) by (apply Rmult_le_compat_r; lra).
    destruct (Z.max_spec 0 ((6 * one * one * one - 6 * z * one * one + 3 * z * z * one - z * z * z) / (6 * one * one))) as [[_ ->]|[_ ->]]; [lra|].
    apply Rmult_le_pos; [left; apply exp_pos|lra].
Qed.

Lemma exp16 : exp (- (16)) <= / 2 ^ 20.
Proof.
  pose proof (exp_above2 (/ 2) ltac:(lra)) as H. replace (1 - / 2 + (/ 2) ^ 2 / 2) with (5 / 8) in H by field.
  rewrite (exp_root 16 5). replace (16 / 2 ^ 5) with (/ 2) by field.
  pose proof (exp_pos (- / 2)).
  eapply Rle_trans; [apply pow_incr; split; [lra|exact H]|]. change (2 ^ 5)%nat with 32%nat.
  apply Rmult_le_reg_r with (2 ^ 20); [apply pow_lt; lra|]. rewrite Rinv_l by (apply pow_nonzero; lra). lra.
Qed.

Lemma exp_hi_ok k Y y : (0 <= Y)%Z -> Lo Y y -> Hi (exp_hi k Y) (exp (- y)).
Proof.
  intros Y0 H. unfold exp_hi, Hi, Lo in *. pose proof O1_pos as P. pose proof (exp_pos (- y)) as E.
  assert (Hy : 0 <= y). { apply IZR_le in Y0. apply Rmult_le_reg_r with O1; lra. }
  destruct (16 * one <=? Y)%Z eqn:C1.
  - apply Z.leb_le in C1. assert (16 <= y). { apply Rmult_le_reg_r with O1; auto. apply IZR_le in C1. rewrite mult_IZR in C1. lra. }
    pose proof (exp_le (- y) (- (16)) ltac:(lra)). pose proof exp16. apply Rle_trans with (/ 2 ^ 20 * O1); [apply Rmult_le_compat_r; lra|].
    unfold one. lra.
  - set (v := IZR Y / O1). assert (LV : v <= y). { apply Rmult_le_reg_r with O1; auto. unfold v. replace (IZR Y / O1 * O1) with (IZR Y) by (field; lra). auto. }
    assert (V0 : 0 <= v) by (apply Rmult_le_pos; [apply IZR_le; auto|left; apply Rinv_0_lt_compat; auto]).
    destruct (128 * Y <=? one)%Z eqn:C2.
    + apply Rle_trans with (exp (- v) * O1); [apply Rmult_le_compat_r; [lra|apply exp_le; lra]|].
      apply Rle_trans with ((1 - v + v ^ 2 / 2) * O1); [apply Rmult_le_compat_r; [lra|apply exp_above2; auto]|].
      rewrite shift_div by lia. pose proof (div_gt (Y * Y) (2 ^ 29) ltac:(reflexivity)) as D. rewrite mult_IZR in D.
      rewrite !plus_IZR, minus_IZR. rewrite plus_IZR in D. change (2 ^ 29)%Z with (2 * one)%Z in D at 1. rewrite mult_IZR in D.
      replace ((1 - v + v ^ 2 / 2) * O1) with (O1 - IZR Y + IZR Y * IZR Y / (2 * O1)) by (unfold v; field; lra). lra.
    + set (z := Z.shiftr Y (Z.of_nat k)). rewrite (shift_div _ 29) by lia. change (2 ^ 29)%Z with (2 * one)%Z. rewrite (exp_root y k). apply sq_his; [left; apply exp_pos|].
      assert (K2 : 0 < 2 ^ k) by (apply pow_lt; lra).
      assert (Z0 : (0 <= z)%Z) by (apply Z.shiftr_nonneg; auto).
      set (w := IZR z / O1). assert (Hw : 0 <= w) by (apply Rmult_le_pos; [apply IZR_le; auto|left; apply Rinv_0_lt_compat; auto]).
      assert (LW : w <= y / 2 ^ k).
      { apply Rmult_le_reg_r with O1; auto. unfold w. replace (IZR z / O1 * O1) with (IZR z) by (field; lra).
        unfold z. rewrite shift_div by lia. eapply Rle_trans; [apply div_le; apply Z.pow_pos_nonneg; lia|]. rewrite IZR_pow2.
        unfold Rdiv. rewrite (Rmult_assoc y), (Rmult_comm (/ 2 ^ k) O1), <- Rmult_assoc. apply Rmult_le_compat_r; [left; apply Rinv_0_lt_compat; auto|auto]. }
      unfold Hi. apply Rle_trans with (exp (- w) * O1); [apply Rmult_le_compat_r; [lra|apply exp_le; lra]|].
      apply Rle_trans with ((1 - w + w ^ 2 / 2) * O1); [apply Rmult_le_compat_r; [lra|apply exp_above2; auto]|].
      eapply Rle_trans; [|apply div_gt; reflexivity]. repeat rewrite ?minus_IZR, ?plus_IZR, ?mult_IZR.
      right. unfold w. field. lra.
Qed.

(** * Sums of exponentials: entries (am, ad, bn, bd) for - am/ad * exp (- bn/bd * x^2) *)
Record entry := mkent { e_am : Z; e_ad : Z; e_bn : Z; e_bd : Z }.
Definition ent_ok (e : entry) : bool := ((0 <=? e_am e) && (0 <? e_ad e) && (0 <=? e_bn e) && (0 <? e_bd e))%Z.
Definition ent_ab (e : entry) : R * R := (- (IZR (e_am e) / IZR (e_ad e)), IZR (e_bn e) / IZR (e_bd e)).
Definition row_ab (r : list entry) : list (R * R) := (1, 0) :: map ent_ab r.

Fixpoint sums (X : Z) (r : list entry) : Z * Z :=
  match r with
  | [] => (one, one)
  | e :: r =>
      let (lo, hi) := sums X r in
      let Y := quot 28 (e_bn e * (X * X)) (e_bd e) in
      (lo - (e_am e * exp_hi 6 Y / e_ad e + 1), hi - e_am e * exp_lo 6 (Y + 1) / e_ad e)%Z
  end.

Lemma ent_parts e : ent_ok e = true -> (0 <= e_am e /\ 0 < e_ad e /\ 0 <= e_bn e /\ 0 < e_bd e)%Z.
Proof. unfold ent_ok. rewrite !andb_true_iff, !Z.leb_le, !Z.ltb_lt. tauto. Qed.

Lemma sums_ok X r : (0 <= X)%Z -> forallb ent_ok r = true ->
  Lo (fst (sums X r)) (exp_sum (row_ab r) (IZR X / O1)) /\ Hi (snd (sums X r)) (exp_sum (row_ab r) (IZR X / O1)).
Proof.
  intros HX. pose proof O1_pos as P. induction r as [|e r IH]; intros F; cbn [sums forallb] in *.
  - unfold exp_sum, Lo, Hi. cbn -[one pow]. replace (-0 * (IZR X / O1) ^ 2) with 0 by ring. rewrite exp_0. lra.
  - apply andb_true_iff in F. destruct F as [E F]. specialize (IH F). destruct (sums X r) as [lo hi]. cbn [fst snd] in *.
    apply ent_parts in E. destruct E as (A1 & A2 & A3 & A4).
    assert (S : exp_sum (row_ab (e :: r)) (IZR X / O1) = exp_sum (row_ab r) (IZR X / O1)
      - IZR (e_am e) / IZR (e_ad e) * exp (- (IZR (e_bn e) / IZR (e_bd e) * (IZR X / O1) ^ 2))).
    { unfold exp_sum, row_ab. cbn [map Rsum fst snd ent_ab].
      replace (- (IZR (e_bn e) / IZR (e_bd e)) * (IZR X / O1) ^ 2) with (- (IZR (e_bn e) / IZR (e_bd e) * (IZR X / O1) ^ 2)) by ring. ring. }
    rewrite S. rewrite quot_div, <- one_pow by lia. set (y := IZR (e_bn e) / IZR (e_bd e) * (IZR X / O1) ^ 2). set (Y := (e_bn e * (X * X) / (e_bd e * one))%Z).
    assert (D2 : 0 < IZR (e_ad e)) by (apply IZR_lt; auto). assert (D4 : 0 < IZR (e_bd e)) by (apply IZR_lt; auto).
    assert (Q : y * O1 = IZR (e_bn e * (X * X)) / IZR (e_bd e * one)) by (unfold y; rewrite !mult_IZR; field; lra).
    assert (OB : (0 < e_bd e * one)%Z) by (unfold one; lia).
    assert (Y0 : (0 <= Y)%Z) by (apply Z.div_pos; [nia|auto]).
    assert (LY : Lo Y y) by (unfold Lo; rewrite Q; apply div_le; auto).
    assert (HY : Hi (Y + 1) y) by (unfold Hi; rewrite Q; apply div_gt; auto).
    assert (y0 : 0 <= y). { unfold y. apply Rmult_le_pos; [apply Rmult_le_pos; [apply IZR_le; auto|left; apply Rinv_0_lt_compat; auto]|apply pow2_ge_0]. }
    pose proof (exp_hi_ok 6 Y y Y0 LY) as BH. destruct (exp_lo_ok 6 (Y + 1) y y0 HY) as [_ BL].
    unfold Lo, Hi in *. rewrite !minus_IZR. apply IZR_le in A1.
    assert (PA : 0 <= IZR (e_am e) / IZR (e_ad e)) by (apply Rmult_le_pos; [auto|left; apply Rinv_0_lt_compat; auto]).
    pose proof (div_gt (e_am e * exp_hi 6 Y) (e_ad e) A2) as U. rewrite mult_IZR in U.
    pose proof (div_le (e_am e * exp_lo 6 (Y + 1)) (e_ad e) A2) as V. rewrite mult_IZR in V.
    assert (U' : IZR (e_am e) / IZR (e_ad e) * (exp (- y) * O1) <= IZR (e_am e) * IZR (exp_hi 6 Y) / IZR (e_ad e)).
    { replace (IZR (e_am e) * IZR (exp_hi 6 Y) / IZR (e_ad e)) with (IZR (e_am e) / IZR (e_ad e) * IZR (exp_hi 6 Y)) by (field; lra).
      apply Rmult_le_compat_l; auto. }
    assert (V' : IZR (e_am e) * IZR (exp_lo 6 (Y + 1)) / IZR (e_ad e) <= IZR (e_am e) / IZR (e_ad e) * (exp (- y) * O1)).
    { replace (IZR (e_am e) * IZR (exp_lo 6 (Y + 1)) / IZR (e_ad e)) with (IZR (e_am e) / IZR (e_ad e) * IZR (exp_lo 6 (Y + 1))) by (field; lra).
      apply Rmult_le_compat_l; auto. }
    rewrite !Rmult_minus_distr_r. split; lra.
Qed.

Lemma sum_incr r x y : forallb ent_ok r = true -> 0 <= x -> x <= y -> exp_sum (row_ab r) x <= exp_sum (row_ab r) y <= 1.
Proof.
  intros F Hx L. unfold exp_sum, row_ab. cbn [map Rsum fst snd].
  replace (- 0 * x ^ 2) with 0 by ring. replace (- 0 * y ^ 2) with 0 by ring. rewrite exp_0.
  assert (Q : Rsum (map (fun c => fst c * exp (- snd c * x ^ 2)) (map ent_ab r)) <= Rsum (map (fun c => fst c * exp (- snd c * y ^ 2)) (map ent_ab r)) <= 0).
  2:{ lra. }
  induction r as [|e r IH]; cbn [map Rsum fst snd ent_ab forallb] in *; [lra|].
  apply andb_true_iff in F. destruct F as [E F]. specialize (IH F). apply ent_parts in E. destruct E as (A1 & A2 & A3 & A4).
  apply IZR_le in A1, A3. apply IZR_lt in A2, A4.
  assert (PA : 0 <= IZR (e_am e) / IZR (e_ad e)) by (apply Rmult_le_pos; [auto|left; apply Rinv_0_lt_compat; auto]).
  assert (PB : 0 <= IZR (e_bn e) / IZR (e_bd e)) by (apply Rmult_le_pos; [auto|left; apply Rinv_0_lt_compat; auto]).
  assert (X2 : x ^ 2 <= y ^ 2) by (apply pow_incr; lra).
  set (a := IZR (e_am e) / IZR (e_ad e)) in *. set (b := IZR (e_bn e) / IZR (e_bd e)) in *.
  assert (B2 : b * x ^ 2 <= b * y ^ 2) by (apply Rmult_le_compat_l; auto).
  assert (EE : exp (- b * y ^ 2) <= exp (- b * x ^ 2)) by (apply exp_le; lra).
  pose proof (exp_pos (- b * y ^ 2)).
  assert (a * exp (- b * y ^ 2) <= a * exp (- b * x ^ 2)) by (apply Rmult_le_compat_l; auto).
  assert (0 <= a * exp (- b * y ^ 2)) by (apply Rmult_le_pos; lra). lra.
Qed.

(** * The error function *)
Fixpoint coef (k : nat) : R := match k with O => 1 | S k => 2 * coef k / INR (2 * k + 3) end.
Definition mono (k : nat) (x : R) : R := coef k * x ^ (2 * k + 1).

Lemma coef_pos k : 0 < coef k.
Proof. induction k as [|k IH]; cbn [coef]; [lra|]. apply Rdiv_lt_0_compat; [lra|]. apply lt_0_INR. lia. Qed.

Definition mono' (k : nat) (x : R) : R := INR (2 * k + 1) * coef k * x ^ (2 * k).

Lemma mono_derive k x : is_derive (mono k) x (mono' k x).
Proof.
  unfold mono, mono'. pose proof (is_derive_scal (fun x => x ^ (2 * k + 1)) x (coef k) _ (is_derive_pow (fun x => x) (2 * k + 1) x _ (is_derive_id x))) as D.
  match goal with |- is_derive _ _ ?v => match type of D with is_derive _ _ ?w => replace v with w end end; [exact D|].
  replace (Init.Nat.pred (2 * k + 1)) with (2 * k)%nat by lia. unfold scal, mult, one. cbn -[pow INR Nat.mul Nat.add]. ring.
Qed.

Lemma mono_step k x : mono' (S k) x = 2 * x * mono k x.
Proof.
  unfold mono', mono. cbn [coef]. replace (2 * S k + 1)%nat with (2 * k + 3)%nat by lia. replace (2 * S k)%nat with (S (2 * k + 1)) by lia.
  cbn [pow]. assert (INR (2 * k + 3) <> 0) by (apply not_0_INR; lia). field. auto.
Qed.

Lemma mono_next k x : mono (S k) x = mono k x * (2 * x ^ 2) / INR (2 * k + 3).
Proof.
  unfold mono. cbn [coef]. replace (2 * S k + 1)%nat with ((2 * k + 1) + 2)%nat by lia. rewrite pow_add.
  assert (INR (2 * k + 3) <> 0) by (apply not_0_INR; lia). field. auto.
Qed.

Definition partial (n : nat) (x : R) : R := exp (- x ^ 2) * sumn n (fun k => mono k x).

Lemma sum_derive n x : is_derive (fun x => sumn n (fun k => mono k x)) x (sumn n (fun k => mono' k x)).
Proof.
  induction n as [|n IH]; cbn [sumn]; [apply @is_derive_const|].
  apply (is_derive_plus (fun x => sumn n (fun k => mono k x)) (mono n)); [exact IH|apply mono_derive].
Qed.

Lemma sum_mono' n x : sumn n (fun k => mono' k x) - 2 * x * sumn n (fun k => mono k x) = 1 - mono' n x.
Proof.
  induction n as [|n IH]; cbn [sumn].
  - unfold mono'. cbn. ring.
  - rewrite mono_step. lra.
Qed.

Lemma partial_derive n x : is_derive (partial n) x (exp (- x ^ 2) * (1 - mono' n x)).
Proof.
  rewrite <- sum_mono'. unfold partial.
  assert (D : is_derive (fun x => exp (- x ^ 2)) x (- 2 * x * exp (- x ^ 2))) by (auto_derive; auto; cbn [pow]; ring).
  pose proof (is_derive_mult (fun x => exp (- x ^ 2)) (fun x => sumn n (fun k => mono k x)) x _ _ D (sum_derive n x) ltac:(intros; apply Rmult_comm)) as M.
  match goal with |- is_derive _ _ ?v => match type of M with is_derive _ _ ?w => replace v with w end end; [exact M|].
  unfold plus, mult. cbn -[pow]. ring.
Qed.

Lemma mono'_nonneg n x : 0 <= x -> 0 <= mono' n x.
Proof. intros. unfold mono'. pose proof (coef_pos n). apply Rmult_le_pos; [apply Rmult_le_pos; [apply pos_INR|lra]|apply pow_le; auto]. Qed.

Lemma mono_0 n : mono n 0 = 0.
Proof. unfold mono. rewrite pow_i by lia. ring. Qed.

Lemma Ga_bounds n x : 0 <= x -> partial n x <= Ga x <= partial n x + mono n x.
Proof.
  intros Hx.
  assert (Z0 : forall m, sumn m (fun k => mono k 0) = 0) by (intros m; apply sumn_zero; intros; apply mono_0).
  split.
  - enough (0 <= Ga x - partial n x) by lra.
    apply (from_0 (fun x => Ga x - partial n x) (fun x => exp (- x ^ 2) * mono' n x)); auto.
    + intros y. pose proof (is_derive_minus _ _ _ _ _ (Ga_derive y) (partial_derive n y)) as D.
      match goal with |- is_derive _ _ ?v => match type of D with is_derive _ _ ?w => replace v with w end end; [exact D|].
      unfold minus, plus, opp, ga. cbn -[pow]. ring.
    + intros y Hy. apply Rmult_le_pos; [left; apply exp_pos|apply mono'_nonneg; auto].
    + unfold partial. rewrite Ga_0, Z0. ring.
  - enough (0 <= partial n x + mono n x - Ga x) by lra.
    apply (from_0 (fun x => partial n x + mono n x - Ga x) (fun x => (1 - exp (- x ^ 2)) * mono' n x)); auto.
    + intros y. pose proof (is_derive_minus _ _ _ _ _ (is_derive_plus _ _ _ _ _ (partial_derive n y) (mono_derive n y)) (Ga_derive y)) as D.
      match goal with |- is_derive _ _ ?v => match type of D with is_derive _ _ ?w => replace v with w end end; [exact D|].
      unfold minus, plus, opp, ga. cbn -[pow]. ring.
    + intros y Hy. apply Rmult_le_pos; [|apply mono'_nonneg; auto].
      pose proof (exp_le (- y ^ 2) 0 ltac:(pose proof (pow2_ge_0 y); lra)) as E. rewrite exp_0 in E. lra.
    + unfold partial. rewrite Ga_0, Z0, mono_0. ring.
Qed.

(** [n] terms from the term number [k] on: the term after the last and the sum *)
Fixpoint series (X2 : Z) (n : nat) (k tl th sl sh : Z) : Z * Z * Z :=
  match n with
  | O => (th, sl, sh)
  | S n => series X2 n (k + 1) (quot 56 (tl * (2 * X2)) (2 * k + 3))
             (quot 56 (th * (2 * X2)) (2 * k + 3) + 1) (sl + tl) (sh + th)
  end%Z.

Lemma series_ok X n : forall k tl th sl sh, (0 <= X)%Z ->
  Lo tl (mono k (IZR X / O1)) -> Hi th (mono k (IZR X / O1)) ->
  Lo sl (sumn k (fun k => mono k (IZR X / O1))) -> Hi sh (sumn k (fun k => mono k (IZR X / O1))) ->
  let '(th', sl', sh') := series (X * X) n (Z.of_nat k) tl th sl sh in
  Hi th' (mono (k + n) (IZR X / O1)) /\ Lo sl' (sumn (k + n) (fun k => mono k (IZR X / O1))) /\ Hi sh' (sumn (k + n) (fun k => mono k (IZR X / O1))).
Proof.
  pose proof O1_pos as P. set (x := IZR X / O1).
  induction n as [|n IH]; intros k tl th sl sh HX A B C D; cbn [series].
  - rewrite Nat.add_0_r. auto.
  - replace (Z.of_nat k + 1)%Z with (Z.of_nat (S k)) by lia. replace (k + S n)%nat with (S k + n)%nat by lia.
    assert (KP : (0 < (2 * Z.of_nat k + 3) * (one * one))%Z) by (unfold one; lia).
    assert (NX : mono (S k) x * O1 = (mono k x * O1) * (2 * (IZR X * IZR X)) / IZR ((2 * Z.of_nat k + 3) * (one * one))).
    { rewrite mono_next. rewrite !mult_IZR, plus_IZR, mult_IZR, <- INR_IZR_INZ.
      replace (INR (2 * k + 3)) with (2 * INR k + 3) by (rewrite plus_INR, mult_INR; cbn; ring).
      unfold x. pose proof (pos_INR k). field. split; lra. }
    assert (X2 : 0 <= 2 * (IZR X * IZR X)) by (apply IZR_le in HX; nra).
    assert (IP : 0 < / IZR ((2 * Z.of_nat k + 3) * (one * one))) by (apply Rinv_0_lt_compat, IZR_lt; auto).
    rewrite !quot_div by lia. change (2 ^ 56)%Z with (one * one)%Z. apply IH; auto.
    + unfold Lo in *. rewrite NX. eapply Rle_trans; [apply div_le; auto|]. rewrite !mult_IZR.
      apply Rmult_le_compat_r; [rewrite <- !mult_IZR; lra|]. apply Rmult_le_compat_r; auto.
    + unfold Hi in *. rewrite NX. eapply Rle_trans; [|apply div_gt; auto]. rewrite (mult_IZR th), (mult_IZR 2), (mult_IZR X).
      apply Rmult_le_compat_r; [lra|]. apply Rmult_le_compat_r; auto.
    + unfold Lo in *. cbn [sumn]. rewrite plus_IZR, Rmult_plus_distr_r. lra.
    + unfold Hi in *. cbn [sumn]. rewrite plus_IZR, Rmult_plus_distr_r. lra.
Qed.

Lemma pi_bounds : 3.141588 <= PI <= 3.141593.
Proof.
  pose proof (PI_2_3_7_ineq 3) as [A B]. cbn -[IZR Rmult Rplus PI] in A, B.
  unfold tg_alt, PI_2_3_7_tg, Ratan_seq in A, B. cbn -[IZR Rmult Rplus PI] in A, B. lra.
Qed.

Lemma two_sqrt_pi : 1128379 / 1000000 <= 2 / sqrt PI <= 1128381 / 1000000.
Proof.
  pose proof pi_bounds as [A B]. pose proof spi as S. pose proof spi_sq as Q.
  split.
  - apply Rmult_le_reg_r with (sqrt PI); auto. replace (2 / sqrt PI * sqrt PI) with 2 by (field; lra).
    assert (sqrt PI <= 2000000 / 1128379); [|lra].
    apply Rsqr_incr_0_var; [unfold Rsqr; lra|lra].
  - apply Rmult_le_reg_r with (sqrt PI); auto. replace (2 / sqrt PI * sqrt PI) with 2 by (field; lra).
    assert (2000000 / 1128381 <= sqrt PI); [|lra].
    apply Rsqr_incr_0_var; [unfold Rsqr; lra|lra].
Qed.

Definition terms (X : Z) : nat := if (4 * X <? one)%Z then 6%nat else if (X <? one)%Z then 16%nat else 30%nat.

(** lower and upper bound of erf, lower bound of exp (- x^2) *)
Definition erfs (X : Z) : Z * Z * Z :=
  let Y := Z.shiftr (X * X) 28 in
  let el := exp_lo 10 (Y + 1) in
  let eh := exp_hi 10 Y in
  let '(th, sl, sh) := series (X * X) (terms X) 0 X X 0 0 in
  (down (el * sl) * 1128379 / 1000000, (down (eh * sh) + 1 + th) * 1128381 / 1000000 + 1, el)%Z.

Lemma series_nonneg X2 n : (0 <= X2)%Z -> forall k tl th sl sh, (0 <= k -> 0 <= tl -> 0 <= sl -> 0 <= snd (fst (series X2 n k tl th sl sh)))%Z.
Proof.
  intros HX. induction n as [|n IH]; intros k tl th sl sh A B C; cbn [series]; [auto|].
  apply IH; [lia| |lia]. apply Z.div_pos; [apply Z.shiftr_nonneg; nia|lia].
Qed.

Lemma erfs_ok X : (0 <= X)%Z -> Lo (fst (fst (erfs X))) (erf (IZR X / O1)) /\ Hi (snd (fst (erfs X))) (erf (IZR X / O1)).
Proof.
  intros HX. pose proof O1_pos as P. set (x := IZR X / O1). unfold erfs. rewrite (shift_div (X * X)), <- one_pow by lia.
  assert (x0 : 0 <= x) by (apply Rmult_le_pos; [apply IZR_le; auto|left; apply Rinv_0_lt_compat; auto]).
  set (Y := (X * X / one)%Z).
  assert (Q : x ^ 2 * O1 = IZR (X * X) / O1) by (unfold x; rewrite mult_IZR; field; lra).
  assert (Y0 : (0 <= Y)%Z) by (apply Z.div_pos; [nia|reflexivity]).
  assert (LY : Lo Y (x ^ 2)) by (unfold Lo; rewrite Q; apply div_le; reflexivity).
  assert (HY : Hi (Y + 1) (x ^ 2)) by (unfold Hi; rewrite Q; apply div_gt; reflexivity).
  pose proof (exp_hi_ok 10 Y (x ^ 2) Y0 LY) as BH. destruct (exp_lo_ok 10 (Y + 1) (x ^ 2) (pow2_ge_0 x) HY) as [EL BL].
  set (el := exp_lo 10 (Y + 1)) in *. set (eh := exp_hi 10 Y) in *. set (n := terms X).
  pose proof (series_ok X n 0 X X 0 0 HX) as S. fold x in S.
  assert (M0 : mono 0 x * O1 = IZR X) by (unfold mono, x; cbn; field; lra).
  specialize (S ltac:(unfold Lo; rewrite M0; lra) ltac:(unfold Hi; rewrite M0; lra) ltac:(unfold Lo; cbn; lra) ltac:(unfold Hi; cbn; lra)).
  pose proof (series_nonneg (X * X) n ltac:(nia) 0 X X 0 0 ltac:(lia) HX ltac:(lia)) as SN. change (Z.of_nat 0) with 0%Z in S.
  destruct (series (X * X) n 0 X X 0 0) as [[th sl] sh]. cbn [fst snd] in *. cbn [Nat.add] in S. destruct S as (St & Sl & Sh).
  destruct (Ga_bounds n x x0) as [GL GH]. unfold partial in GL, GH. set (sm := sumn n (fun k => mono k x)) in *.
  pose proof (exp_pos (- x ^ 2)) as EP. pose proof two_sqrt_pi as [T1 T2]. pose proof (erf_nonneg x x0) as E0. rewrite erf_Ga. pose proof (Ga_nonneg x x0) as G0.
  unfold Lo, Hi in *. apply IZR_le in EL, SN.
  assert (GL' : IZR (down (el * sl)) <= Ga x * O1).
  { eapply Rle_trans; [apply down_le|]. rewrite mult_IZR. apply Rle_trans with ((exp (- x ^ 2) * O1) * (sm * O1) / O1).
    - apply Rmult_le_compat_r; [left; apply Rinv_0_lt_compat; auto|]. apply Rmult_le_compat; lra.
    - replace (exp (- x ^ 2) * O1 * (sm * O1) / O1) with (exp (- x ^ 2) * sm * O1) by (field; lra). apply Rmult_le_compat_r; lra. }
  assert (SM : 0 <= sm) by (apply Rmult_le_reg_r with O1; lra).
  assert (GH' : Ga x * O1 <= IZR (down (eh * sh) + 1 + th)).
  { rewrite plus_IZR. apply Rle_trans with ((exp (- x ^ 2) * sm + mono n x) * O1); [apply Rmult_le_compat_r; lra|].
    rewrite Rmult_plus_distr_r. apply Rplus_le_compat; [|auto].
    eapply Rle_trans; [|apply down_gt]. rewrite mult_IZR. apply Rle_trans with ((exp (- x ^ 2) * O1) * (sm * O1) / O1).
    - right. field. lra.
    - apply Rmult_le_compat_r; [left; apply Rinv_0_lt_compat; auto|].
      apply Rmult_le_compat; [apply Rmult_le_pos; lra|apply Rmult_le_pos; lra|auto|auto]. }
  assert (D0 : 0 <= IZR (down (el * sl))). { apply IZR_le. apply down_nonneg. apply le_IZR in EL, SN. nia. }
  assert (GO : 0 <= Ga x * O1) by (apply Rmult_le_pos; lra).
  split.
  - eapply Rle_trans; [apply div_le; reflexivity|]. rewrite mult_IZR.
    replace (IZR (down (el * sl)) * 1128379 / 1000000) with (1128379 / 1000000 * IZR (down (el * sl))) by field. rewrite (Rmult_assoc (2 / sqrt PI)).
    apply Rmult_le_compat; lra.
  - eapply Rle_trans; [|apply div_gt; reflexivity]. rewrite mult_IZR. set (g := IZR (down (eh * sh) + 1 + th)) in *.
    replace (g * 1128381 / 1000000) with (1128381 / 1000000 * g) by field. rewrite (Rmult_assoc (2 / sqrt PI)).
    apply Rmult_le_compat; lra.
Qed.

(** * The check *)
Record point := mkpt { q_x : Z; q_sl : Z; q_el : Z; q_ex : Z }.

Section Check.
  Variables (r : list entry) (E H : Z).
  Hypothesis R0 : forallb ent_ok r = true.
  Notation S := (exp_sum (row_ab r)).

  Definition first : option point := Some (mkpt 0 (fst (sums 0 r)) 0 one).

  Definition next (st : option point) : option point :=
    match st with
    | None => None
    | Some p =>
        let X := (q_x p + Z.max 0 (H * one / q_ex p))%Z in
        let s := sums X r in
        let e := erfs X in
        if ((snd (fst e) - q_sl p <=? E) && (snd s - q_el p <=? E))%Z then Some (mkpt X (fst s) (fst (fst e)) (Z.max 1 (snd e))) else None
    end.

  Definition good (st : option point) : Prop :=
    match st with
    | None => True
    | Some p => (0 <= q_x p)%Z /\ Lo (q_sl p) (S (IZR (q_x p) / O1)) /\ Lo (q_el p) (erf (IZR (q_x p) / O1)) /\
        forall x, 0 <= x -> x * O1 <= IZR (q_x p) -> Rabs (S x - erf x) * O1 <= Rmax (IZR E) (Rabs (S 0) * O1)
    end.

  Lemma erf_mono x y : x <= y -> erf x <= erf y.
  Proof. intros [L| ->]; [left; apply erf_incr; auto|right; auto]. Qed.

  Lemma first_good : good first.
  Proof.
    pose proof O1_pos as P. unfold good, first. cbn [q_x q_sl q_el]. destruct (sums_ok 0 r ltac:(lia) R0) as [A _].
    split; [lia|]. split; [exact A|]. split.
    - unfold Lo. replace (IZR 0 / O1) with 0 by (field; lra). rewrite erf_0. lra.
    - intros x Hx L. assert (x = 0). { apply Rmult_le_reg_r with O1 in L || idtac. nra. } subst x.
      rewrite erf_0, Rminus_0_r. apply Rmax_r.
  Qed.

  Lemma next_good st : good st -> good (next st).
  Proof.
    pose proof O1_pos as P. destruct st as [p|]; [|auto]. intros (G0 & G1 & G2 & G3). unfold next.
    set (X := (q_x p + Z.max 0 (H * one / q_ex p))%Z).
    assert (LX : (q_x p <= X)%Z) by (unfold X; lia). assert (X0 : (0 <= X)%Z) by lia.
    destruct (_ && _)%bool eqn:C; [|exact I]. apply andb_true_iff in C. rewrite !Z.leb_le in C. destruct C as [C1 C2].
    apply IZR_le in C1, C2. rewrite minus_IZR in C1, C2.
    destruct (sums_ok X r X0 R0) as [S1 S2]. destruct (erfs_ok X X0) as [E1 E2]. unfold good. cbn [q_x q_sl q_el].
    split; auto. split; auto. split; auto.
    intros x Hx L. destruct (Rle_dec (x * O1) (IZR (q_x p))) as [L'|L']; [apply G3; auto|].
    eapply Rle_trans; [|apply Rmax_l].
    set (u := IZR (q_x p) / O1) in *. set (v := IZR X / O1) in *.
    assert (u0 : 0 <= u) by (apply Rmult_le_pos; [apply IZR_le; auto|left; apply Rinv_0_lt_compat; auto]).
    assert (ux : u <= x). { apply Rmult_le_reg_r with O1; auto. unfold u. replace (IZR (q_x p) / O1 * O1) with (IZR (q_x p)) by (field; lra). lra. }
    assert (xv : x <= v). { apply Rmult_le_reg_r with O1; auto. unfold v. replace (IZR X / O1 * O1) with (IZR X) by (field; lra). lra. }
    pose proof (sum_incr r u x R0 u0 ux) as [M1 _]. pose proof (sum_incr r x v R0 Hx xv) as [M2 _].
    pose proof (erf_mono u x ux) as M3. pose proof (erf_mono x v xv) as M4. unfold Lo, Hi in *.
    assert (A : S x - erf x <= IZR E / O1).
    { apply Rmult_le_reg_r with O1; auto. replace (IZR E / O1 * O1) with (IZR E) by (field; lra).
      assert (S x * O1 <= S v * O1) by (apply Rmult_le_compat_r; lra). assert (erf u * O1 <= erf x * O1) by (apply Rmult_le_compat_r; lra).
      rewrite Rmult_minus_distr_r. lra. }
    assert (B : erf x - S x <= IZR E / O1).
    { apply Rmult_le_reg_r with O1; auto. replace (IZR E / O1 * O1) with (IZR E) by (field; lra).
      assert (S u * O1 <= S x * O1) by (apply Rmult_le_compat_r; lra). assert (erf x * O1 <= erf v * O1) by (apply Rmult_le_compat_r; lra).
      rewrite Rmult_minus_distr_r. lra. }
    apply Rmult_le_reg_r with (/ O1); [apply Rinv_0_lt_compat; auto|]. rewrite Rmult_assoc, Rinv_r, Rmult_1_r by lra.
    apply Rabs_le. unfold Rdiv in *. lra.
  Qed.

  Definition passed (n : positive) : bool :=
    match Pos.iter next first n with
    | None => false
    | Some p => ((one - q_sl p <=? E) && (one - q_el p <=? E) && (snd (sums 0 r) <=? E) && (- fst (sums 0 r) <=? E))%Z
    end.

  Lemma passed_ok n : passed n = true -> forall x, 0 <= x -> Rabs (S x - erf x) <= IZR E / O1.
  Proof.
    pose proof O1_pos as P. intros C x Hx. unfold passed in C.
    pose proof (Pos.iter_invariant n (option point) next good next_good first first_good) as G.
    destruct (Pos.iter next first n) as [p|]; [|discriminate]. rewrite !andb_true_iff, !Z.leb_le in C. destruct C as [[[C1 C2] C3] C4].
    apply IZR_le in C1, C2, C3, C4. rewrite minus_IZR in C1, C2. rewrite opp_IZR in C4. destruct G as (G0 & G1 & G2 & G3).
    destruct (sums_ok 0 r ltac:(lia) R0) as [Z1 Z2]. unfold Lo, Hi in *. replace (IZR 0 / O1) with 0 in Z1, Z2 by (field; lra).
    assert (SZ : Rabs (S 0) * O1 <= IZR E).
    { apply Rmult_le_reg_r with (/ O1); [apply Rinv_0_lt_compat; auto|]. rewrite Rmult_assoc, Rinv_r, Rmult_1_r by lra.
      apply Rabs_le. split; apply Rmult_le_reg_r with O1; auto.
      - replace (- (IZR E * / O1) * O1) with (- IZR E) by (field; lra). lra.
      - replace (IZR E * / O1 * O1) with (IZR E) by (field; lra). lra. }
    apply Rmult_le_reg_r with O1; auto. replace (IZR E / O1 * O1) with (IZR E) by (field; lra).
    destruct (Rle_dec (x * O1) (IZR (q_x p))) as [L|L].
    - eapply Rle_trans; [apply G3; auto|]. apply Rmax_lub; lra.
    - set (u := IZR (q_x p) / O1) in *.
      assert (u0 : 0 <= u) by (apply Rmult_le_pos; [apply IZR_le; auto|left; apply Rinv_0_lt_compat; auto]).
      assert (ux : u <= x). { apply Rmult_le_reg_r with O1; auto. unfold u. replace (IZR (q_x p) / O1 * O1) with (IZR (q_x p)) by (field; lra). lra. }
      pose proof (sum_incr r u x R0 u0 ux) as [M1 M2]. pose proof (erf_mono u x ux) as M3. pose proof (erf_le_1 x).
      assert (S u * O1 <= S x * O1) by (apply Rmult_le_compat_r; lra). assert (erf u * O1 <= erf x * O1) by (apply Rmult_le_compat_r; lra).
      assert (S x * O1 <= 1 * O1) by (apply Rmult_le_compat_r; lra). assert (erf x * O1 <= 1 * O1) by (apply Rmult_le_compat_r; lra).
      apply Rmult_le_reg_r with (/ O1); [apply Rinv_0_lt_compat; auto|]. rewrite Rmult_assoc, Rinv_r, Rmult_1_r by lra.
      apply Rabs_le. split; apply Rmult_le_reg_r with O1; auto.
      + replace (- (IZR E * / O1) * O1) with (- IZR E) by (field; lra). rewrite Rmult_minus_distr_r. lra.
      + replace (IZR E * / O1 * O1) with (IZR E) by (field; lra). rewrite Rmult_minus_distr_r. lra.
  Qed.
End Check.
