(** Means of logarithms over points on a circle. *)
From Coq Require Import Reals Lra Lia PeanoNat.
From Verif Require Import Base LinAlg Res_Model Res_Mult_Proofs Cross_Kernel_Proofs.
From Coquelicot Require Import Coquelicot.
Local Open Scope R_scope.

(** ** Products *)
Fixpoint cprod (n : nat) (f : nat -> C) : C := match n with O => RtoC 1 | S n => (cprod n f * f n)%C end.
Lemma cprod_ext n f g : (forall i, (i < n)%nat -> f i = g i) -> cprod n f = cprod n g.
Proof. intros E. induction n; cbn [cprod]; auto. rewrite IHn, E by auto. auto. Qed.
Lemma cprod_split a b f : cprod (a + b) f = (cprod a f * cprod b (fun i => f (a + i)%nat))%C.
Proof. induction b; [rewrite Nat.add_0_r; cbn; ring|]. rewrite Nat.add_succ_r. cbn [cprod]. rewrite IHb. ring. Qed.
Lemma ln_cprod n f : cprod n f <> RtoC 0 -> sumn n (fun i => ln (Cmod (f i))) = ln (Cmod (cprod n f)).
Proof.
  induction n; cbn [cprod sumn]; intros N; [rewrite Cmod_1, ln_1; auto|].
  assert (N1 : cprod n f <> RtoC 0) by (intros E; apply N; rewrite E; ring). assert (N2 : f n <> RtoC 0) by (intros E; apply N; rewrite E; ring).
  rewrite IHn by auto. rewrite Cmod_mult, ln_mult by (apply Cmod_gt_0; auto). auto.
Qed.

(** ** Roots of one *)
Definition zeta (p : nat) : C := (cos (PI / 2 ^ p), sin (PI / 2 ^ p)).
Fixpoint root (p k : nat) : C := match p with O => RtoC 1 | S p => if Nat.ltb k (2 ^ p) then root p k else (zeta p * root p (k - 2 ^ p))%C end.
Lemma moivre t n : cpow (cos t, sin t) n = (cos (INR n * t), sin (INR n * t)).
Proof.
  induction n; cbn [cpow]; [rewrite Rmult_0_l, cos_0, sin_0; auto|]. rewrite IHn, S_INR. replace ((INR n + 1) * t) with (t + INR n * t) by ring. rewrite cos_plus, sin_plus. unfold Cmult. cbn [fst snd]. f_equal; ring.
Qed.
Lemma zeta_pow p : cpow (zeta p) (2 ^ p) = RtoC (-1).
Proof.
  unfold zeta. rewrite moivre, pow_INR. change (INR 2) with 2. replace (2 ^ p * (PI / 2 ^ p)) with PI by (field; apply pow_nonzero; lra). rewrite cos_PI, sin_PI. reflexivity.
Qed.
Lemma zeta_mod p : Cmod (zeta p) = 1.
Proof. unfold zeta, Cmod. cbn [fst snd]. pose proof (sin2_cos2 (PI / 2 ^ p)) as H. unfold Rsqr in H. replace (cos (PI / 2 ^ p) ^ 2 + sin (PI / 2 ^ p) ^ 2) with 1 by (rewrite <- H; ring). apply sqrt_1. Qed.
Lemma root_mod p k : Cmod (root p k) = 1.
Proof. revert k. induction p; intros k; cbn [root]; [apply Cmod_1|]. destruct (Nat.ltb k (2 ^ p)); auto. rewrite Cmod_mult, zeta_mod, IHp. ring. Qed.
Lemma root_left p k : (k < 2 ^ p)%nat -> root (S p) k = root p k.
Proof. intros H. cbn [root]. destruct (Nat.ltb_spec k (2 ^ p)); [auto|lia]. Qed.
Lemma root_right p k : root (S p) (2 ^ p + k) = (zeta p * root p k)%C.
Proof. cbn [root]. destruct (Nat.ltb_spec (2 ^ p + k) (2 ^ p)); [lia|]. replace (2 ^ p + k - 2 ^ p)%nat with k by lia. auto. Qed.
Lemma two_S p : (2 ^ S p = 2 ^ p + 2 ^ p)%nat.
Proof. cbn. lia. Qed.
Lemma cpow_pow x a b : cpow x (a * b) = cpow (cpow x a) b.
Proof. induction b; [rewrite Nat.mul_0_r; auto|]. rewrite Nat.mul_succ_r, cpow_add, IHb. cbn [cpow]. ring. Qed.
Lemma root_pow p k : (k < 2 ^ p)%nat -> cpow (root p k) (2 ^ p) = RtoC 1.
Proof.
  revert k. induction p; intros k Hk; [cbn; ring|]. rewrite two_S in *. rewrite cpow_add. destruct (Nat.lt_ge_cases k (2 ^ p)) as [H|H].
  - rewrite root_left by auto. rewrite IHp by auto. ring.
  - replace k with (2 ^ p + (k - 2 ^ p))%nat by lia. rewrite root_right, cpow_mult, zeta_pow, IHp by lia. rewrite <- !RtoC_mult. f_equal. ring.
Qed.
(** The product over the roots *)
Lemma root_prod p a b : cprod (2 ^ p) (fun k => a - b * root p k)%C = (cpow a (2 ^ p) - cpow b (2 ^ p))%C.
Proof.
  revert a b. induction p; intros a b; [cbn; ring|]. rewrite two_S, cprod_split.
  rewrite (cprod_ext _ _ (fun k => a - b * root p k)%C) by (intros k Hk; rewrite root_left by auto; auto).
  rewrite (cprod_ext (2 ^ p) (fun k => (a - b * root (S p) (2 ^ p + k))%C) (fun k => a - (b * zeta p) * root p k)%C) by (intros k Hk; rewrite root_right; ring).
  rewrite !IHp. rewrite cpow_mult, zeta_pow, !cpow_add. replace (RtoC (-1)) with (- RtoC 1)%C by (rewrite <- RtoC_opp; f_equal; ring). ring.
Qed.

Lemma mean_log p a b k : 0 <= k -> k ^ (2 ^ p) <= 1 / 2 -> a <> RtoC 0 -> Cmod b <= k * Cmod a ->
  Rabs (sumn (2 ^ p) (fun i => ln (Cmod (a - b * root p i)%C)) - INR (2 ^ p) * ln (Cmod a)) <= 1.
Proof.
  intros K0 K1 Na Hb. set (N := (2 ^ p)%nat) in *. assert (A : 0 < Cmod a) by (apply Cmod_gt_0; auto).
  assert (Pa : 0 < Cmod a ^ N) by (apply pow_lt; auto).
  assert (B : Cmod b ^ N <= 1 / 2 * Cmod a ^ N).
  { eapply Rle_trans; [apply pow_incr; split; [apply Cmod_ge_0|exact Hb]|]. rewrite Rpow_mult_distr. apply Rmult_le_compat_r; lra. }
  pose proof (Cmod_minus_ge (cpow a N) (cpow b N)) as L. pose proof (Cmod_minus_le (cpow a N) (cpow b N)) as U. rewrite !Cmod_cpow in L, U.
  assert (Nz : cprod N (fun k => a - b * root p k)%C <> RtoC 0). { unfold N. rewrite root_prod. fold N. intros E. rewrite E, Cmod_0 in L. lra. }
  rewrite ln_cprod by auto. unfold N at 1. rewrite root_prod. fold N. set (x := Cmod (cpow a N - cpow b N)%C) in *.
  rewrite <- ln_pow by auto. set (y := Cmod a ^ N) in *. assert (0 < x) by lra.
  assert (Hl : forall t, 0 < t -> ln t <= t - 1). { intros t Ht. pose proof (exp_ineq1_le (ln t)) as Q. rewrite exp_ln in Q by auto. lra. }
  assert (E1 : ln x - ln y = ln (x / y)) by (unfold Rdiv; rewrite ln_mult, ln_Rinv; auto; apply Rinv_0_lt_compat; auto).
  assert (E2 : ln x - ln y = - ln (y / x)) by (unfold Rdiv; rewrite ln_mult, ln_Rinv; auto; [ring|apply Rinv_0_lt_compat; auto]).
  apply Rabs_le. split.
  - rewrite E2. specialize (Hl (y / x)). assert (0 < y / x) by (apply Rdiv_lt_0_compat; auto). assert (y / x <= 2) by (apply (Rmult_le_reg_r x); auto; unfold Rdiv; rewrite Rmult_assoc, Rinv_l by lra; lra). specialize (Hl ltac:(auto)). lra.
  - rewrite E1. specialize (Hl (x / y)). assert (0 < x / y) by (apply Rdiv_lt_0_compat; auto). assert (x / y <= 2) by (apply (Rmult_le_reg_r y); auto; unfold Rdiv; rewrite Rmult_assoc, Rinv_l by lra; lra). specialize (Hl ltac:(auto)). lra.
Qed.

(** The other roots *)
Lemma cross_log p k x : cpow x (2 ^ p) = RtoC k -> Rabs (k - -1) = 2 -> sumn (2 ^ p) (fun l => ln (Cmod (x - zeta p * root p l)%C)) = ln 2.
Proof.
  intros E Hk. assert (P : cprod (2 ^ p) (fun l => x - zeta p * root p l)%C = RtoC (k - -1)). { rewrite root_prod, E, zeta_pow. rewrite <- RtoC_minus. auto. }
  rewrite ln_cprod; rewrite P; [rewrite Cmod_R, Hk; auto|]. intros Q. apply (f_equal Cmod) in Q. rewrite Cmod_R, Cmod_0, Hk in Q. lra.
Qed.
Lemma ln2_pos : 0 < ln 2.
Proof. rewrite <- ln_1. apply ln_increasing; lra. Qed.
Lemma self_log p k : (k < 2 ^ p)%nat -> 0 <= sumn (2 ^ p) (fun l => if Nat.eqb l k then 0 else ln (Cmod (root p k - root p l)%C)).
Proof.
  revert k. induction p; intros k Hk.
  - cbn in Hk. assert (k = O) by lia. subst k. cbn. lra.
  - rewrite two_S in *. rewrite sumn_split. pose proof ln2_pos as L2.
    destruct (Nat.lt_ge_cases k (2 ^ p)) as [H|H].
    + rewrite (sumn_ext (2 ^ p) (fun l => if Nat.eqb l k then 0 else ln (Cmod (root (S p) k - root (S p) l)%C)) (fun l => if Nat.eqb l k then 0 else ln (Cmod (root p k - root p l)%C))) by (intros l Hl; rewrite !root_left by auto; auto).
      rewrite (sumn_ext (2 ^ p) (fun i => if Nat.eqb (2 ^ p + i) k then 0 else ln (Cmod (root (S p) k - root (S p) (2 ^ p + i))%C)) (fun l => ln (Cmod (root p k - zeta p * root p l)%C))).
      2: { intros l Hl. destruct (Nat.eqb_spec (2 ^ p + l) k); [lia|]. rewrite root_left, root_right by auto. auto. }
      rewrite (cross_log p 1) by (try (rewrite root_pow; auto); rewrite Rabs_pos_eq; lra). specialize (IHp k H). lra.
    + set (j := (k - 2 ^ p)%nat). assert (Hj : (j < 2 ^ p)%nat) by (unfold j; lia). replace k with (2 ^ p + j)%nat by (unfold j; lia).
      rewrite (sumn_ext (2 ^ p) (fun l => if Nat.eqb l (2 ^ p + j) then 0 else ln (Cmod (root (S p) (2 ^ p + j) - root (S p) l)%C)) (fun l => ln (Cmod (root p l - zeta p * root p j)%C))).
      2: { intros l Hl. destruct (Nat.eqb_spec l (2 ^ p + j)); [lia|]. rewrite root_right, (root_left p l) by auto. replace (zeta p * root p j - root p l)%C with (- (root p l - zeta p * root p j))%C by ring. rewrite Cmod_opp. auto. }
      rewrite (sumn_ext (2 ^ p) (fun i => if Nat.eqb (2 ^ p + i) (2 ^ p + j) then 0 else ln (Cmod (root (S p) (2 ^ p + j) - root (S p) (2 ^ p + i))%C)) (fun l => if Nat.eqb l j then 0 else ln (Cmod (root p j - root p l)%C))).
      2: { intros l Hl. destruct (Nat.eqb_spec l j) as [->|Ne]; [rewrite Nat.eqb_refl; auto|]. destruct (Nat.eqb_spec (2 ^ p + l) (2 ^ p + j)); [lia|]. rewrite !root_right. replace (zeta p * root p j - zeta p * root p l)%C with (zeta p * (root p j - root p l))%C by ring.
           rewrite Cmod_mult, zeta_mod, Rmult_1_l. auto. }
      assert (C2 : sumn (2 ^ p) (fun l => ln (Cmod (root p l - zeta p * root p j)%C)) = ln 2).
      { rewrite (sumn_ext (2 ^ p) _ (fun l => ln (Cmod (zeta p * root p j - RtoC 1 * root p l)%C))).
        2: { intros l _. replace (root p l - zeta p * root p j)%C with (- (zeta p * root p j - RtoC 1 * root p l))%C by ring. rewrite Cmod_opp. auto. }
        assert (P : cprod (2 ^ p) (fun l => zeta p * root p j - RtoC 1 * root p l)%C = RtoC (-2)). { rewrite root_prod, cpow_mult, zeta_pow, root_pow, cpow_1 by auto. rewrite <- RtoC_mult, <- RtoC_minus. f_equal. ring. }
        rewrite ln_cprod; rewrite P; [rewrite Cmod_R, Rabs_left by lra; f_equal; ring|]. intros Q. apply (f_equal Cmod) in Q. rewrite Cmod_R, Cmod_0, Rabs_left in Q; lra. }
      rewrite C2. specialize (IHp j Hj). lra.
Qed.
