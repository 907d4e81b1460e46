(** The default coefficients of the approximation of the error function. *)
From Coq Require Import Reals Lra Lia List Bool Psatz ZArith.
From Coquelicot Require Import Coquelicot.
From Verif Require Import Base FLS_Model FLS_Spec FLS_Erf_Proofs.
From Verif Require Import Approx_Model Approx_Spec Approx_Table Approx_Num_Proofs.
Local Open Scope R_scope.

Definition num (d : Z * Z) : Z := (2 * fst d * 10 ^ Z.max 0 (snd d))%Z.
Definition den (d : Z * Z) : Z := (10 ^ Z.max 0 (- snd d))%Z.
Definition ent (d : (Z * Z) * (Z * Z)) : entry := mkent (num (fst d)) (den (fst d)) (num (snd d)) (den (snd d)).

Lemma den_pos d : (0 < den d)%Z.
Proof. unfold den. apply Z.pow_pos_nonneg; lia. Qed.

Lemma IZR_10 n : (0 <= n)%Z -> IZR (10 ^ n) = powerRZ 10 n.
Proof.
  intros Hn. rewrite <- (Z2Nat.id n) by auto. rewrite <- pow_IZR, <- pow_powerRZ. auto.
Qed.

Lemma dec_num d : decimal d * 2 = IZR (num d) / IZR (den d).
Proof.
  unfold decimal, num, den. rewrite !mult_IZR, !IZR_10 by lia. destruct (Z.le_gt_cases 0 (snd d)) as [L|L].
  - rewrite Z.max_r by lia. rewrite (Z.max_l 0 (- snd d)) by lia. cbn [powerRZ]. field.
  - rewrite Z.max_l by lia. rewrite Z.max_r by lia. cbn [powerRZ]. rewrite powerRZ_neg'. unfold Rdiv. rewrite Rinv_inv. ring.
Qed.

Lemma row_of_table a : forall b, combine (a_erf a) (b_erf b) = row_ab (map ent (combine a b)).
Proof.
  unfold a_erf, b_erf, row_ab. cbn [combine]. intros b. f_equal. revert b.
  induction a as [|d a IH]; intros [|e b]; cbn [map combine]; auto. rewrite IH. f_equal. unfold ent_ab, ent. cbn [e_am e_ad e_bn e_bd fst snd].
  rewrite <- !dec_num. f_equal. ring.
Qed.

Definition row (N : nat) : list entry :=
  match nth_error a_Q N, nth_error b_Q N with Some a, Some b => map ent (combine a b) | _, _ => [] end.

Lemma coeffs_row N ab : erf_coeffs N = Some ab -> ab = row_ab (row N).
Proof.
  unfold erf_coeffs, row. destruct (nth_error a_Q N) as [a|]; [|discriminate]. destruct (nth_error b_Q N) as [b|]; [|discriminate].
  intros E. injection E as <-. apply row_of_table.
Qed.

Definition row10 : list entry := Eval vm_compute in row 10.


Lemma check10 : passed row10 536870 440000 542 = true.
Proof. vm_cast_no_check (eq_refl true). Qed.

Lemma row10_ok : forallb ent_ok row10 = true.
Proof. vm_cast_no_check (eq_refl true). Qed.

Lemma row10_eq : row 10 = row10.
Proof. vm_cast_no_check (eq_refl row10). Qed.

Lemma within10 ab : erf_coeffs 10 = Some ab -> erf_within ab (/ 500).
Proof.
  intros E x Hx. rewrite (coeffs_row 10 ab E), row10_eq.
  eapply Rle_trans; [exact (passed_ok row10 536870 440000 row10_ok 542 check10 x Hx)|]. unfold one. lra.
Qed.

Lemma coeffs_some N : (N < 25)%nat -> exists ab, erf_coeffs N = Some ab /\ length ab = (N + 2)%nat.
Proof.
  intros HN. do 25 (destruct N as [|N]; [eexists; split; reflexivity|]). lia.
Qed.

Lemma coeffs_none N : (25 <= N)%nat -> erf_coeffs N = None.
Proof.
  intros HN. unfold erf_coeffs. rewrite (proj2 (nth_error_None a_Q N)); auto.
Qed.

Definition rows_ok : bool := forallb (fun N => forallb ent_ok (row N)) (seq 0 25).
Lemma rows_checked : rows_ok = true. Proof. vm_cast_no_check (eq_refl true). Qed.

Lemma row_ok N : forallb ent_ok (row N) = true.
Proof.
  destruct (Nat.lt_ge_cases N 25) as [L|L].
  - pose proof (proj1 (forallb_forall _ _) rows_checked N) as H. apply H. apply in_seq. lia.
  - pose proof (coeffs_none N L) as H. unfold erf_coeffs, row in *. destruct (nth_error a_Q N), (nth_error b_Q N); try discriminate; auto.
Qed.

(** Every set of coefficients: the sum increases to 1. *)
Lemma coeffs_incr N ab x y : erf_coeffs N = Some ab -> 0 <= x -> x <= y -> exp_sum ab x <= exp_sum ab y <= 1.
Proof. intros E. rewrite (coeffs_row N ab E). apply sum_incr. apply row_ok. Qed.

Lemma coeffs_b N ab : erf_coeffs N = Some ab -> Forall (fun c => 0 <= snd c) ab.
Proof.
  intros E. rewrite (coeffs_row N ab E). pose proof (row_ok N) as H. unfold row_ab. constructor; [cbn; lra|].
  induction (row N) as [|e r IH]; cbn [map forallb] in *; constructor.
  - apply andb_true_iff in H. destruct H as [H _]. apply ent_parts in H. destruct H as (_ & _ & A3 & A4). cbn.
    apply IZR_le in A3. apply IZR_lt in A4. apply Rmult_le_pos; [auto|left; apply Rinv_0_lt_compat; auto].
  - apply IH. apply andb_true_iff in H. apply H.
Qed.

(** All sets of coefficients. *)
Lemma row0_near : passed (row 0) 33554432 1700000 140 = true. Proof. vm_cast_no_check (eq_refl true). Qed.
Lemma rows_near : forallb (fun N => passed (row N) 33554432 20000000 11) (seq 1 24) = true. Proof. vm_cast_no_check (eq_refl true). Qed.

Lemma within_all N ab : erf_coeffs N = Some ab -> erf_within ab (/ 8).
Proof.
  intros E x Hx. rewrite (coeffs_row N ab E). pose proof row0_near as K0. pose proof rows_near as K.
  assert (B : IZR 33554432 / IZR one <= / 8) by (unfold one; lra).
  destruct N as [|N]; [eapply Rle_trans; [exact (passed_ok _ _ _ (row_ok 0) _ K0 x Hx)|exact B]|].
  destruct (Nat.lt_ge_cases (S N) 25) as [L|L]; [|rewrite (coeffs_none _ L) in E; discriminate E].
  pose proof (proj1 (forallb_forall _ _) K (S N)) as H. cbv beta in H. specialize (H ltac:(apply in_seq; lia)).
  eapply Rle_trans; [exact (passed_ok _ _ _ (row_ok (S N)) _ H x Hx)|exact B].
Qed.

Lemma weight_row r : forallb ent_ok r = true -> weight (row_ab r) = 2 - exp_sum (row_ab r) 0.
Proof.
  intros H. unfold weight, exp_sum, row_ab. cbn [map Rsum fst snd]. rewrite Rabs_R1. replace (- 0 * 0 ^ 2) with 0 by ring. rewrite exp_0.
  assert (E : Rsum (map (fun c => Rabs (fst c)) (map ent_ab r)) = - Rsum (map (fun c => fst c * exp (- snd c * 0 ^ 2)) (map ent_ab r))).
  { induction r as [|e r IH]; cbn [map Rsum forallb] in *; [ring|]. apply andb_true_iff in H. destruct H as [H H'].
    rewrite IH by auto. apply ent_parts in H. destruct H as (A1 & A2 & _). cbn [fst snd ent_ab].
    replace (- (IZR (e_bn e) / IZR (e_bd e)) * 0 ^ 2) with 0 by ring. rewrite exp_0, Rabs_Ropp, Rabs_right; [ring|].
    apply IZR_le in A1. apply IZR_lt in A2. apply Rle_ge, Rmult_le_pos; [auto|left; apply Rinv_0_lt_compat; auto]. }
  rewrite E. ring.
Qed.

Lemma weight10 ab : erf_coeffs 10 = Some ab -> weight ab <= 2 + / 500.
Proof.
  intros E. pose proof (within10 ab E 0 ltac:(lra)) as W. rewrite erf_0 in W. rewrite (coeffs_row 10 ab E) in *.
  rewrite weight_row by apply row_ok. apply Rabs_le_between in W. lra.
Qed.
