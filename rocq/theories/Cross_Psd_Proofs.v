(** Potentials of circles in the unit disk are positive. *)
From Coq Require Import Reals Lra Lia PeanoNat.
From Verif Require Import Base LinAlg Res_Model Res_Mult_Proofs Def_Psd_Proofs Def_Kernel_Proofs Eq_Heat_Proofs Cross_Kernel_Proofs Cross_Roots_Proofs.
From Coquelicot Require Import Coquelicot.
Local Open Scope R_scope.

Lemma block_psd N K G : (0 < N)%nat -> psd (N * K) G -> psd K (fun m n => sumn N (fun k => sumn N (fun l => G (N * m + k)%nat (N * n + l)%nat))).
Proof.
  intros HN H q. specialize (H (fun a => q (a / N)%nat)). unfold form in *. rewrite sumn_blocks in H.
  assert (Dv : forall m k, (k < N)%nat -> ((N * m + k) / N)%nat = m) by (intros m k Hk; rewrite Nat.mul_comm, Nat.div_add_l, Nat.div_small by lia; lia).
  erewrite sumn_ext; [exact H|]. intros m Hm. cbv beta.
  rewrite (sumn_ext N (fun a => sumn (N * K) (fun j => q ((N * m + a) / N)%nat * q (j / N)%nat * G (N * m + a)%nat j)) (fun k => sumn K (fun n => q m * q n * sumn N (fun l => G (N * m + k)%nat (N * n + l)%nat)))).
  - rewrite sumn_swap. apply sumn_ext. intros n Hn. rewrite <- sumn_scal. reflexivity.
  - intros k Hk. rewrite sumn_blocks. apply sumn_ext. intros n Hn. rewrite <- sumn_scal. apply sumn_ext. intros l Hl. rewrite !Dv by auto. reflexivity.
Qed.

Lemma two_means N (f : nat -> nat -> R) (g : nat -> R) c : (forall l, (l < N)%nat -> Rabs (sumn N (fun k => f k l) - INR N * g l) <= 1) -> Rabs (sumn N g - INR N * c) <= 1 ->
  Rabs (sumn N (fun k => sumn N (fun l => f k l)) - INR N * INR N * c) <= 2 * INR N.
Proof.
  intros A B. rewrite sumn_swap. replace (sumn N (fun l => sumn N (fun k => f k l)) - INR N * INR N * c) with (sumn N (fun l => sumn N (fun k => f k l) - INR N * g l) + INR N * (sumn N g - INR N * c)) by (rewrite sumn_minus, sumn_scal; ring).
  eapply Rle_trans; [apply Rabs_triang|]. pose proof (pos_INR N). rewrite Rabs_mult, (Rabs_pos_eq (INR N)) by auto.
  assert (Rabs (sumn N (fun l => sumn N (fun k => f k l) - INR N * g l)) <= INR N).
  { eapply Rle_trans; [apply sumn_abs|]. apply Rle_trans with (sumn N (fun _ => 1)); [apply sumn_le; auto|rewrite sumn_const; lra]. }
  assert (INR N * Rabs (sumn N g - INR N * c) <= INR N * 1) by (apply Rmult_le_compat_l; auto). lra.
Qed.

Lemma root_distinct p : forall k l, (k < 2 ^ p)%nat -> (l < 2 ^ p)%nat -> k <> l -> root p k <> root p l.
Proof.
  induction p; intros k l Hk Hl N; [cbn in Hk, Hl; lia|]. rewrite two_S in Hk, Hl.
  assert (X : forall k l, (k < 2 ^ p)%nat -> (l < 2 ^ p)%nat -> root p k <> (zeta p * root p l)%C).
  { intros a b Ha Hb E. apply (f_equal (fun x => cpow x (2 ^ p))) in E. rewrite cpow_mult, zeta_pow, !root_pow in E by auto. rewrite <- RtoC_mult in E. apply RtoC_inj in E. lra. }
  destruct (Nat.lt_ge_cases k (2 ^ p)) as [Q1|Q1], (Nat.lt_ge_cases l (2 ^ p)) as [Q2|Q2].
  - rewrite !root_left by auto. auto.
  - rewrite root_left by auto. replace l with (2 ^ p + (l - 2 ^ p))%nat by lia. rewrite root_right. apply X; lia.
  - rewrite (root_left p l) by auto. replace k with (2 ^ p + (k - 2 ^ p))%nat by lia. rewrite root_right. intros E. symmetry in E. revert E. apply X; lia.
  - replace l with (2 ^ p + (l - 2 ^ p))%nat by lia. replace k with (2 ^ p + (k - 2 ^ p))%nat by lia. rewrite !root_right. intros E. apply (IHp (k - 2 ^ p)%nat (l - 2 ^ p)%nat); try lia.
    assert (Z : zeta p <> RtoC 0). { intros Z. pose proof (zeta_mod p) as M. rewrite Z, Cmod_0 in M. lra. }
    apply (f_equal (Cmult (/ zeta p)%C)) in E. rewrite !Cmult_assoc, Cinv_l, !Cmult_1_l in E by auto. auto.
Qed.

Section Circles.
  Variables (K : nat) (z : nat -> C) (r : nat -> R) (dl : R).
  Hypothesis Hd : 0 < dl.
  Hypothesis Hr : forall m, (m < K)%nat -> 0 < r m.
  Hypothesis Hi : forall m, (m < K)%nat -> Cmod (z m) + r m <= 1 - dl.
  Hypothesis Hs : forall m n, (m < K)%nat -> (n < K)%nat -> m <> n -> r m + r n + dl <= Cmod (z m - z n)%C.

  Definition circle_potential (m n : nat) : R :=
    if Nat.eqb m n then ln (1 - Cmod (z m) ^ 2) - ln (r m) else ln (Cmod (RtoC 1 - z m * Cconj (z n))%C) - ln (Cmod (z m - z n)%C).

  Section Points.
    Variables (p : nat) (eta : R).
    Local Notation N := (2 ^ p)%nat.
    Hypothesis He : 0 < eta <= 1.
    Hypothesis Hp : (1 - dl) ^ N <= 1 / 2.
    Definition point (m k : nat) : C := (z m + RtoC (r m) * root p k)%C.

    Lemma point_mod m k : (m < K)%nat -> Cmod (point m k) <= 1 - dl.
    Proof. intros Hm. unfold point. eapply Rle_trans; [apply Cmod_triangle|]. rewrite Cmod_mult, Cmod_R, root_mod, Rabs_pos_eq by (left; auto). specialize (Hi m Hm). lra. Qed.
    Lemma shrink m x : (m < K)%nat -> r m + dl <= x -> r m <= (1 - dl) * x.
    Proof. intros Hm Hx. pose proof (Hi m Hm). pose proof (Hr m Hm). pose proof (Cmod_ge_0 (z m)). assert (0 <= 1 - dl) by lra. assert ((1 - dl) * (r m + dl) <= (1 - dl) * x) by (apply Rmult_le_compat_l; auto). nra. Qed.
    Lemma pos_nz x : 0 < Cmod x -> x <> RtoC 0.
    Proof. intros H ->. rewrite Cmod_0 in H. lra. Qed.

    Lemma one_minus_ge (a b : C) : Cmod b <= 1 -> 1 - Cmod a <= Cmod (RtoC 1 - a * b)%C.
    Proof. intros H. pose proof (Cmod_minus_ge (RtoC 1) (a * b)%C) as T. rewrite Cmod_1, Cmod_mult in T. pose proof (Cmod_ge_0 a). pose proof (Cmod_ge_0 b). nra. Qed.

    Lemma image_sum m n : (m < K)%nat -> (n < K)%nat ->
      Rabs (sumn N (fun k => sumn N (fun l => ln (Cmod (RtoC 1 - point m k * Cconj (point n l))%C))) - INR N * INR N * ln (Cmod (RtoC 1 - z m * Cconj (z n))%C)) <= 2 * INR N.
    Proof.
      intros Hm Hn. pose proof (Hi m Hm) as Im. pose proof (Hi n Hn) as In_. pose proof (Hr m Hm) as Rm. pose proof (Hr n Hn) as Rn. pose proof (Cmod_ge_0 (z m)) as Zm. pose proof (Cmod_ge_0 (z n)) as Zn.
      apply (two_means N _ (fun l => ln (Cmod (RtoC 1 - z m * Cconj (point n l))%C))).
      - intros l Hl. set (c := Cconj (point n l)). assert (Hc : Cmod c <= 1) by (unfold c; rewrite Cmod_conj; pose proof (point_mod n l Hn); lra).
        rewrite (sumn_ext N _ (fun k => ln (Cmod ((RtoC 1 - z m * c) - (RtoC (r m) * c) * root p k)%C))) by (intros k _; unfold point; do 2 f_equal; ring).
        pose proof (one_minus_ge (z m) c Hc) as G. apply (mean_log p _ _ (1 - dl)); auto; [lra|apply pos_nz; lra|].
        rewrite Cmod_mult, Cmod_R, Rabs_pos_eq by lra. apply Rle_trans with (r m); [pose proof (Cmod_ge_0 c); nra|]. apply shrink; auto. lra.
      - rewrite (sumn_ext N _ (fun l => ln (Cmod ((RtoC 1 - Cconj (z m) * z n) - (Cconj (z m) * RtoC (r n)) * root p l)%C))).
        2: { intros l _. f_equal. rewrite <- Cmod_conj. f_equal. rewrite conj_minus, conj_mult, conj_R, conj_conj. unfold point. ring. }
        replace (Cmod (RtoC 1 - z m * Cconj (z n))%C) with (Cmod (RtoC 1 - Cconj (z m) * z n)%C) by (rewrite <- Cmod_conj; f_equal; rewrite conj_minus, conj_mult, conj_R, conj_conj; ring).
        assert (Hc : Cmod (Cconj (z m)) <= 1) by (rewrite Cmod_conj; lra). pose proof (one_minus_ge (z n) (Cconj (z m)) Hc) as G. rewrite (Cmult_comm (z n)) in G.
        apply (mean_log p _ _ (1 - dl)); auto; [lra|apply pos_nz; lra|].
        rewrite Cmod_mult, Cmod_R, Rabs_pos_eq by lra. apply Rle_trans with (r n); [pose proof (Cmod_ge_0 (Cconj (z m))); nra|]. apply shrink; auto. lra.
    Qed.

    Lemma direct_sum m n : (m < K)%nat -> (n < K)%nat -> m <> n ->
      Rabs (sumn N (fun k => sumn N (fun l => ln (Cmod (point m k - point n l)%C))) - INR N * INR N * ln (Cmod (z m - z n)%C)) <= 2 * INR N.
    Proof.
      intros Hm Hn Ne. pose proof (Hi m Hm) as Im. pose proof (Hr m Hm) as Rm. pose proof (Hr n Hn) as Rn. pose proof (Hs m n Hm Hn Ne) as S. pose proof (Cmod_ge_0 (z m)) as Zm. pose proof (Hi n Hn) as In_. pose proof (Cmod_ge_0 (z n)) as Zn.
      apply (two_means N _ (fun l => ln (Cmod (z m - point n l)%C))).
      - intros l Hl. rewrite (sumn_ext N _ (fun k => ln (Cmod ((z m - point n l) - (- RtoC (r m)) * root p k)%C))) by (intros k _; unfold point at 1; do 2 f_equal; ring).
        assert (G : r m + dl <= Cmod (z m - point n l)%C).
        { pose proof (Cmod_minus_ge (z m - z n)%C (RtoC (r n) * root p l)%C) as T. rewrite Cmod_mult, Cmod_R, root_mod, Rabs_pos_eq in T by lra. replace (z m - z n - RtoC (r n) * root p l)%C with (z m - point n l)%C in T by (unfold point; ring). lra. }
        apply (mean_log p _ _ (1 - dl)); auto; [lra|apply pos_nz; lra|]. rewrite Cmod_opp, Cmod_R, Rabs_pos_eq by lra. apply shrink; auto.
      - rewrite (sumn_ext N _ (fun l => ln (Cmod ((z m - z n) - RtoC (r n) * root p l)%C))) by (intros l _; unfold point; do 2 f_equal; ring).
        apply (mean_log p _ _ (1 - dl)); auto; [lra|apply pos_nz; lra|]. rewrite Cmod_R, Rabs_pos_eq by lra. apply shrink; auto. lra.
    Qed.

    Lemma direct_ge m n k l : (m < K)%nat -> (n < K)%nat -> m <> n -> dl <= Cmod (point m k - point n l)%C.
    Proof.
      intros Hm Hn Ne. pose proof (Hs m n Hm Hn Ne). pose proof (Hr m Hm). pose proof (Hr n Hn). pose proof (Cmod_minus_ge (z m - z n)%C (RtoC (r n) * root p l - RtoC (r m) * root p k)%C) as T.
      pose proof (Cmod_minus_le (RtoC (r n) * root p l)%C (RtoC (r m) * root p k)%C) as U. rewrite !Cmod_mult, !Cmod_R, !root_mod, !Rabs_pos_eq in U by lra.
      replace (z m - z n - (RtoC (r n) * root p l - RtoC (r m) * root p k))%C with (point m k - point n l)%C in T by (unfold point; ring). lra.
    Qed.

    Definition softened (m k n l : nat) : R := ln (Cmod (point m k - point n l)%C ^ 2 + eta * ((1 - Cmod (point m k) ^ 2) * (1 - Cmod (point n l) ^ 2))) / 2.
    Lemma inside_sq m k : (m < K)%nat -> dl <= 1 - Cmod (point m k) ^ 2 <= 1.
    Proof. intros Hm. pose proof (point_mod m k Hm). pose proof (Cmod_ge_0 (point m k)). nra. Qed.
    Lemma ln_half x : 0 < x -> ln (x ^ 2) / 2 = ln x.
    Proof. intros H. rewrite ln_pow by auto. cbn [INR]. field. Qed.
    Lemma ln_le_sub x y : 0 < x -> x <= y -> 0 <= ln y - ln x <= (y - x) / x.
    Proof.
      intros Hx Hy. split.
      - destruct (Req_dec x y) as [->|]; [lra|]. pose proof (ln_increasing x y). lra.
      - replace (ln y - ln x) with (ln (y / x)) by (unfold Rdiv; rewrite ln_mult, ln_Rinv; try lra; apply Rinv_0_lt_compat; lra).
        assert (0 < y / x) by (apply Rdiv_lt_0_compat; lra). pose proof (exp_ineq1_le (ln (y / x))) as Q. rewrite exp_ln in Q by auto. replace ((y - x) / x) with (y / x - 1) by (field; lra). lra.
    Qed.

    Lemma soft_off m n k l : (m < K)%nat -> (n < K)%nat -> m <> n -> 0 <= softened m k n l - ln (Cmod (point m k - point n l)%C) <= eta / (2 * dl ^ 2).
    Proof.
      intros Hm Hn Ne. pose proof (direct_ge m n k l Hm Hn Ne) as G. set (d := Cmod (point m k - point n l)%C) in *. pose proof (inside_sq m k Hm). pose proof (inside_sq n l Hn).
      unfold softened. fold d. rewrite <- (ln_half d) by lra. set (e := (1 - Cmod (point m k) ^ 2) * (1 - Cmod (point n l) ^ 2)) in *. assert (E : 0 <= e <= 1) by (unfold e; nra).
      assert (D2 : dl ^ 2 <= d ^ 2) by (apply pow_incr; lra). assert (0 < dl ^ 2) by (apply pow_lt; auto). destruct (ln_le_sub (d ^ 2) (d ^ 2 + eta * e)) as [L U]; [lra|nra|].
      replace (d ^ 2 + eta * e - d ^ 2) with (eta * e) in U by ring.
      assert (eta * e / d ^ 2 <= eta / dl ^ 2). { unfold Rdiv. apply Rmult_le_compat; [nra|left; apply Rinv_0_lt_compat; lra|nra|apply Rinv_le_contravar; lra]. }
      replace (eta / (2 * dl ^ 2)) with (eta / dl ^ 2 / 2) by (field; lra). lra.
    Qed.

    Lemma soft_own m k l : (m < K)%nat -> (k < N)%nat -> (l < N)%nat ->
      (if Nat.eqb l k then ln (eta * dl ^ 2) / 2 else ln (r m) + ln (Cmod (root p k - root p l)%C)) <= softened m k m l.
    Proof.
      intros Hm Hk Hl. pose proof (inside_sq m k Hm) as A. pose proof (inside_sq m l Hm) as B. unfold softened. set (e := (1 - Cmod (point m k) ^ 2) * (1 - Cmod (point m l) ^ 2)) in *.
      assert (E : dl ^ 2 <= e) by (unfold e; nra). assert (P : 0 < dl ^ 2) by (apply pow_lt; auto).
      destruct (Nat.eqb_spec l k) as [->|Ne].
      - assert (ln (eta * dl ^ 2) <= ln (Cmod (point m k - point m k)%C ^ 2 + eta * e)); [|lra]. pose proof (pow2_ge_0 (Cmod (point m k - point m k)%C)). destruct (ln_le_sub (eta * dl ^ 2) (Cmod (point m k - point m k)%C ^ 2 + eta * e)); [nra|nra|lra].
      - assert (D : Cmod (point m k - point m l)%C = r m * Cmod (root p k - root p l)%C).
        { replace (point m k - point m l)%C with (RtoC (r m) * (root p k - root p l))%C by (unfold point; ring). rewrite Cmod_mult, Cmod_R, Rabs_pos_eq; auto. left; auto. }
        assert (G : 0 < Cmod (root p k - root p l)%C). { apply Cmod_gt_0. intros Z. apply (root_distinct p k l); auto. replace (root p k) with (root p k - root p l + root p l)%C by ring. rewrite Z. ring. }
        pose proof (Hr m Hm). assert (0 < r m * Cmod (root p k - root p l)%C) by (apply Rmult_lt_0_compat; auto).
        rewrite <- ln_mult by auto. rewrite D. rewrite <- ln_half by auto. set (x := (r m * Cmod (root p k - root p l)%C) ^ 2). assert (0 < x) by (apply pow_lt; auto).
        destruct (ln_le_sub x (x + eta * e)); [auto|nra|lra].
    Qed.

    Local Notation B := (fun m n => sumn N (fun k => sumn N (fun l => ln (Cmod (RtoC 1 - point m k * Cconj (point n l))%C) - softened m k n l))).
    Lemma points_psd : psd K B.
    Proof.
      assert (HN : (0 < N)%nat) by (pose proof (Nat.pow_nonzero 2 p); lia).
      pose proof (psd_green (N * K) (fun a => point (a / N) (a mod N)) eta He) as G.
      assert (Q : forall a, (a < N * K)%nat -> Cmod (point (a / N) (a mod N)) < 1).
      { intros a Ha. pose proof (point_mod (a / N) (a mod N)) as X. assert ((a / N < K)%nat) by (apply Nat.div_lt_upper_bound; lia). specialize (X H). lra. }
      specialize (G Q). apply (block_psd N K) in G; auto. eapply psd_ext; [|exact G]. intros m n Hm Hn. apply sumn_ext. intros k Hk. apply sumn_ext. intros l Hl. cbv beta.
      assert (D : forall m k, (k < N)%nat -> ((N * m + k) / N)%nat = m /\ ((N * m + k) mod N)%nat = k).
      { intros m' k' Hk'. rewrite Nat.mul_comm. split; [rewrite Nat.div_add_l, Nat.div_small by lia; lia|]. rewrite Nat.add_comm, Nat.mod_add, Nat.mod_small by lia. auto. }
      destruct (D m k Hk) as [-> ->]. destruct (D n l Hl) as [-> ->]. unfold softened. f_equal. apply ln_half.
      pose proof (point_mod m k Hm). apply Rlt_le_trans with (1 - Cmod (point m k)); [lra|]. apply one_minus_ge. rewrite Cmod_conj. pose proof (point_mod n l Hn). lra.
    Qed.

    Lemma own_bound m : (m < K)%nat -> B m m <= INR N * INR N * circle_potential m m + INR N * (2 - ln (eta * dl ^ 2) / 2).
    Proof.
      intros Hm. unfold circle_potential. rewrite Nat.eqb_refl. pose proof (image_sum m m Hm Hm) as U. pose proof (Hi m Hm). pose proof (Hr m Hm). pose proof (Cmod_ge_0 (z m)).
      replace (Cmod (RtoC 1 - z m * Cconj (z m))%C) with (1 - Cmod (z m) ^ 2) in U.
      2: { rewrite <- (Rabs_pos_eq (1 - Cmod (z m) ^ 2)) by nra. rewrite <- Cmod_R. f_equal. rewrite RtoC_minus. f_equal. destruct (z m) as [x y]. unfold Cmod. rewrite pow2_sqrt by (apply Rplus_le_le_0_compat; apply pow2_ge_0).
           unfold RtoC, Cmult, Cconj. cbn. f_equal; ring. }
      rewrite (sumn_ext N (fun k => sumn N (fun l => ln (Cmod (RtoC 1 - point m k * Cconj (point m l))%C) - softened m k m l)) (fun k => sumn N (fun l => ln (Cmod (RtoC 1 - point m k * Cconj (point m l))%C)) - sumn N (fun l => softened m k m l))) by (intros; apply sumn_minus).
      rewrite sumn_minus.
      assert (S : INR N * INR N * ln (r m) + INR N * (ln (eta * dl ^ 2) / 2) <= sumn N (fun k => sumn N (fun l => softened m k m l))).
      { replace (INR N * INR N * ln (r m) + INR N * (ln (eta * dl ^ 2) / 2)) with (sumn N (fun _ => INR N * ln (r m) + ln (eta * dl ^ 2) / 2)) by (rewrite sumn_const; ring).
        apply sumn_le. intros k Hk. eapply Rle_trans; [|apply sumn_le; intros l Hl; apply (soft_own m k l Hm Hk Hl)].
        rewrite (sumn_ext N _ (fun l => (if Nat.eqb l k then ln (eta * dl ^ 2) / 2 - ln (r m) else 0) + (ln (r m) + (if Nat.eqb l k then 0 else ln (Cmod (root p k - root p l)%C))))) by (intros l _; destruct (Nat.eqb l k); ring).
        rewrite !sumn_plus, sumn_const. pose proof (self_log p k Hk) as L.
        rewrite (sumn_single N k (fun l => if Nat.eqb l k then ln (eta * dl ^ 2) / 2 - ln (r m) else 0)); [|auto|intros i _ Ni; destruct (Nat.eqb_spec i k); [contradiction|auto]]. rewrite Nat.eqb_refl.
        assert (ln (r m) <= 0) by (rewrite <- ln_1; left; apply ln_increasing; lra). lra. }
      apply Rabs_le_between in U. lra.
    Qed.

    Lemma off_bound m n : (m < K)%nat -> (n < K)%nat -> m <> n -> Rabs (B m n - INR N * INR N * circle_potential m n) <= INR N * 4 + INR N * INR N * (eta / (2 * dl ^ 2)).
    Proof.
      intros Hm Hn Ne. unfold circle_potential. destruct (Nat.eqb_spec m n); [contradiction|]. pose proof (image_sum m n Hm Hn) as U. pose proof (direct_sum m n Hm Hn Ne) as V.
      rewrite (sumn_ext N (fun k => sumn N (fun l => ln (Cmod (RtoC 1 - point m k * Cconj (point n l))%C) - softened m k n l))
        (fun k => sumn N (fun l => ln (Cmod (RtoC 1 - point m k * Cconj (point n l))%C)) - (sumn N (fun l => ln (Cmod (point m k - point n l)%C)) + sumn N (fun l => softened m k n l - ln (Cmod (point m k - point n l)%C)))))
        by (intros; rewrite <- sumn_plus, <- sumn_minus; apply sumn_ext; intros; ring).
      rewrite sumn_minus, sumn_plus. set (s := sumn N (fun k => sumn N (fun l => softened m k n l - ln (Cmod (point m k - point n l)%C)))).
      assert (S : 0 <= s <= INR N * INR N * (eta / (2 * dl ^ 2))).
      { split; [apply sumn_nonneg; intros k _; apply sumn_nonneg; intros l _; apply soft_off; auto|]. replace (INR N * INR N * (eta / (2 * dl ^ 2))) with (sumn N (fun _ => sumn N (fun _ => eta / (2 * dl ^ 2)))) by (rewrite !sumn_const; ring).
        apply sumn_le. intros k _. apply sumn_le. intros l _. apply soft_off; auto. }
      apply Rabs_le_between in U, V. apply Rabs_le. lra.
    Qed.
  End Points.

  Lemma circles_psd : psd K circle_potential.
  Proof.
    intros q. destruct (Rle_or_lt 0 (form K circle_potential q)) as [|Neg]; auto. exfalso. set (e := - form K circle_potential q) in *.
    set (T := form K (fun _ _ => 1) (fun i => Rabs (q i))). assert (T0 : 0 <= T) by (apply psd_ones).
    assert (K1 : (0 < K)%nat) by (destruct (Nat.eq_dec K 0) as [K0|]; [unfold form in Neg; rewrite K0 in Neg; cbn in Neg; lra|lia]).
    assert (D1 : dl < 1). { pose proof (Hi O ltac:(lia)). pose proof (Hr O ltac:(lia)). pose proof (Cmod_ge_0 (z O)). lra. }
    assert (D2 : 0 < dl ^ 2) by (apply pow_lt; auto). assert (D3 : dl ^ 2 < 1) by nra.
    set (eta := Rmin 1 (e * dl ^ 2 / (T + 1))). assert (Ee : 0 < e) by (unfold e; lra).
    assert (He : 0 < eta <= 1). { split; [apply Rmin_glb_lt; [lra|apply Rdiv_lt_0_compat; nra]|apply Rmin_l]. }
    set (c := 4 - ln (eta * dl ^ 2) / 2). assert (Hc : 4 <= c). { unfold c. assert (ln (eta * dl ^ 2) <= 0); [|lra]. rewrite <- ln_1. left. apply ln_increasing; nra. }
    destruct (pow_lt_1_zero (1 - dl)) with (y := 1 / 2) as [N1 P1]; [rewrite Rabs_pos_eq; lra|lra|].
    assert (Un : exists n, 4 * T * c / e < INR n). { destruct (archimed (4 * T * c / e)) as [Ar _]. exists (Z.to_nat (up (4 * T * c / e))). rewrite INR_IZR_INZ. destruct (Z.le_gt_cases 0 (up (4 * T * c / e))) as [Zp|Zn]; [rewrite Z2Nat.id by auto; auto|]. apply IZR_lt in Zn. pose proof (IZR_le 0 (Z.of_nat (Z.to_nat (up (4 * T * c / e)))) ltac:(lia)). lra. }
    destruct Un as [N2 P2].
    set (p := (N1 + N2 + 1)%nat). assert (Hp : (p < 2 ^ p)%nat) by (apply Nat.pow_gt_lin_r; lia). set (N := (2 ^ p)%nat) in *.
    assert (Pw : (1 - dl) ^ N <= 1 / 2). { specialize (P1 N ltac:(unfold p in Hp; lia)). rewrite Rabs_pos_eq in P1 by (apply pow_le; lra). lra. }
    pose proof (points_psd p eta He q) as Ps. fold N in Ps.
    assert (NN : INR N2 <= INR N) by (apply le_INR; unfold p in Hp; lia). assert (N0 : 0 < INR N) by (apply lt_0_INR; lia).
    assert (Up : form K (fun m n => sumn N (fun k => sumn N (fun l => ln (Cmod (RtoC 1 - point p m k * Cconj (point p n l))%C) - softened p eta m k n l))) q
      <= INR N * INR N * form K circle_potential q + (INR N * c + INR N * INR N * (eta / (2 * dl ^ 2))) * T).
    { unfold T. rewrite <- !form_scal. unfold form. rewrite <- sumn_plus. apply sumn_le. intros m Hm. cbv beta. rewrite <- sumn_plus. apply sumn_le. intros n Hn. cbv beta.
      set (G := INR N * c + INR N * INR N * (eta / (2 * dl ^ 2))). assert (0 <= eta / (2 * dl ^ 2)) by (left; apply Rdiv_lt_0_compat; lra). assert (0 <= INR N * INR N * (eta / (2 * dl ^ 2))) by (apply Rmult_le_pos; [nra|auto]).
      destruct (Nat.eq_dec m n) as [<-|Ne].
      - pose proof (own_bound p eta He Pw m Hm) as Ob. cbv beta in Ob. fold N in Ob. set (b := sumn N _) in *. replace (Rabs (q m) * Rabs (q m)) with (q m * q m) by (rewrite <- Rabs_mult, Rabs_pos_eq; nra).
        assert (Q : 0 <= q m * q m) by nra. assert (b <= INR N * INR N * circle_potential m m + G) by (unfold G, c; lra). nra.
      - pose proof (off_bound p eta He Pw m n Hm Hn Ne) as Ob. cbv beta in Ob. fold N in Ob. set (b := sumn N _) in *. set (g := INR N * INR N * circle_potential m n) in *.
        assert (X : Rabs (b - g) <= G) by (unfold G; nra). assert (Y : q m * q n * (b - g) <= Rabs (q m) * Rabs (q n) * G).
        { eapply Rle_trans; [apply Rle_abs|]. rewrite !Rabs_mult. apply Rmult_le_compat_l; auto. apply Rmult_le_pos; apply Rabs_pos. }
        unfold g in *. nra. }
    assert (A1 : eta / (2 * dl ^ 2) * T <= e / 2).
    { assert (M : eta <= e * dl ^ 2 / (T + 1)) by apply Rmin_r. apply Rle_trans with (e * dl ^ 2 / (T + 1) / (2 * dl ^ 2) * T).
      - apply Rmult_le_compat_r; auto. unfold Rdiv at 1 3. apply Rmult_le_compat_r; auto. left. apply Rinv_0_lt_compat. lra.
      - replace (e * dl ^ 2 / (T + 1) / (2 * dl ^ 2) * T) with (e / 2 * (T / (T + 1))) by (field; lra). assert (T / (T + 1) <= 1) by (apply (Rmult_le_reg_r (T + 1)); [lra|]; unfold Rdiv; rewrite Rmult_assoc, Rinv_l by lra; lra). nra. }
    assert (A2 : c * T <= e / 4 * INR N).
    { assert (4 * T * c / e < INR N) by lra. apply (Rmult_lt_compat_r e) in H; auto. replace (4 * T * c / e * e) with (4 * T * c) in H by (field; lra). lra. }
    assert (Fin : INR N * INR N * form K circle_potential q + (INR N * c + INR N * INR N * (eta / (2 * dl ^ 2))) * T <= INR N * INR N * (- (e / 4))).
    { replace (form K circle_potential q) with (- e) by (unfold e; ring). assert (INR N * (c * T) <= INR N * (e / 4 * INR N)) by (apply Rmult_le_compat_l; lra).
      assert (INR N * INR N * (eta / (2 * dl ^ 2) * T) <= INR N * INR N * (e / 2)) by (apply Rmult_le_compat_l; [nra|auto]). nra. }
    assert (0 < INR N * INR N * (e / 4)) by (apply Rmult_lt_0_compat; nra). lra.
  Qed.
End Circles.

(** The same if circles touch each other or the wall *)
Lemma circles_touching K z r : (forall m, (m < K)%nat -> 0 < r m) -> (forall m, (m < K)%nat -> Cmod (z m) + r m <= 1) ->
  (forall m n, (m < K)%nat -> (n < K)%nat -> m <> n -> r m + r n <= Cmod (z m - z n)%C) -> psd K (circle_potential z r).
Proof.
  intros Hr Hi Hs. assert (Mi : exists r0, 0 < r0 /\ forall m, (m < K)%nat -> r0 <= r m).
  { clear Hi Hs. induction K as [|k IH]; [exists 1; split; [lra|intros; lia]|]. destruct IH as [r0 [P0 Q0]]; [intros; apply Hr; lia|]. exists (Rmin r0 (r k)). split; [apply Rmin_glb_lt; auto|].
    intros m Hm. destruct (Nat.eq_dec m k) as [->|]; [apply Rmin_r|]. eapply Rle_trans; [apply Rmin_l|apply Q0; lia]. }
  destruct Mi as [r0 [P0 Q0]].
  apply (psd_lim K (fun k => circle_potential z (fun m => (1 - / (INR k + 2)) * r m))).
  - intros k. pose proof (pos_INR k). assert (T : 0 < / (INR k + 2) <= / 2) by (split; [apply Rinv_0_lt_compat; lra|apply Rinv_le_contravar; lra]). set (t := / (INR k + 2)) in *.
    apply (circles_psd K z _ (t * r0)).
    + apply Rmult_lt_0_compat; lra.
    + intros m Hm. apply Rmult_lt_0_compat; [lra|auto].
    + intros m Hm. specialize (Hi m Hm). specialize (Q0 m Hm). nra.
    + intros m n Hm Hn Ne. specialize (Hs m n Hm Hn Ne). pose proof (Q0 m Hm). pose proof (Q0 n Hn). nra.
  - intros m n Hm Hn. unfold circle_potential. destruct (Nat.eqb m n); [|apply is_lim_seq_const]. apply is_lim_seq_minus'; [apply is_lim_seq_const|].
    apply (is_lim_seq_continuous ln (fun k => (1 - / (INR k + 2)) * r m)).
    + apply continuity_pt_filterlim. apply continuous_ln. auto.
    + replace (Finite (r m)) with (Finite ((1 - 0) * r m)) by (f_equal; ring). apply is_lim_seq_mult'; [|apply is_lim_seq_const]. apply is_lim_seq_minus'; [apply is_lim_seq_const|].
      replace (Finite 0) with (Rbar_inv p_infty) by reflexivity. apply is_lim_seq_inv; [|discriminate]. eapply is_lim_seq_plus; [apply is_lim_seq_INR|apply is_lim_seq_const|reflexivity].
Qed.
