(** Line sources of several boreholes at least six radii apart: the heat they exchange with
    the ground is positive. *)
From Coq Require Import Reals Lra Lia List.
From Coquelicot Require Import Coquelicot.
From Verif Require Import Base FLS_Model FLS_Spec FLS_Erf_Proofs FLS_Proofs FLS_Sol_Proofs Def_Psd_Proofs Def_Kernel_Proofs Def_Pack_Proofs.
Local Open Scope R_scope.

Lemma psd_pull n m A (g : nat -> nat) : psd m A -> (forall i, (i < n)%nat -> (g i < m)%nat) -> psd n (fun i j => A (g i) (g j)).
Proof.
  intros P Hg x. set (y := fun b => sumn n (fun i => if Nat.eqb (g i) b then x i else 0)).
  assert (T : forall f, sumn n (fun i => x i * f (g i)) = sumn m (fun b => y b * f b)).
  { intros f. unfold y. rewrite (sumn_ext m _ (fun b => sumn n (fun i => (if Nat.eqb (g i) b then x i else 0) * f b))) by (intros; rewrite sumn_scal_r; auto).
    rewrite sumn_swap. apply sumn_ext; intros i Hi.
    rewrite (sumn_single m (g i)); [rewrite Nat.eqb_refl; auto|auto|]. intros b _ N. destruct (Nat.eqb_spec (g i) b); [congruence|ring]. }
  replace (form n (fun i j => A (g i) (g j)) x) with (form m A y); [apply P|]. unfold form.
  rewrite (sumn_ext n _ (fun i => x i * sumn m (fun b => y b * A (g i) b))).
  - rewrite (T (fun c => sumn m (fun b => y b * A c b))). apply sumn_ext; intros c _. rewrite <- sumn_scal. apply sumn_ext; intros; ring.
  - intros i Hi. rewrite <- (T (fun b => A (g i) b)), <- sumn_scal. apply sumn_ext; intros; ring.
Qed.

Lemma psd_diag m (c : nat -> R) : (forall b, (b < m)%nat -> 0 <= c b) -> psd m (fun a b => if Nat.eqb a b then c a else 0).
Proof.
  intros Hc x. unfold form. apply sumn_nonneg; intros a Ha. rewrite (sumn_single m a); auto.
  - rewrite Nat.eqb_refl. replace (x a * x a * c a) with (x a ^ 2 * c a) by ring. apply Rmult_le_pos; [apply pow2_ge_0|auto].
  - intros b _ N. destruct (Nat.eqb_spec a b); [congruence|ring].
Qed.

Lemma psd_dominant m A : (forall a b, A a b = A b a) ->
  (forall a, (a < m)%nat -> sumn m (fun b => if Nat.eqb a b then 0 else Rabs (A a b)) <= A a a) -> psd m A.
Proof.
  intros Sy Dm y. set (o := fun a b => if Nat.eqb a b then 0 else Rabs (A a b)).
  assert (So : forall a b, o a b = o b a).
  { intros a b. unfold o. rewrite (Nat.eqb_sym b a). destruct (Nat.eqb a b); auto. rewrite Sy; auto. }
  assert (E1 : sumn m (fun a => sumn m (fun b => o a b * (y b ^ 2 / 2))) = sumn m (fun a => sumn m (fun b => o a b * (y a ^ 2 / 2)))).
  { rewrite sumn_swap. apply sumn_ext; intros a _. apply sumn_ext; intros b _. rewrite So; auto. }
  assert (L : sumn m (fun a => sumn m (fun b => (if Nat.eqb a b then A a a * y a ^ 2 else 0) - o a b * (y a ^ 2 / 2) - o a b * (y b ^ 2 / 2))) <= form m A y).
  { unfold form. apply sumn_le; intros a _. apply sumn_le; intros b _. unfold o. destruct (Nat.eqb_spec a b) as [->|N]; [lra|].
    assert (Rabs (y a * y b * A a b) <= Rabs (A a b) * (y a ^ 2 / 2 + y b ^ 2 / 2)).
    { rewrite Rabs_mult, Rmult_comm. apply Rmult_le_compat_l; [apply Rabs_pos|]. rewrite Rabs_mult, <- (pow2_abs (y a)), <- (pow2_abs (y b)).
      pose proof (pow2_ge_0 (Rabs (y a) - Rabs (y b))). lra. }
    pose proof (Rle_abs (- (y a * y b * A a b))) as Q. rewrite Rabs_Ropp in Q. lra. }
  eapply Rle_trans; [|exact L].
  rewrite (sumn_ext m _ (fun a => A a a * y a ^ 2 - sumn m (fun b => o a b * (y a ^ 2 / 2)) - sumn m (fun b => o a b * (y b ^ 2 / 2)))).
  - rewrite !sumn_minus, E1, <- !sumn_minus. apply sumn_nonneg; intros a Ha. rewrite sumn_scal_r.
    pose proof (Dm a Ha) as Q. fold (o a) in Q. change (sumn m (fun b => o a b)) with (sumn m (o a)). pose proof (pow2_ge_0 (y a)) as Z. unfold o at 1 2.
    change (sumn m (fun b => if Nat.eqb a b then 0 else Rabs (A a b))) with (sumn m (o a)) in *. nra.
  - intros a Ha. rewrite !sumn_minus. rewrite (sumn_single m a); [rewrite Nat.eqb_refl; auto|auto|].
    intros b _ N. destruct (Nat.eqb_spec a b); [congruence|auto].
Qed.

Section Field.
Variables (n m : nat) (H D : nat -> R) (g : nat -> nat) (px py rho : nat -> R) (delta : R).
Hypothesis Hg : forall i, (i < n)%nat -> (g i < m)%nat.
Hypothesis HH : forall i, (i < n)%nat -> 0 < H i /\ 0 <= D i.
Hypothesis Hs : forall i j, (i < n)%nat -> (j < n)%nat -> i <> j -> g i = g j -> D i + H i <= D j \/ D j + H j <= D i.
Hypothesis Hd : 0 < delta.
Hypothesis Hr : forall b, (b < m)%nat -> 0 < rho b /\ 6 * rho b <= delta.
Hypothesis Ha : forall a b, (a < m)%nat -> (b < m)%nat -> a <> b -> delta ^ 2 <= (px a - px b) ^ 2 + (py a - py b) ^ 2.

Definition away a b : R := (px a - px b) ^ 2 + (py a - py b) ^ 2.
Definition plane s a b : R := if Nat.eqb a b then exp (- rho a ^ 2 * s ^ 2) else exp (- s ^ 2 * away a b).
Definition one a b : R := if Nat.eqb a b then 1 else 0.
Definition near s : R := (delta / 6) ^ 2 * s ^ 2.

Lemma away_sym a b : away a b = away b a. Proof. unfold away. ring. Qed.

Lemma rho_near a s : (a < m)%nat -> rho a ^ 2 * s ^ 2 <= near s.
Proof.
  intros L. destruct (Hr a L). unfold near. apply Rmult_le_compat_r; [apply pow2_ge_0|]. apply pow_incr. lra.
Qed.

Lemma plane_always s : psd m (fun a b => plane s a b + near s * one a b).
Proof.
  apply (psd_ext m (fun a b => exp (- s ^ 2 * (px a - px b) ^ 2) * exp (- s ^ 2 * (py a - py b) ^ 2)
                               + (if Nat.eqb a b then near s - 1 + exp (- rho a ^ 2 * s ^ 2) else 0))).
  - intros a b _ _. unfold plane, one, away. destruct (Nat.eqb_spec a b) as [->|N].
    + replace (- s ^ 2 * (px b - px b) ^ 2) with 0 by ring. replace (- s ^ 2 * (py b - py b) ^ 2) with 0 by ring. rewrite exp_0. ring.
    + rewrite <- exp_plus. replace (- s ^ 2 * (px a - px b) ^ 2 + - s ^ 2 * (py a - py b) ^ 2) with (- s ^ 2 * ((px a - px b) ^ 2 + (py a - py b) ^ 2)) by ring. ring.
  - apply psd_plus.
    + apply (psd_gauss1 m (fun a b => exp (- s ^ 2 * (px a - px b) ^ 2))); [apply pow2_ge_0|].
      apply (psd_ext m (fun a b => 1 * exp (- s ^ 2 * (px a - px b) ^ 2))); [intros; ring|].
      apply (psd_gauss1 m (fun _ _ => 1)); [apply pow2_ge_0|apply psd_ones].
    + apply (psd_diag m (fun a => near s - 1 + exp (- rho a ^ 2 * s ^ 2))). intros b L.
      pose proof (exp_ineq1_le (- rho b ^ 2 * s ^ 2)). pose proof (rho_near b s L). lra.
Qed.

Lemma plane_near s : 3 / delta <= s -> psd m (fun a b => plane s a b - 3 / 4 * exp (- near s) * one a b).
Proof.
  intros Ls. assert (Ls' : 3 <= s * delta). { apply (Rmult_le_compat_r delta) in Ls; [|lra]. unfold Rdiv in Ls. rewrite Rmult_assoc, Rinv_l in Ls by lra. lra. }
  apply psd_dominant.
  - intros a b. unfold plane, one. rewrite (Nat.eqb_sym b a). destruct (Nat.eqb_spec a b) as [->|N]; auto. rewrite away_sym; auto.
  - intros a La.
    set (y := (s * delta) ^ 2).
    assert (Ny : near s = y / 36) by (unfold near, y; field).
    assert (Y9 : 9 <= y) by (unfold y; nra).
    apply (Rle_trans _ (exp (- y / 2) * sumn m (fun b => exp (- (9 / 2) * (((px b - px a) ^ 2 + (py b - py a) ^ 2) / delta ^ 2))))).
    + rewrite <- sumn_scal. apply sumn_le; intros b Lb. destruct (Nat.eqb_spec a b) as [->|N].
      * apply Rmult_le_pos; left; apply exp_pos.
      * unfold plane, one. destruct (Nat.eqb_spec a b); [congruence|]. rewrite Rmult_0_r, Rminus_0_r, Rabs_pos_eq by (left; apply exp_pos).
        rewrite <- exp_plus. apply exp_mono. rewrite away_sym. unfold away.
        pose proof (Ha b a Lb La ltac:(auto)) as Q. set (d := (px b - px a) ^ 2 + (py b - py a) ^ 2) in *.
        assert (E : 9 / 2 * (d / delta ^ 2) <= s ^ 2 * d / 2).
        { replace (s ^ 2 * d / 2) with (y / 2 * (d / delta ^ 2)) by (unfold y; field; lra). apply Rmult_le_compat_r; [|lra].
          apply Rmult_le_pos; [nra|]. left. apply Rinv_0_lt_compat. nra. }
        assert (F : y / 2 <= s ^ 2 * d / 2). { unfold y. pose proof (pow2_ge_0 s). nra. }
        lra.
    + pose proof (pack m px py delta a Hd Ha) as Pk.
      assert (Q : exp (- y / 2) * 40 <= exp (- (y / 36))).
      { assert (G : 40 <= exp (17 * y / 36)).
        { apply exp_fourth; [lra|]. set (z := 17 * y / 36 / 4). assert (17 / 16 <= z) by (unfold z; lra).
          apply (Rle_trans _ ((1 + 17 / 16 + (17 / 16) ^ 2 / 2) ^ 4)); [lra|]. apply pow_incr. pose proof (pow_incr (17 / 16) z 2). lra. }
        replace (- (y / 36)) with (- y / 2 + 17 * y / 36) by field. rewrite exp_plus. apply Rmult_le_compat_l; auto. left; apply exp_pos. }
      assert (P2 : plane s a a - 3 / 4 * exp (- near s) * one a a >= 1 / 4 * exp (- (y / 36))).
      { unfold plane, one. rewrite Nat.eqb_refl, Ny.
        assert (exp (- (y / 36)) <= exp (- rho a ^ 2 * s ^ 2)) by (apply exp_mono; pose proof (rho_near a s La); rewrite <- Ny; lra). lra. }
      pose proof (exp_pos (- y / 2)) as Ep. eapply Rle_trans; [apply Rmult_le_compat_l; [lra|exact Pk]|]. lra.
Qed.

Variable x : nat -> R.

(* s times the integrand of the form, and the share of the boreholes alone *)
Definition qf s : R := uform n (fun i j => plane s (g i) (g j)) H D x s.
Definition uf s : R := uform n (fun i j => one (g i) (g j)) H D x s.

Lemma psd_one : psd n (fun i j => one (g i) (g j)).
Proof. apply (psd_pull n m one); auto. apply (psd_diag m (fun _ => 1)). intros; lra. Qed.

Lemma uf_incr s1 s2 : 0 < s1 -> s1 <= s2 -> uf s1 <= uf s2.
Proof. intros. apply uform_incr; auto. apply psd_one. Qed.

Lemma uf_nonneg s : 0 < s -> 0 <= uf s.
Proof. intros. apply uform_nonneg; auto. apply psd_one. Qed.

Lemma qf_always s : 0 < s -> - near s * uf s <= qf s.
Proof.
  intros P. pose proof (uform_nonneg n _ H D x s (psd_pull n m _ g (plane_always s) Hg) P) as Q. cbv beta in Q.
  replace (uform n (fun i j => plane s (g i) (g j) + near s * one (g i) (g j)) H D x s) with (qf s + near s * uf s) in Q; [lra|].
  unfold qf, uf, uform. rewrite <- form_scal, <- form_plus. apply form_ext; intros; ring.
Qed.

Lemma qf_near s : 3 / delta <= s -> 3 / 4 * exp (- near s) * uf s <= qf s.
Proof.
  intros L. assert (P : 0 < s). { assert (0 < 3 / delta) by (apply Rdiv_lt_0_compat; lra). lra. }
  pose proof (uform_nonneg n _ H D x s (psd_pull n m _ g (plane_near s L) Hg) P) as Q. cbv beta in Q.
  replace (uform n (fun i j => plane s (g i) (g j) - 3 / 4 * exp (- near s) * one (g i) (g j)) H D x s) with (qf s - 3 / 4 * exp (- near s) * uf s) in Q; [lra|].
  unfold qf, uf, uform. rewrite <- form_scal, <- form_minus. apply form_ext; intros; ring.
Qed.

Lemma uf_large : (exists i, (i < n)%nat /\ x i <> 0) -> forall a, exists s, a <= s /\ 0 < s /\ 0 < uf s.
Proof.
  intros (i0 & Li & Nz) a.
  set (c := sumn n (fun i => 2 * H i * x i ^ 2)). set (B := form n (fun _ _ => 16) (fun i => Rabs (x i))).
  assert (Cp : 0 < c).
  { apply (Rlt_le_trans _ (2 * H i0 * x i0 ^ 2)).
    - destruct (HH i0 Li). apply Rmult_lt_0_compat; [lra|]. apply pow2_gt_0; auto.
    - unfold c. replace (2 * H i0 * x i0 ^ 2) with (sumn n (fun i => if Nat.eqb i i0 then 2 * H i * x i ^ 2 else 0)).
      + apply sumn_le. intros i L. destruct (HH i L). pose proof (pow2_ge_0 (x i)). destruct (Nat.eqb i i0); nra.
      + rewrite (sumn_single n i0); [rewrite Nat.eqb_refl; auto|auto|]. intros i _ N. destruct (Nat.eqb_spec i i0); [congruence|auto]. }
  assert (B0 : 0 <= B). { unfold B, form. apply sumn_nonneg; intros i _. apply sumn_nonneg; intros j _. pose proof (Rabs_pos (x i)). pose proof (Rabs_pos (x j)). nra. }
  assert (E : forall s, 0 < s -> c - B / s <= uf s).
  { intros s P.
    assert (Ec : form n (fun i j => one (g i) (g j) * comb true true Rabs (H i) (D i) (H j) (D j)) x = c).
    { unfold form, c. apply sumn_ext; intros i L. destruct (HH i L). rewrite (sumn_single n i); auto.
      - unfold one. rewrite Nat.eqb_refl, ends_self by lra. ring.
      - intros j Lj N. destruct (HH j Lj). unfold one. destruct (Nat.eqb_spec (g i) (g j)) as [Eg|]; [|ring].
        rewrite ends_apart by (try lra; auto). ring. }
    assert (Df : Rabs (form n (fun i j => one (g i) (g j) * sw (H i) (D i) (H j) (D j) s - one (g i) (g j) * comb true true Rabs (H i) (D i) (H j) (D j)) x) <= B / s).
    { unfold Rdiv. rewrite (Rmult_comm B). unfold B. rewrite <- form_scal. apply form_abs. intros i j _ _.
      replace (one (g i) (g j) * sw (H i) (D i) (H j) (D j) s - one (g i) (g j) * comb true true Rabs (H i) (D i) (H j) (D j))
        with (one (g i) (g j) * (sw (H i) (D i) (H j) (D j) s - comb true true Rabs (H i) (D i) (H j) (D j))) by ring.
      rewrite Rabs_mult. pose proof (sw_large (H i) (D i) (H j) (D j) s P) as W. unfold Rdiv in W. 
      assert (I : 0 < / s) by (apply Rinv_0_lt_compat; auto).
      unfold one. destruct (Nat.eqb (g i) (g j)); [rewrite Rabs_R1|rewrite Rabs_R0]; lra. }
    rewrite form_minus, Ec in Df. fold (uform n (fun i j => one (g i) (g j)) H D x s) in Df. fold (uf s) in Df.
    pose proof (Rle_abs (- (uf s - c))) as Q. rewrite Rabs_Ropp in Q. lra. }
  exists (Rmax a ((B + 1) / c)). assert (Z : 0 < (B + 1) / c) by (apply Rdiv_lt_0_compat; lra).
  pose proof (Rmax_l a ((B + 1) / c)). pose proof (Rmax_r a ((B + 1) / c)) as M. set (s := Rmax a ((B + 1) / c)) in *.
  split; [auto|]. split; [lra|]. eapply Rlt_le_trans; [|apply E; lra].
  assert (B / s < c); [|lra]. apply (Rmult_lt_reg_r s); [lra|]. unfold Rdiv. rewrite Rmult_assoc, Rinv_l by lra.
  apply (Rmult_le_compat_l c) in M; [|lra]. replace (c * ((B + 1) / c)) with (B + 1) in M by (field; lra). lra.
Qed.

(* the integrand *)
Definition ig s : R := / s * qf s.
Hypothesis Hc : forall s, 0 < s -> continuous ig s.

Lemma ig_ex a b : 0 < a -> a <= b -> ex_RInt ig a b.
Proof. intros. apply (@ex_RInt_continuous R_CompleteNormedModule). intros z. rewrite Rmin_left, Rmax_right by lra. intros. apply Hc. lra. Qed.

Lemma start_pos : 0 < 3 / delta. Proof. apply Rdiv_lt_0_compat; lra. Qed.

Lemma ig_pos s : 3 / delta <= s -> 0 <= ig s.
Proof.
  intros L. pose proof start_pos. unfold ig. apply Rmult_le_pos; [left; apply Rinv_0_lt_compat; lra|].
  eapply Rle_trans; [|apply qf_near; auto]. pose proof (exp_pos (- near s)). pose proof (uf_nonneg s ltac:(lra)). nra.
Qed.

Lemma ig_tail a b : 3 / delta <= a -> a <= b -> 0 <= RInt ig a b.
Proof.
  intros L1 L2. pose proof start_pos. apply RInt_ge_0; auto; [apply ig_ex; lra|]. intros s Q. apply ig_pos. lra.
Qed.

Lemma ig_const_le a b c : 0 < a -> a <= b -> (forall s, a < s < b -> c <= ig s) -> c * (b - a) <= RInt ig a b.
Proof.
  intros P L Q. replace (c * (b - a)) with (RInt (fun _ => c) a b) by (rewrite RInt_const; unfold scal; cbn; unfold mult; cbn; ring).
  apply RInt_le; auto; [apply ex_RInt_const|apply ig_ex; auto].
Qed.

Lemma ig_split a b c : 0 < a -> a <= b -> b <= c -> RInt ig a c = RInt ig a b + RInt ig b c.
Proof. intros. symmetry. apply (RInt_Chasles ig a b c); apply ig_ex; lra. Qed.

Lemma ig_head a : 0 < a -> a <= 3 / delta -> 0 <= RInt ig a (2 * (3 / delta)).
Proof.
  intros P L. pose proof start_pos as Sp. set (S0 := 3 / delta) in *.
  pose proof (uf_nonneg S0 Sp) as U0.
  assert (N0 : (delta / 6) ^ 2 * S0 ^ 2 = 1 / 4) by (unfold S0; field; lra).
  rewrite (ig_split a S0) by lra.
  assert (A : - (uf S0 / 8) <= RInt ig a S0).
  { apply (Rle_trans _ (RInt (fun s => - ((delta / 6) ^ 2 * uf S0) * s) a S0)).
    - assert (I : is_RInt (fun s => - ((delta / 6) ^ 2 * uf S0) * s) a S0 (- ((delta / 6) ^ 2 * uf S0) * (S0 ^ 2 / 2) - (- ((delta / 6) ^ 2 * uf S0) * (a ^ 2 / 2)))).
      { apply (is_RInt_derive (fun s => - ((delta / 6) ^ 2 * uf S0) * (s ^ 2 / 2))).
        - intros z _. auto_derive; auto. field.
        - intros z _. apply (ex_derive_continuous (V := R_NormedModule)). auto_derive; auto. }
      rewrite (is_RInt_unique _ _ _ _ I).
      replace (- ((delta / 6) ^ 2 * uf S0) * (S0 ^ 2 / 2)) with (- (uf S0 * ((delta / 6) ^ 2 * S0 ^ 2) / 2)) by field. rewrite N0.
      assert (0 <= (delta / 6) ^ 2 * uf S0 * (a ^ 2 / 2)); [|lra]. apply Rmult_le_pos; [apply Rmult_le_pos; auto; apply pow2_ge_0|]. pose proof (pow2_ge_0 a). lra.
    - apply RInt_le; auto.
      + apply (@ex_RInt_continuous R_CompleteNormedModule). intros z _. apply (ex_derive_continuous (V := R_NormedModule)). auto_derive; auto.
      + apply ig_ex; auto.
      + intros s Q. unfold ig. pose proof (qf_always s ltac:(lra)) as W. pose proof (uf_incr s S0 ltac:(lra) ltac:(lra)) as V.
        apply (Rmult_le_reg_l s); [lra|]. rewrite <- (Rmult_assoc s (/ s)), Rinv_r, Rmult_1_l by lra.
        eapply Rle_trans; [|exact W]. unfold near.
        replace (s * (- ((delta / 6) ^ 2 * uf S0) * s)) with (- ((delta / 6) ^ 2 * s ^ 2) * uf S0) by ring.
        assert (0 <= (delta / 6) ^ 2 * s ^ 2) by (apply Rmult_le_pos; apply pow2_ge_0). nra. }
  assert (B : uf S0 / 8 <= RInt ig S0 (2 * S0)).
  { replace (uf S0 / 8) with (uf S0 / (8 * S0) * (2 * S0 - S0)) by (field; lra). apply ig_const_le; try lra.
    intros s Q. unfold ig. pose proof (qf_near s (Rlt_le _ _ (proj1 Q))) as W. pose proof (uf_incr S0 s ltac:(lra) ltac:(lra)) as V.
    assert (Nn : near s <= 1). { unfold near. apply (Rle_trans _ ((delta / 6) ^ 2 * (2 * S0) ^ 2)); [apply Rmult_le_compat_l; [apply pow2_ge_0|apply pow_incr; lra]|].
      replace ((delta / 6) ^ 2 * (2 * S0) ^ 2) with (4 * ((delta / 6) ^ 2 * S0 ^ 2)) by ring. lra. }
    assert (Ee : 1 / 3 <= exp (- near s)).
    { apply (Rle_trans _ (exp (- (1)))); [|apply exp_mono; lra]. rewrite exp_Ropp. pose proof exp_le_3. pose proof (exp_pos 1).
      unfold Rdiv. rewrite Rmult_1_l. apply Rinv_le_contravar; auto. }
    assert (X : uf S0 / 4 <= qf s) by (eapply Rle_trans; [|exact W]; replace (uf S0 / 4) with (3 / 4 * (1 / 3) * uf S0) by field; apply Rmult_le_compat; lra).
    replace (uf S0 / (8 * S0)) with (/ (2 * S0) * (uf S0 / 4)) by (field; lra).
    apply Rmult_le_compat; try lra; [left; apply Rinv_0_lt_compat; lra|]. apply Rinv_le_contravar; lra. }
  lra.
Qed.

Lemma ig_any a b : 0 < a -> a <= b -> 2 * (3 / delta) <= b -> 0 <= RInt ig a b.
Proof.
  intros P L1 L2. pose proof start_pos. destruct (Rle_dec a (3 / delta)) as [L|L]; [|apply ig_tail; lra].
  rewrite (ig_split a (2 * (3 / delta))) by lra. pose proof (ig_head a P L). pose proof (ig_tail (2 * (3 / delta)) b ltac:(lra) L2). lra.
Qed.

Lemma ig_total a : (exists i, (i < n)%nat /\ x i <> 0) -> 0 < a -> converges ig a -> 0 < quad_inf ig a.
Proof.
  intros Nz P Cv. pose proof start_pos as Sp.
  destruct (uf_large Nz (Rmax a (2 * (3 / delta)))) as (s1 & L1 & P1 & U1).
  pose proof (Rmax_l a (2 * (3 / delta))). pose proof (Rmax_r a (2 * (3 / delta))).
  set (c := / (s1 + 1) * (3 / 4 * exp (- near (s1 + 1)) * uf s1)).
  assert (Cp : 0 < c). { unfold c. pose proof (exp_pos (- near (s1 + 1))). apply Rmult_lt_0_compat; [apply Rinv_0_lt_compat; lra|]. apply Rmult_lt_0_compat; auto. lra. }
  assert (Bd : forall b, s1 + 1 <= b -> c <= RInt ig a b).
  { intros b Lb. rewrite (ig_split a s1), (ig_split s1 (s1 + 1)) by lra.
    pose proof (ig_any a s1 P ltac:(lra) ltac:(lra)). pose proof (ig_tail (s1 + 1) b ltac:(lra) Lb).
    assert (c * (s1 + 1 - s1) <= RInt ig s1 (s1 + 1)).
    { apply ig_const_le; try lra. intros s Q. unfold ig, c. pose proof (qf_near s ltac:(lra)) as W. pose proof (uf_incr s1 s ltac:(lra) ltac:(lra)) as V.
      pose proof (exp_pos (- near (s1 + 1))) as Ep.
      assert (Em : exp (- near (s1 + 1)) <= exp (- near s)).
      { apply exp_mono. unfold near. assert (s ^ 2 <= (s1 + 1) ^ 2) by (apply pow_incr; lra). pose proof (pow2_ge_0 (delta / 6)). nra. }
      apply Rmult_le_compat; [left; apply Rinv_0_lt_compat; lra| |apply Rinv_le_contravar; lra|].
      - apply Rmult_le_pos; lra.
      - eapply Rle_trans; [|exact W]. apply Rmult_le_compat; lra. }
    lra. }
  assert (L : Rbar_le (Finite c) (Finite (quad_inf ig a))).
  { apply (is_lim_le_loc (fun _ => c) (fun b => RInt ig a b) p_infty); [| apply is_lim_const | apply quad_is, (proj2 Cv)].
    exists (s1 + 1). intros b Lb. apply Bd. lra. }
  cbn in L. lra.
Qed.
End Field.
