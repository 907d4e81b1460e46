(** Positive kernels in the unit disk. *)
From Coq Require Import Reals Lra Lia.
From Verif Require Import Base LinAlg Res_Model Res_Mult_Proofs Def_Psd_Proofs.
From Coquelicot Require Import Coquelicot.
Local Open Scope R_scope.

(** ** Kernels that keep forms positive when multiplied *)
Definition mul (n : nat) (L : nat -> nat -> R) : Prop := forall K, psd n K -> psd n (fun i j => K i j * L i j).
Lemma mul_ext n K L : (forall i j, (i < n)%nat -> (j < n)%nat -> K i j = L i j) -> mul n K -> mul n L.
Proof. intros E H G P. apply (psd_ext n (fun i j => G i j * K i j)); [|apply H; auto]. intros i j Hi Hj. rewrite E by auto. reflexivity. Qed.
Lemma mul_rank n u : mul n (fun i j => u i * u j).
Proof. intros K H. apply psd_rank; auto. Qed.
Lemma mul_one n : mul n (fun _ _ => 1).
Proof. intros K H. apply (psd_ext n K); auto. intros. ring. Qed.
Lemma mul_zero n : mul n (fun _ _ => 0).
Proof. intros K H. apply (psd_ext n (fun _ _ => 0)); [intros; ring|apply psd_zero]. Qed.
Lemma mul_plus n K L : mul n K -> mul n L -> mul n (fun i j => K i j + L i j).
Proof. intros A B G H. apply (psd_ext n (fun i j => G i j * K i j + G i j * L i j)); [intros; ring|]. apply psd_plus; auto. Qed.
Lemma mul_scal n c L : 0 <= c -> mul n L -> mul n (fun i j => c * L i j).
Proof. intros Hc A G H. apply (psd_ext n (fun i j => c * (G i j * L i j))); [intros; ring|]. apply psd_scal; auto. Qed.
Lemma mul_prod n K L : mul n K -> mul n L -> mul n (fun i j => K i j * L i j).
Proof. intros A B G H. apply (psd_ext n (fun i j => G i j * K i j * L i j)); [intros; ring|]. apply B, A; auto. Qed.
Lemma mul_pow n L k : mul n L -> mul n (fun i j => L i j ^ k).
Proof. intros A. induction k; cbn [pow]; [apply mul_one|apply mul_prod; auto]. Qed.
Lemma mul_sumn n m (L : nat -> nat -> nat -> R) : (forall k, (k < m)%nat -> mul n (L k)) -> mul n (fun i j => sumn m (fun k => L k i j)).
Proof. intros A. induction m; cbn [sumn]; [apply mul_zero|]. apply (mul_plus n (fun i j => sumn m (fun k => L k i j)) (L m)); auto. Qed.
Lemma mul_lim n (K : nat -> nat -> nat -> R) L : (forall m, mul n (K m)) -> (forall i j, (i < n)%nat -> (j < n)%nat -> is_lim_seq (fun m => K m i j) (Finite (L i j))) -> mul n L.
Proof.
  intros A B G H. apply (psd_lim n (fun m i j => G i j * K m i j)); [intros m; apply A; auto|]. intros i j Hi Hj.
  apply (is_lim_seq_scal_l (fun m => K m i j) (G i j) (Finite (L i j))). auto.
Qed.
Lemma mul_psd n L : mul n L -> psd n L.
Proof. intros A. apply (psd_ext n (fun i j => 1 * L i j)); [intros; ring|]. apply (A (fun _ _ => 1)), psd_ones. Qed.
Lemma mul_hermitian n (f : nat -> C) : mul n (fun i j => Re (f i * Cconj (f j))%C).
Proof.
  apply (mul_ext n (fun i j => fst (f i) * fst (f j) + snd (f i) * snd (f j))); [intros; unfold Re, Cmult, Cconj; cbn; ring|]. apply mul_plus; apply mul_rank.
Qed.

(** ** Powers in the disk *)
Lemma csum_mult_r n f c : (csum n f * c = csum n (fun i => f i * c))%C.
Proof. induction n; cbn [csum]; [ring|]. rewrite <- IHn. ring. Qed.
Lemma Re_le z : Rabs (Re z) <= Cmod z.
Proof. destruct z as [x y]. unfold Re, Cmod. cbn [fst snd]. rewrite <- sqrt_Rsqr_abs. apply sqrt_le_1_alt. unfold Rsqr. nra. Qed.
Lemma Re_csum n f : Re (csum n f) = sumn n (fun i => Re (f i)).
Proof. induction n; cbn [csum sumn]; [reflexivity|]. rewrite <- IHn. reflexivity. Qed.
Lemma Cmod_minus_ge (z w : C) : Cmod z - Cmod w <= Cmod (z - w)%C.
Proof. pose proof (Cmod_triangle (z - w)%C w). replace (z - w + w)%C with z in H by ring. lra. Qed.
Lemma Cmod_minus_le (z w : C) : Cmod (z - w)%C <= Cmod z + Cmod w.
Proof. unfold Cminus. eapply Rle_trans; [apply Cmod_triangle|]. rewrite Cmod_opp. lra. Qed.
Lemma one_minus_nz u : Cmod u < 1 -> (RtoC 1 - u)%C <> RtoC 0.
Proof. intros H E. pose proof (Cmod_minus_ge (RtoC 1) u) as T. rewrite E, Cmod_1, Cmod_0 in T. lra. Qed.
Lemma one_minus_mod u : Cmod u < 1 -> 0 < Cmod (RtoC 1 - u)%C.
Proof. intros H. pose proof (Cmod_minus_ge (RtoC 1) u) as T. rewrite Cmod_1 in T. lra. Qed.
Lemma pow_lim q : 0 <= q < 1 -> is_lim_seq (fun M => q ^ M) 0.
Proof. intros H. apply is_lim_seq_geom. rewrite Rabs_pos_eq; lra. Qed.
Lemma geometric u M : ((RtoC 1 - u) * csum M (fun k => cpow u k) = RtoC 1 - cpow u M)%C.
Proof. induction M; cbn [csum cpow]; [ring|]. rewrite Cmult_plus_distr_l, IHM. ring. Qed.

(** The square of the Szego kernel *)
Lemma mul_szego n (w : nat -> C) : (forall i, (i < n)%nat -> Cmod (w i) < 1) -> mul n (fun i j => 1 / Cmod (RtoC 1 - w i * Cconj (w j))%C ^ 2).
Proof.
  intros D. apply (mul_lim n (fun M i j => Cmod (csum M (fun k => cpow (w i * Cconj (w j))%C k))%C ^ 2)).
  - intros M. apply (mul_ext n (fun i j => sumn M (fun a => sumn M (fun b => Re ((cpow (w i) a * cpow (Cconj (w i)) b) * Cconj (cpow (w j) a * cpow (Cconj (w j)) b))%C)))).
    + intros i j _ _. set (u := (w i * Cconj (w j))%C).
      assert (E : forall z : C, Cmod z ^ 2 = Re (z * Cconj z)%C). { intros [x y]. unfold Cmod, Re. cbn [fst snd Cmult Cconj]. rewrite pow2_sqrt by nra. ring. }
      rewrite E. rewrite <- csum_conj. rewrite csum_mult_r, Re_csum. apply sumn_ext. intros a _. rewrite <- csum_scal, Re_csum. apply sumn_ext. intros b _. f_equal.
      unfold u. rewrite !cpow_mult, !conj_mult, !cpow_conj. rewrite !conj_conj. ring.
    + apply mul_sumn. intros a _. apply mul_sumn. intros b _. apply mul_hermitian.
  - intros i j Hi Hj. set (u := (w i * Cconj (w j))%C). assert (Hu : Cmod u < 1). { unfold u. rewrite Cmod_mult, Cmod_conj. pose proof (D i Hi). pose proof (D j Hj). pose proof (Cmod_ge_0 (w i)). pose proof (Cmod_ge_0 (w j)). nra. }
    pose proof (one_minus_mod u Hu) as P.
    apply (is_lim_seq_ext (fun M => Cmod (RtoC 1 - cpow u M)%C * Cmod (RtoC 1 - cpow u M)%C * (1 / Cmod (RtoC 1 - u)%C ^ 2))).
    { intros M. rewrite <- geometric, Cmod_mult. field. lra. }
    replace (Finite (1 / Cmod (RtoC 1 - u)%C ^ 2)) with (Finite (1 * 1 * (1 / Cmod (RtoC 1 - u)%C ^ 2))) by (f_equal; ring).
    assert (L : is_lim_seq (fun M => Cmod (RtoC 1 - cpow u M)%C) 1).
    { apply (is_lim_seq_le_le (fun M => 1 - Cmod u ^ M) _ (fun M => 1 + Cmod u ^ M)).
      - intros M. rewrite <- Cmod_cpow. pose proof (Cmod_minus_ge (RtoC 1) (cpow u M)) as A. pose proof (Cmod_minus_le (RtoC 1) (cpow u M)) as B. rewrite Cmod_1 in A, B. split; lra.
      - replace (Finite 1) with (Finite (1 - 0)) by (f_equal; ring). apply is_lim_seq_minus'; [apply is_lim_seq_const|apply pow_lim]. split; [apply Cmod_ge_0|auto].
      - replace (Finite 1) with (Finite (1 + 0)) by (f_equal; ring). apply is_lim_seq_plus'; [apply is_lim_seq_const|apply pow_lim]. split; [apply Cmod_ge_0|auto]. }
    apply is_lim_seq_mult'; [apply is_lim_seq_mult'; auto|apply is_lim_seq_const].
Qed.

(** ** The logarithm as a series *)
Lemma log_lim u : Cmod u < 1 -> is_lim_seq (fun M => sumn M (fun k => Re (cpow u (S k)) / INR (S k))) (- ln (Cmod (RtoC 1 - u)%C)).
Proof.
  intros Hu. set (q := Cmod u) in *. assert (Q0 : 0 <= q) by apply Cmod_ge_0.
  assert (B : forall M, Rabs (- ln (Cmod (RtoC 1 - u)%C) - sumn M (fun k => Re (cpow u (S k)) / INR (S k))) <= q ^ S M / (1 - q)).
  { intros M. set (x := fst u). set (y := snd u).
    assert (U2 : x ^ 2 + y ^ 2 = q ^ 2). { unfold q, Cmod, x, y. rewrite pow2_sqrt; [auto|]. nra. }
    set (L t := (1 - t * x) ^ 2 + (t * y) ^ 2).
    set (h t := - (ln (L t) / 2) - sumn M (fun k => t ^ S k * (Re (cpow u (S k)) / INR (S k)))).
    set (d t := (x - t * (x ^ 2 + y ^ 2)) / L t - sumn M (fun k => t ^ k * Re (cpow u (S k)))).
    assert (Lm : forall t, L t = Cmod (RtoC 1 - RtoC t * u)%C ^ 2). { intros t. unfold L, Cmod, x, y. rewrite pow2_sqrt by (apply Rplus_le_le_0_compat; apply pow2_ge_0). cbn. ring. }
    assert (Tu : forall t, 0 <= t <= 1 -> Cmod (RtoC t * u)%C <= q). { intros t Ht. rewrite Cmod_mult, Cmod_R, Rabs_pos_eq by lra. fold q. nra. }
    assert (Lp : forall t, 0 <= t <= 1 -> 0 < L t). { intros t Ht. rewrite Lm. apply pow_lt, one_minus_mod. specialize (Tu t Ht). lra. }
    assert (Dh : forall t, 0 <= t <= 1 -> is_derive h t (d t)).
    { intros t Ht. unfold h, d. apply (is_derive_minus (fun t => - (ln (L t) / 2)) (fun t => sumn M (fun k => t ^ S k * (Re (cpow u (S k)) / INR (S k))))).
      - unfold L. specialize (Lp t Ht). unfold L in Lp. auto_derive; [repeat split; lra|]. field. lra.
      - clear. induction M; cbn [sumn]; [apply (is_derive_const (V := R_NormedModule) 0 t)|].
        apply (is_derive_plus (fun t => sumn M (fun k => t ^ S k * (Re (cpow u (S k)) / INR (S k)))) (fun t => t ^ S M * (Re (cpow u (S M)) / INR (S M)))); auto.
        assert (Nm : INR (S M) <> 0) by (apply not_0_INR; lia). set (c := Re (cpow u (S M))). set (m := INR (S M)) in *.
        replace (t ^ M * c) with (c / m * (m * 1 * t ^ pred (S M))) by (cbn [pred]; field; auto). apply (is_derive_ext (fun t => c / m * t ^ S M)); [intros s0; apply Rmult_comm|].
        apply (is_derive_scal (fun t => t ^ S M)). apply (is_derive_pow (fun t => t) (S M) t 1). apply (is_derive_id t). }
    assert (Bd : forall t, 0 <= t <= 1 -> Rabs (d t) <= q ^ S M / (1 - q)).
    { intros t Ht. specialize (Tu t Ht). pose proof (Lp t Ht) as P. set (v := (RtoC t * u)%C) in *. assert (Nz : (RtoC 1 - v)%C <> RtoC 0) by (apply one_minus_nz; lra).
      assert (E : d t = Re (u * cpow v M / (RtoC 1 - v))%C).
      { assert (E1 : (u * cpow v M / (RtoC 1 - v) = u / (RtoC 1 - v) - csum M (fun k => cpow v k * u))%C).
        { rewrite <- csum_mult_r. pose proof (geometric v M) as G. replace (cpow v M) with (RtoC 1 - (RtoC 1 - v) * csum M (fun k => cpow v k))%C by (rewrite G; ring).
          change (fun k : nat => cpow v k) with (cpow v) in *. generalize dependent (csum M (cpow v)). intros S0 _. revert Nz. generalize (RtoC 1 - v)%C. intros d0 Nz. unfold Cdiv.
          replace (u * (RtoC 1 - d0 * S0) * / d0)%C with (u * / d0 - u * S0 * (d0 * / d0))%C by ring. rewrite Cinv_r by auto. ring. }
        rewrite E1. unfold d. change (Re (u / (RtoC 1 - v) - csum M (fun k => cpow v k * u))%C) with (Re (u / (RtoC 1 - v))%C - Re (csum M (fun k => cpow v k * u)%C)). rewrite Re_csum. f_equal.
        - unfold L in P |- *. unfold v, Re. cbn. fold x y. field. cbn in P. nra.
        - apply sumn_ext. intros k _. unfold v. rewrite cpow_mult, cpow_R. cbn [cpow]. destruct (cpow u k) as [a b]. unfold Re. cbn. fold x y. ring. }
      rewrite E. eapply Rle_trans; [apply Re_le|]. rewrite Cmod_div by auto. rewrite Cmod_mult, Cmod_cpow. fold q. cbn [pow].
      pose proof (Cmod_minus_ge (RtoC 1) v) as T. rewrite Cmod_1 in T. assert (Cv : Cmod v ^ M <= q ^ M) by (apply pow_incr; split; [apply Cmod_ge_0|auto]).
      assert (0 <= Cmod v ^ M) by (apply pow_le, Cmod_ge_0). apply Rmult_le_compat; [apply Rmult_le_pos; auto|left; apply Rinv_0_lt_compat; lra|apply Rmult_le_compat_l; auto|apply Rinv_le_contravar; lra]. }
    destruct (MVT_gen h 0 1 d) as [c [Hc Ec]].
    - intros t Ht. rewrite Rmin_left, Rmax_right in Ht by lra. apply Dh. lra.
    - intros t Ht. rewrite Rmin_left, Rmax_right in Ht by lra. apply derivable_continuous_pt. exists (d t). apply is_derive_Reals, Dh. lra.
    - rewrite Rmin_left, Rmax_right in Hc by lra. assert (H0 : h 0 = 0).
      { unfold h, L. replace ((1 - 0 * x) ^ 2 + (0 * y) ^ 2) with 1 by ring. rewrite ln_1. rewrite sumn_zero; [field|]. intros k _. cbn [pow]. ring. }
      assert (H1 : h 1 = - ln (Cmod (RtoC 1 - u)%C) - sumn M (fun k => Re (cpow u (S k)) / INR (S k))).
      { unfold h. f_equal.
        - rewrite Lm. replace (RtoC 1 * u)%C with u by ring. rewrite ln_pow by (apply one_minus_mod; auto). cbn [INR]. field.
        - apply sumn_ext. intros k _. rewrite pow1. ring. }
      rewrite <- H1. replace (h 1) with (d c) by lra. apply Bd; auto. }
  apply is_lim_seq_spec. intros eps. cbn [Rbar_locally].
  assert (Z : is_lim_seq (fun M => q ^ S M / (1 - q)) 0).
  { replace (Finite 0) with (Finite (0 * (1 / (1 - q)))) by (f_equal; ring). apply (is_lim_seq_ext (fun M => q ^ S M * (1 / (1 - q)))); [intros; field; lra|].
    apply is_lim_seq_mult'; [|apply is_lim_seq_const]. apply (is_lim_seq_incr_1 (fun M => q ^ M)). apply pow_lim; lra. }
  apply is_lim_seq_spec in Z. destruct (Z eps) as [N0 HN]. exists N0. intros M HM. specialize (HN M HM). specialize (B M). rewrite Rminus_0_r in HN. rewrite Rabs_minus_sym.
  pose proof (Rle_abs (q ^ S M / (1 - q))). lra.
Qed.

(** ** The kernels *)
Lemma psd_image n (w : nat -> C) : (forall i, (i < n)%nat -> Cmod (w i) < 1) -> psd n (fun i j => - ln (Cmod (RtoC 1 - w i * Cconj (w j))%C)).
Proof.
  intros D. apply mul_psd. apply (mul_lim n (fun M i j => sumn M (fun k => Re (cpow (w i * Cconj (w j))%C (S k)) / INR (S k)))).
  - intros M. apply mul_sumn. intros k _. apply (mul_ext n (fun i j => / INR (S k) * Re (cpow (w i) (S k) * Cconj (cpow (w j) (S k)))%C)).
    + intros i j _ _. rewrite cpow_mult, cpow_conj. unfold Rdiv. ring.
    + apply mul_scal; [left; apply Rinv_0_lt_compat, lt_0_INR; lia|]. apply (mul_hermitian n (fun i => cpow (w i) (S k))).
  - intros i j Hi Hj. apply log_lim. rewrite Cmod_mult, Cmod_conj. pose proof (D i Hi). pose proof (D j Hj). pose proof (Cmod_ge_0 (w i)). pose proof (Cmod_ge_0 (w j)). nra.
Qed.

Lemma disk_identity (z w : C) : Cmod (RtoC 1 - z * Cconj w)%C ^ 2 = Cmod (z - w)%C ^ 2 + (1 - Cmod z ^ 2) * (1 - Cmod w ^ 2).
Proof. destruct z as [a b], w as [c d]. unfold Cmod. rewrite !pow2_sqrt by (apply Rplus_le_le_0_compat; apply pow2_ge_0). cbn. ring. Qed.

(** The potential of a source in the disk with the wall at zero, with a finite value at the
    source *)
Lemma psd_green n (w : nat -> C) eta : 0 < eta <= 1 -> (forall i, (i < n)%nat -> Cmod (w i) < 1) ->
  psd n (fun i j => ln (Cmod (RtoC 1 - w i * Cconj (w j))%C ^ 2) / 2 - ln (Cmod (w i - w j)%C ^ 2 + eta * ((1 - Cmod (w i) ^ 2) * (1 - Cmod (w j) ^ 2))) / 2).
Proof.
  intros He D. set (s i j := (1 - Cmod (w i) ^ 2) * (1 - Cmod (w j) ^ 2) * (1 / Cmod (RtoC 1 - w i * Cconj (w j))%C ^ 2)).
  assert (Ms : mul n s). { apply mul_prod; [apply (mul_rank n (fun i => 1 - Cmod (w i) ^ 2))|apply mul_szego; auto]. }
  assert (F : forall i, (i < n)%nat -> 0 < 1 - Cmod (w i) ^ 2). { intros i Hi. pose proof (D i Hi). pose proof (Cmod_ge_0 (w i)). nra. }
  assert (P : forall i j, (i < n)%nat -> (j < n)%nat -> 0 < Cmod (RtoC 1 - w i * Cconj (w j))%C ^ 2).
  { intros i j Hi Hj. rewrite disk_identity. pose proof (Rmult_lt_0_compat _ _ (F i Hi) (F j Hj)). pose proof (pow2_ge_0 (Cmod (w i - w j)%C)). lra. }
  assert (Sb : forall i j, (i < n)%nat -> (j < n)%nat -> 0 <= s i j <= 1).
  { intros i j Hi Hj. pose proof (Rmult_lt_0_compat _ _ (F i Hi) (F j Hj)) as G. specialize (P i j Hi Hj). pose proof (disk_identity (w i) (w j)) as I. pose proof (pow2_ge_0 (Cmod (w i - w j)%C)).
    unfold s. set (e := (1 - Cmod (w i) ^ 2) * (1 - Cmod (w j) ^ 2)) in *. set (l := Cmod (RtoC 1 - w i * Cconj (w j))%C ^ 2) in *. replace (e * (1 / l)) with (e / l) by (field; lra).
    split; [apply Rlt_le, Rdiv_lt_0_compat; auto|]. apply (Rmult_le_reg_r l); auto. unfold Rdiv. rewrite Rmult_assoc, Rinv_l by lra. lra. }
  apply (psd_ext n (fun i j => / 2 * - ln (1 - (1 - eta) * s i j))).
  { intros i j Hi Hj. specialize (P i j Hi Hj). specialize (Sb i j Hi Hj). pose proof (disk_identity (w i) (w j)) as I. pose proof (Rmult_lt_0_compat _ _ (F i Hi) (F j Hj)) as G. pose proof (pow2_ge_0 (Cmod (w i - w j)%C)).
    unfold s in *. set (e := (1 - Cmod (w i) ^ 2) * (1 - Cmod (w j) ^ 2)) in *. set (l := Cmod (RtoC 1 - w i * Cconj (w j))%C ^ 2) in *. set (d := Cmod (w i - w j)%C ^ 2) in *.
    replace (1 - (1 - eta) * (e * (1 / l))) with ((d + eta * e) / l) by (rewrite I at 1 2; field; rewrite <- I; lra). unfold Rdiv at 1. rewrite ln_mult, ln_Rinv; [field|auto|nra|apply Rinv_0_lt_compat; auto]. }
  apply psd_scal; [lra|]. apply mul_psd. apply (mul_lim n (fun M i j => sumn M (fun k => ((1 - eta) * s i j) ^ S k / INR (S k)))).
  - intros M. apply mul_sumn. intros k _. apply (mul_ext n (fun i j => / INR (S k) * ((1 - eta) * s i j) ^ S k)); [intros; unfold Rdiv; ring|].
    apply mul_scal; [left; apply Rinv_0_lt_compat, lt_0_INR; lia|]. apply (mul_pow n (fun i j => (1 - eta) * s i j)), mul_scal; auto; lra.
  - intros i j Hi Hj. specialize (Sb i j Hi Hj). set (x := (1 - eta) * s i j). assert (X : 0 <= x < 1) by (unfold x; nra).
    assert (M1 : Cmod (RtoC x) < 1) by (rewrite Cmod_R, Rabs_pos_eq; lra). pose proof (log_lim (RtoC x) M1) as L.
    replace (ln (1 - x)) with (ln (Cmod (RtoC 1 - RtoC x)%C)); [|f_equal; rewrite <- RtoC_minus, Cmod_R, Rabs_pos_eq; lra].
    eapply is_lim_seq_ext; [|exact L]. intros M. apply sumn_ext. intros k _. rewrite cpow_R. reflexivity.
Qed.
