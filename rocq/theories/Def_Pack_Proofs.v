(** Points of the plane that are apart: a bound on the sum of a Gaussian over them. *)
From Coq Require Import Reals Lra Lia List ZArith.
From Verif Require Import Base.
Import ListNotations.
Local Open Scope R_scope.

Lemma exp_cubic x : 0 <= x -> 1 + x + x ^ 2 / 2 <= exp x.
Proof.
  intros Hx. destruct (Req_dec x 0) as [->|N]; [rewrite exp_0; lra|].
  assert (D : forall c, derivable_pt_lim (fun x => exp x - (1 + x + x ^ 2 / 2)) c (exp c - (1 + c))).
  { intros c. apply derivable_pt_lim_minus; [apply derivable_pt_lim_exp|].
    replace (1 + c) with ((0 + 1) + (INR 2 * c ^ 1 * / 2 + c ^ 2 * 0)) by (cbn; field).
    apply (derivable_pt_lim_plus (fun x => 1 + x) (fun x => x ^ 2 / 2)).
    - apply (derivable_pt_lim_plus (fun _ => 1) (fun x => x)); [apply derivable_pt_lim_const|apply derivable_pt_lim_id].
    - apply (derivable_pt_lim_mult (fun x => x ^ 2) (fun _ => / 2)); [apply (derivable_pt_lim_pow c 2)|apply derivable_pt_lim_const]. }
  destruct (MVT_cor2 (fun x => exp x - (1 + x + x ^ 2 / 2)) (fun c => exp c - (1 + c)) 0 x) as (c & E & Hc); [lra|auto|].
  rewrite exp_0 in E. pose proof (exp_ineq1_le c). nra.
Qed.

Lemma exp_fourth x y : 0 <= x -> y <= (1 + x / 4 + (x / 4) ^ 2 / 2) ^ 4 -> y <= exp x.
Proof.
  intros Hx Hy. replace x with (x / 4 + x / 4 + (x / 4 + x / 4)) at 1 by field. rewrite !exp_plus.
  pose proof (exp_cubic (x / 4) ltac:(lra)) as E. set (a := 1 + x / 4 + (x / 4) ^ 2 / 2) in *. set (b := exp (x / 4)) in *.
  assert (0 < a) by (unfold a; pose proof (pow2_ge_0 (x / 4)); lra).
  assert (a ^ 4 <= b ^ 4) by (apply pow_incr; lra). replace (b * b * (b * b)) with (b ^ 4) by ring. lra.
Qed.

Lemma Rsum_incl {A} (f : A -> R) l : NoDup l -> (forall x, 0 <= f x) -> forall m, incl l m -> Rsum (map f l) <= Rsum (map f m).
Proof.
  intros Nd P. induction Nd as [|x l Hx Nd IH]; intros m I; [apply Rsum_nonneg; intros y Hy; apply in_map_iff in Hy as (z & <- & _); auto|].
  destruct (in_split x m (I x (or_introl eq_refl))) as (m1 & m2 & ->).
  rewrite map_app, Rsum_app. cbn.
  assert (J : incl l (m1 ++ m2)).
  { intros y Hy. pose proof (I y (or_intror Hy)) as M. apply in_app_or in M as [M|[M|M]]; apply in_or_app; auto. subst; contradiction. }
  specialize (IH _ J). rewrite map_app, Rsum_app in IH. lra.
Qed.

(* the integers from -K to K - 1 *)
Definition zs (K : nat) : list Z := map Z.of_nat (seq 0 K) ++ map (fun k => (- Z.of_nat k - 1)%Z) (seq 0 K).
Definition hz (q : R) (k : Z) : R := if (0 <=? k)%Z then q ^ Z.to_nat k else q ^ Z.to_nat (- k - 1).

Lemma zs_in K k : (- Z.of_nat K <= k < Z.of_nat K)%Z -> In k (zs K).
Proof.
  intros Hk. unfold zs. apply in_or_app. destruct (Z_le_gt_dec 0 k).
  - left. apply in_map_iff. exists (Z.to_nat k). split; [lia|apply in_seq; lia].
  - right. apply in_map_iff. exists (Z.to_nat (- k - 1)). split; [lia|apply in_seq; lia].
Qed.

Lemma geo q K : 0 <= q < 1 -> sumn K (fun k => q ^ k) <= / (1 - q).
Proof.
  intros Hq. assert (E : (1 - q) * sumn K (fun k => q ^ k) = 1 - q ^ K).
  { induction K; cbn; [ring|]. rewrite Rmult_plus_distr_l, IHK. ring. }
  assert (0 <= q ^ K) by (apply pow_le; lra). apply (Rmult_le_reg_l (1 - q)); [lra|]. rewrite E, Rinv_r by lra. lra.
Qed.

Lemma zs_sum q K : 0 <= q < 1 -> Rsum (map (hz q) (zs K)) <= 2 / (1 - q).
Proof.
  intros Hq. unfold zs. rewrite map_app, Rsum_app, !map_map, !Rsum_map_seq.
  rewrite (sumn_ext K _ (fun k => q ^ k)); [|intros i _; unfold hz; destruct (0 <=? Z.of_nat i)%Z eqn:E; [rewrite Nat2Z.id; auto|apply Z.leb_gt in E; lia]].
  rewrite (sumn_ext K (fun x => hz q (- Z.of_nat x - 1)) (fun k => q ^ k)).
  - pose proof (geo q K Hq). unfold Rdiv. lra.
  - intros i _. unfold hz. destruct (0 <=? - Z.of_nat i - 1)%Z eqn:E; [apply Z.leb_le in E; lia|]. f_equal. lia.
Qed.

Lemma prod_sum {A} (f : A -> R) l m : Rsum (map (fun c => f (fst c) * f (snd c)) (list_prod l m)) = Rsum (map f l) * Rsum (map f m).
Proof.
  induction l as [|x l IH]; cbn; [ring|]. rewrite map_app, Rsum_app, IH, map_map. cbn.
  replace (Rsum (map (fun y => f x * f y) m)) with (f x * Rsum (map f m)); [ring|].
  clear. induction m as [|y m IH]; cbn; [ring|]. rewrite <- IH. ring.
Qed.

Lemma hz_pos q k : 0 <= q -> 0 <= hz q k.
Proof. intros. unfold hz. destruct (_ <=? _)%Z; apply pow_le; auto. Qed.

Lemma exp_pow c n : exp (- c) ^ n = exp (- (c * INR n)).
Proof.
  induction n; [cbn; replace (- (c * 0)) with 0 by ring; rewrite exp_0; auto|].
  rewrite S_INR. cbn [pow]. rewrite IHn, <- exp_plus. f_equal. ring.
Qed.

Lemma exp_mono x y : x <= y -> exp x <= exp y.
Proof. intros [L|E]; [left; apply exp_increasing; auto|subst; right; auto]. Qed.

Lemma cell_bound c u : 0 <= c -> exp (- c * u ^ 2) <= hz (exp (- c)) (Int_part u).
Proof.
  intros Hc. destruct (base_Int_part u) as [L U]. unfold hz. destruct (0 <=? Int_part u)%Z eqn:E.
  - apply Z.leb_le in E. rewrite exp_pow. apply exp_mono. rewrite INR_IZR_INZ, Z2Nat.id by auto.
    assert (I : IZR (Int_part u) <= u ^ 2).
    { destruct (Z.eq_dec (Int_part u) 0) as [Z0|Z0]; [rewrite Z0; cbn; pose proof (pow2_ge_0 u); lra|].
      assert (1 <= IZR (Int_part u)) by (apply IZR_le; lia). nra. }
    nra.
  - apply Z.leb_gt in E. rewrite exp_pow. apply exp_mono. rewrite INR_IZR_INZ, Z2Nat.id by lia.
    rewrite minus_IZR, opp_IZR.
    assert (I : - IZR (Int_part u) - 1 <= u ^ 2).
    { destruct (Z.eq_dec (Int_part u) (-1)) as [Z0|Z0]; [rewrite Z0; cbn; pose proof (pow2_ge_0 u); lra|].
      assert (IZR (Int_part u) <= - (2)) by (apply (IZR_le _ (-2)); lia). nra. }
    nra.
Qed.

Lemma bound_all (f : nat -> Z) n : exists K, forall i, (i < n)%nat -> (- Z.of_nat K <= f i < Z.of_nat K)%Z.
Proof.
  induction n; [exists O; lia|]. destruct IHn as [K HK]. exists (K + Z.to_nat (Z.abs (f n)) + 1)%nat. intros i Hi.
  destruct (Nat.eq_dec i n) as [->|]; [lia|]. specialize (HK i ltac:(lia)). lia.
Qed.

Lemma NoDup_map_on {A B} (f : A -> B) l : NoDup l -> (forall x y, In x l -> In y l -> f x = f y -> x = y) -> NoDup (map f l).
Proof.
  intros Nd. induction Nd as [|x l Hx Nd IH]; intros I; cbn; constructor.
  - intros M. apply in_map_iff in M as (y & E & M). assert (y = x) by (apply I; cbn; auto). subst; contradiction.
  - apply IH. intros; apply I; cbn; auto.
Qed.

Lemma pack_unit n (u v : nat -> R) c : 0 < c ->
  (forall i j, (i < n)%nat -> (j < n)%nat -> i <> j -> 2 <= (u i - u j) ^ 2 + (v i - v j) ^ 2) ->
  sumn n (fun i => exp (- c * (u i ^ 2 + v i ^ 2))) <= (2 / (1 - exp (- c))) ^ 2.
Proof.
  intros Hc Ap. set (q := exp (- c)).
  assert (Hq : 0 <= q < 1) by (unfold q; split; [left; apply exp_pos|rewrite <- exp_0; apply exp_increasing; lra]).
  set (cell := fun i => (Int_part (u i), Int_part (v i))).
  destruct (bound_all (fun i => Int_part (u i)) n) as [K1 B1]. destruct (bound_all (fun i => Int_part (v i)) n) as [K2 B2].
  apply (Rle_trans _ (Rsum (map (fun z => hz q (fst z) * hz q (snd z)) (map cell (seq 0 n))))).
  - rewrite map_map, Rsum_map_seq. apply sumn_le. intros i _. unfold cell. cbn [fst snd].
    replace (- c * (u i ^ 2 + v i ^ 2)) with (- c * u i ^ 2 + - c * v i ^ 2) by ring. rewrite exp_plus.
    apply Rmult_le_compat; try (left; apply exp_pos); apply cell_bound; lra.
  - apply (Rle_trans _ (Rsum (map (fun z => hz q (fst z) * hz q (snd z)) (list_prod (zs K1) (zs K2))))).
    + apply Rsum_incl.
      * apply NoDup_map_on; [apply seq_NoDup|]. intros i j Hi Hj E. apply in_seq in Hi, Hj. unfold cell in E. injection E as E1 E2.
        destruct (Nat.eq_dec i j); auto. exfalso. specialize (Ap i j ltac:(lia) ltac:(lia) n0).
        destruct (base_Int_part (u i)), (base_Int_part (v i)), (base_Int_part (u j)), (base_Int_part (v j)). rewrite E1 in *. rewrite E2 in *. nra.
      * intros z. apply Rmult_le_pos; apply hz_pos; lra.
      * intros z Hz. apply in_map_iff in Hz as (i & <- & Hi). apply in_seq in Hi. apply in_prod; apply zs_in; [apply B1|apply B2]; lia.
    + rewrite prod_sum. pose proof (zs_sum q K1 Hq). pose proof (zs_sum q K2 Hq).
      assert (N : forall K, 0 <= Rsum (map (hz q) (zs K))). { intros K. apply Rsum_nonneg. intros y Hy. apply in_map_iff in Hy as (z & <- & _). apply hz_pos; lra. }
      pose proof (N K1). pose proof (N K2). cbn. rewrite Rmult_1_r. apply Rmult_le_compat; auto.
Qed.

(* points at least delta apart, seen from one of them *)
Lemma pack n (px py : nat -> R) delta b : 0 < delta ->
  (forall i j, (i < n)%nat -> (j < n)%nat -> i <> j -> delta ^ 2 <= (px i - px j) ^ 2 + (py i - py j) ^ 2) ->
  sumn n (fun i => exp (- (9 / 2) * (((px i - px b) ^ 2 + (py i - py b) ^ 2) / delta ^ 2))) <= 10.
Proof.
  intros Hd Ap.
  apply (Rle_trans _ ((2 / (1 - exp (- (9 / 8)))) ^ 2)).
  - rewrite (sumn_ext n _ (fun i => exp (- (9 / 8) * ((2 * (px i - px b) / delta) ^ 2 + (2 * (py i - py b) / delta) ^ 2)))).
    + apply (pack_unit n (fun i => 2 * (px i - px b) / delta) (fun i => 2 * (py i - py b) / delta)); [lra|]. intros i j Hi Hj N.
      specialize (Ap i j Hi Hj N).
      replace ((2 * (px i - px b) / delta - 2 * (px j - px b) / delta) ^ 2 + (2 * (py i - py b) / delta - 2 * (py j - py b) / delta) ^ 2)
        with (4 * (((px i - px j) ^ 2 + (py i - py j) ^ 2) / delta ^ 2)) by (field; lra).
      assert (1 <= ((px i - px j) ^ 2 + (py i - py j) ^ 2) / delta ^ 2); [|lra].
      apply (Rmult_le_reg_r (delta ^ 2)); [nra|]. unfold Rdiv. rewrite Rmult_assoc, Rinv_l by nra. lra.
    + intros i _. f_equal. field. lra.
  - assert (E : exp (- (9 / 8)) <= 4 / 11).
    { pose proof (exp_cubic (9 / 8) ltac:(lra)) as G.
      assert (P : exp (- (9 / 8)) * exp (9 / 8) = 1) by (rewrite <- exp_plus, Rplus_opp_l; apply exp_0). pose proof (exp_pos (- (9 / 8))). nra. }
    set (e := exp (- (9 / 8))) in *.
    assert (F : 0 < 2 / (1 - e) <= 22 / 7).
    { split; [apply Rdiv_lt_0_compat; lra|]. apply (Rmult_le_reg_r (1 - e)); [lra|]. unfold Rdiv. rewrite Rmult_assoc, Rinv_l by lra. lra. }
    nra.
Qed.
