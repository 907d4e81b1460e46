(* The exponential integral: derivative, rational bounds and steps of a table. *)
From Coq Require Import Reals Lra Lia List Psatz.
From Coquelicot Require Import Coquelicot.
From Verif Require Import Base FLS_Model FLS_Spec FLS_Proofs FLS_Sol_Proofs Approx_Spec Approx_Int_Proofs.
Local Open Scope R_scope.

Definition ef (u : R) : R := exp (- u) / u.

Lemma ef_cont x : 0 < x -> continuous ef x.
Proof. intros Hx. apply (ex_derive_continuous ef). unfold ef. auto_derive. lra. Qed.

Lemma ef_pos x : 0 < x -> 0 < ef x.
Proof. intros. apply Rdiv_lt_0_compat; [apply exp_pos|auto]. Qed.

Lemma E1_split a b : 0 < a -> a <= b -> E1 a = RInt ef a b + E1 b.
Proof. intros Ha L. apply (quad_chasles _ a b L (E1_conv a Ha)). Qed.

Lemma E1_derive x : 0 < x -> is_derive E1 x (- ef x).
Proof.
  intros Hx.
  apply is_derive_ext_loc with (fun y => E1 (x / 2) - RInt ef (x / 2) y).
  - exists (mkposreal (x / 2) ltac:(lra)). intros y By. unfold ball in By. cbn in By. unfold AbsRing_ball, abs, minus, plus, opp in By. cbn in By.
    apply Rabs_lt_between in By. rewrite (E1_split (x / 2) y) by lra. lra.
  - replace (- ef x) with (0 - ef x) by ring. apply (is_derive_minus (fun _ => E1 (x / 2)) (fun y => RInt ef (x / 2) y)); [apply @is_derive_const|].
    apply (is_derive_RInt ef (fun y => RInt ef (x / 2) y) (x / 2) x).
    + exists (mkposreal (x / 2) ltac:(lra)). intros y By. unfold ball in By. cbn in By. unfold AbsRing_ball, abs, minus, plus, opp in By. cbn in By.
      apply Rabs_lt_between in By. apply (RInt_correct ef), (ex_RInt_continuous ef). intros z Hz. rewrite Rmin_left, Rmax_right in Hz by lra. apply ef_cont. lra.
    + apply ef_cont. auto.
Qed.

Lemma falls (g dg : R -> R) a b : 0 < a -> a <= b -> (forall x, a <= x <= b -> is_derive g x (dg x)) ->
  (forall x, a <= x <= b -> dg x <= 0) -> g b <= g a.
Proof.
  intros Ha L D P. destruct (MVT_gen g a b dg) as [c [Hc E]].
  - intros y Hy. apply D. rewrite Rmin_left, Rmax_right in Hy by auto. lra.
  - intros y Hy. rewrite Rmin_left, Rmax_right in Hy by auto. apply continuity_pt_filterlim, (ex_derive_continuous g). eexists. apply D. lra.
  - rewrite Rmin_left, Rmax_right in Hc by auto. specialize (P c Hc). nra.
Qed.

Lemma E1_small x : 0 < x -> E1 x <= ef x.
Proof.
  intros Hx. apply (is_lim_le_loc (fun b => RInt ef x b) (fun _ => ef x) p_infty (E1 x) (ef x)).
  - exists x. intros b Hb. assert (0 < b) by lra.
    assert (E : E1 x - E1 b = RInt ef x b) by (rewrite (E1_split x b) by lra; ring). rewrite <- E.
    assert (F : ef b - E1 b <= ef b). { pose proof (E1_pos b H). lra. }
    pose proof (falls (fun y => ef y - E1 y) (fun y => - exp (- y) / y ^ 2) x b Hx ltac:(lra)) as M.
    pose proof (ef_pos b H). cbv beta in M. enough (ef b - E1 b <= ef x - E1 x) by lra. apply M.
    + intros y Hy. assert (0 < y) by lra. pose proof (is_derive_minus ef E1 y (- exp (- y) / y - exp (- y) / y ^ 2) (- ef y)) as D.
      replace (- exp (- y) / y ^ 2) with (minus (- exp (- y) / y - exp (- y) / y ^ 2) (- ef y)) by (unfold minus, plus, opp, ef; cbn -[pow]; field; lra).
      apply D; [|apply E1_derive; auto]. unfold ef. auto_derive; [lra|field; lra].
    + intros y Hy. assert (0 < y) by lra. unfold Rdiv. pose proof (exp_pos (- y)). assert (0 < / y ^ 2) by (apply Rinv_0_lt_compat, pow_lt; auto). nra.
  - apply quad_is. apply (E1_conv x Hx).
  - apply is_lim_const.
Qed.

(* bounds by functions with a larger or smaller slope *)
Lemma E1_below (U dU : R -> R) x : 0 < x -> (forall y, 0 < y -> is_derive U y (dU y)) -> (forall y, 0 < y -> 0 <= U y) ->
  (forall y, 0 < y -> dU y - U y + / y <= 0) -> E1 x <= exp (- x) * U x.
Proof.
  intros Hx D P S.
  destruct (Rle_dec (E1 x) (exp (- x) * U x)) as [q|q]; [auto|exfalso].
  set (eps := E1 x - exp (- x) * U x). assert (0 < eps) by (unfold eps; lra).
  set (b := Rmax (x + 1) (Rmax 1 (/ eps + 1))).
  assert (B1 : x + 1 <= b) by apply Rmax_l. assert (B2 : 1 <= b) by (eapply Rle_trans; [apply Rmax_l|apply Rmax_r]).
  assert (B3 : / eps + 1 <= b) by (eapply Rle_trans; [apply Rmax_r|apply Rmax_r]). clearbody b.
  pose proof (falls (fun y => exp (- y) * U y - E1 y) (fun y => exp (- y) * (dU y - U y + / y)) x b Hx ltac:(lra)) as M. cbv beta in M.
  assert (M' : exp (- b) * U b - E1 b <= exp (- x) * U x - E1 x).
  { apply M.
    - intros y Hy. assert (0 < y) by lra.
      replace (exp (- y) * (dU y - U y + / y)) with (minus (- exp (- y) * U y + exp (- y) * dU y) (- ef y)) by (unfold minus, plus, opp, ef; cbn; field; lra).
      apply (is_derive_minus (fun y => exp (- y) * U y) E1); [|apply E1_derive; auto].
      apply (is_derive_mult (fun y => exp (- y)) U y (- exp (- y)) (dU y)); [auto_derive; auto; ring|apply D; auto|intros; apply Rmult_comm].
    - intros y Hy. pose proof (exp_pos (- y)). pose proof (S y ltac:(lra)). nra. }
  pose proof (E1_small b ltac:(lra)) as SB. unfold ef in SB.
  assert (EB : exp (- b) / b < eps).
  { apply Rmult_lt_reg_r with b; [lra|]. replace (exp (- b) / b * b) with (exp (- b)) by (field; lra).
    assert (exp (- b) < 1) by (rewrite <- exp_0; apply exp_increasing; lra).
    assert (1 < eps * b); [|lra]. replace 1 with (eps * / eps) by (field; lra). apply Rmult_lt_compat_l; lra. }
  pose proof (exp_pos (- b)). pose proof (P b ltac:(lra)). assert (0 <= exp (- b) * U b) by nra. unfold eps in *. lra.
Qed.

Lemma E1_above (U dU : R -> R) x : 0 < x -> (forall y, 0 < y -> is_derive U y (dU y)) -> (forall y, 0 < y -> U y <= / y) ->
  (forall y, 0 < y -> 0 <= dU y - U y + / y) -> exp (- x) * U x <= E1 x.
Proof.
  intros Hx D P S.
  destruct (Rle_dec (exp (- x) * U x) (E1 x)) as [q|q]; [auto|exfalso].
  set (eps := exp (- x) * U x - E1 x). assert (0 < eps) by (unfold eps; lra).
  set (b := Rmax (x + 1) (Rmax 1 (/ eps + 1))).
  assert (B1 : x + 1 <= b) by apply Rmax_l. assert (B2 : 1 <= b) by (eapply Rle_trans; [apply Rmax_l|apply Rmax_r]).
  assert (B3 : / eps + 1 <= b) by (eapply Rle_trans; [apply Rmax_r|apply Rmax_r]). clearbody b.
  pose proof (falls (fun y => E1 y - exp (- y) * U y) (fun y => - (exp (- y) * (dU y - U y + / y))) x b Hx ltac:(lra)) as M. cbv beta in M.
  assert (M' : E1 b - exp (- b) * U b <= E1 x - exp (- x) * U x).
  { apply M.
    - intros y Hy. assert (0 < y) by lra.
      replace (- (exp (- y) * (dU y - U y + / y))) with (minus (- ef y) (- exp (- y) * U y + exp (- y) * dU y)) by (unfold minus, plus, opp, ef; cbn; field; lra).
      apply (is_derive_minus E1 (fun y => exp (- y) * U y)); [apply E1_derive; auto|].
      apply (is_derive_mult (fun y => exp (- y)) U y (- exp (- y)) (dU y)); [auto_derive; auto; ring|apply D; auto|intros; apply Rmult_comm].
    - intros y Hy. pose proof (exp_pos (- y)). pose proof (S y ltac:(lra)). nra. }
  pose proof (E1_pos b ltac:(lra)) as SB.
  assert (EB : exp (- b) * U b < eps).
  { apply Rle_lt_trans with (exp (- b) * / b); [apply Rmult_le_compat_l; [left; apply exp_pos|apply P; lra]|].
    apply Rmult_lt_reg_r with b; [lra|]. replace (exp (- b) * / b * b) with (exp (- b)) by (field; lra).
    assert (exp (- b) < 1) by (rewrite <- exp_0; apply exp_increasing; lra).
    assert (1 < eps * b); [|lra]. replace 1 with (eps * / eps) by (field; lra). apply Rmult_lt_compat_l; lra. }
  unfold eps in *. lra.
Qed.

(* the exponential integral without its exponential *)
Definition KE (x : R) : R := exp x * E1 x.

Lemma exp_cancel x : exp x * exp (- x) = 1.
Proof. rewrite <- exp_plus, Rplus_opp_r. apply exp_0. Qed.

Lemma KE_pos x : 0 < x -> 0 < KE x.
Proof. intros. apply Rmult_lt_0_compat; [apply exp_pos|apply E1_pos; auto]. Qed.

Lemma KE_upper x : 0 < x -> KE x <= (x + 1) / (x * (x + 2)).
Proof.
  intros Hx. pose proof (E1_below (fun y => (y + 1) / (y * (y + 2))) (fun y => - (y ^ 2 + 2 * y + 2) / (y ^ 2 * (y + 2) ^ 2)) x Hx) as B.
  unfold KE. replace ((x + 1) / (x * (x + 2))) with (exp x * (exp (- x) * ((x + 1) / (x * (x + 2))))) by (rewrite <- Rmult_assoc, exp_cancel; ring).
  apply Rmult_le_compat_l; [left; apply exp_pos|]. apply B.
  - intros y Hy. auto_derive; [nra|]. field. lra.
  - intros y Hy. apply Rmult_le_pos; [lra|]. left. apply Rinv_0_lt_compat. nra.
  - intros y Hy. replace (- (y ^ 2 + 2 * y + 2) / (y ^ 2 * (y + 2) ^ 2) - (y + 1) / (y * (y + 2)) + / y) with (- 2 / (y ^ 2 * (y + 2) ^ 2)) by (field; lra).
    assert (0 < / (y ^ 2 * (y + 2) ^ 2)) by (apply Rinv_0_lt_compat, Rmult_lt_0_compat; apply pow_lt; lra). unfold Rdiv. lra.
Qed.

Lemma KE_lower x : 0 < x -> (x + 3) / (x ^ 2 + 4 * x + 2) <= KE x.
Proof.
  intros Hx. pose proof (E1_above (fun y => (y + 3) / (y ^ 2 + 4 * y + 2)) (fun y => - (y ^ 2 + 6 * y + 10) / (y ^ 2 + 4 * y + 2) ^ 2) x Hx) as B.
  unfold KE. replace ((x + 3) / (x ^ 2 + 4 * x + 2)) with (exp x * (exp (- x) * ((x + 3) / (x ^ 2 + 4 * x + 2)))) by (rewrite <- Rmult_assoc, exp_cancel; ring).
  apply Rmult_le_compat_l; [left; apply exp_pos|]. apply B.
  - intros y Hy. auto_derive; [nra|]. field. nra.
  - intros y Hy. apply Rmult_le_reg_r with (y * (y ^ 2 + 4 * y + 2)); [nra|].
    replace ((y + 3) / (y ^ 2 + 4 * y + 2) * (y * (y ^ 2 + 4 * y + 2))) with (y * (y + 3)) by (field; nra).
    replace (/ y * (y * (y ^ 2 + 4 * y + 2))) with (y ^ 2 + 4 * y + 2) by (field; lra). nra.
  - intros y Hy. replace (- (y ^ 2 + 6 * y + 10) / (y ^ 2 + 4 * y + 2) ^ 2 - (y + 3) / (y ^ 2 + 4 * y + 2) + / y) with (4 / (y * (y ^ 2 + 4 * y + 2) ^ 2)) by (field; nra).
    apply Rmult_le_pos; [lra|]. left. apply Rinv_0_lt_compat, Rmult_lt_0_compat; [lra|]. apply pow_lt. nra.
Qed.

Lemma KE_decr x y : 0 < x -> x <= y -> KE y <= KE x.
Proof.
  intros Hx L. apply (falls KE (fun z => KE z - / z) x y Hx L).
  - intros z Hz. assert (0 < z) by lra. unfold KE. replace (exp z * E1 z - / z) with (exp z * E1 z + exp z * (- ef z)).
    2:{ unfold ef. replace (exp z * - (exp (- z) / z)) with (- (exp z * exp (- z)) / z) by (field; lra). rewrite exp_cancel. field. lra. }
    apply (is_derive_mult exp E1 z (exp z) (- ef z)); [apply is_derive_exp|apply E1_derive; auto|intros; apply Rmult_comm].
  - intros z Hz. assert (0 < z) by lra. pose proof (KE_upper z H) as U. eapply Rle_trans; [apply Rplus_le_compat_r; exact U|].
    apply Rmult_le_reg_r with (z * (z + 2)); [nra|]. replace (((z + 1) / (z * (z + 2)) + - / z) * (z * (z + 2))) with (z + 1 - (z + 2)) by (field; lra). lra.
Qed.

(* the integrand is convex *)
Lemma tangent a u : 0 < a -> 0 < u -> ef a + (u - a) * (- exp (- a) / a - exp (- a) / a ^ 2) <= ef u.
Proof.
  intros Ha Hu. unfold ef. replace (exp (- u)) with (exp (- a) * exp (- (u - a))) by (rewrite <- exp_plus; f_equal; ring).
  pose proof (exp_pos (- a)) as P. pose proof (exp_ineq1_le (- (u - a))) as Q.
  set (E := exp (- (u - a))) in *. set (A := exp (- a)) in *.
  apply Rmult_le_reg_r with (a ^ 2 * u); [apply Rmult_lt_0_compat; [apply pow_lt|]; auto|].
  replace ((A / a + (u - a) * (- A / a - A / a ^ 2)) * (a ^ 2 * u)) with (A * (u * (a - (u - a) * (a + 1)))) by (field; lra).
  replace (A * E / u * (a ^ 2 * u)) with (A * (a ^ 2 * E)) by (field; lra).
  apply Rmult_le_compat_l; [lra|]. assert (a ^ 2 * (1 + - (u - a)) <= a ^ 2 * E) by (apply Rmult_le_compat_l; [apply pow2_ge_0|lra]).
  assert (0 <= (u - a) ^ 2 * (1 + a)) by (apply Rmult_le_pos; [apply pow2_ge_0|lra]). nra.
Qed.

Lemma trapezoid a b : 0 < a -> a <= b -> E1 a - E1 b <= (b - a) / 2 * (ef a + ef b).
Proof.
  intros Ha L.
  pose proof (falls (fun y => (b - y) / 2 * (ef y + ef b) - (E1 y - E1 b))
    (fun y => / 2 * (ef y + (b - y) * (- exp (- y) / y - exp (- y) / y ^ 2) - ef b)) a b Ha L) as M. cbv beta in M.
  enough ((b - b) / 2 * (ef b + ef b) - (E1 b - E1 b) <= (b - a) / 2 * (ef a + ef b) - (E1 a - E1 b)) by lra. apply M.
  - intros y Hy. assert (0 < y) by lra.
    assert (D1 : is_derive (fun y => (b - y) / 2 * (ef y + ef b)) y (- / 2 * (ef y + ef b) + (b - y) / 2 * (- exp (- y) / y - exp (- y) / y ^ 2))).
    { unfold ef. auto_derive; [lra|field; lra]. }
    assert (D2 : is_derive (fun y => E1 y - E1 b) y (- ef y)).
    { replace (- ef y) with (minus (- ef y) 0) by (unfold minus, plus, opp; cbn; ring). apply (is_derive_minus E1 (fun _ => E1 b)); [apply E1_derive; auto|apply @is_derive_const]. }
    replace (/ 2 * (ef y + (b - y) * (- exp (- y) / y - exp (- y) / y ^ 2) - ef b)) with
      (minus (- / 2 * (ef y + ef b) + (b - y) / 2 * (- exp (- y) / y - exp (- y) / y ^ 2)) (- ef y)) by (unfold minus, plus, opp; cbn -[pow]; field; lra).
    apply (is_derive_minus _ _ _ _ _ D1 D2).
  - intros y Hy. pose proof (tangent y b ltac:(lra) ltac:(lra)). lra.
Qed.

Lemma midpoint a b : 0 < a -> a <= b -> (b - a) * ef ((a + b) / 2) <= E1 a - E1 b.
Proof.
  intros Ha L.
  pose proof (falls (fun y => (y - a) * ef ((a + y) / 2) - (E1 a - E1 y))
    (fun y => let c := (a + y) / 2 in ef c + (y - c) * (- exp (- c) / c - exp (- c) / c ^ 2) - ef y) a b Ha L) as M. cbv beta in M.
  enough ((b - a) * ef ((a + b) / 2) - (E1 a - E1 b) <= (a - a) * ef ((a + a) / 2) - (E1 a - E1 a)) by lra. apply M.
  - intros y Hy. assert (0 < y) by lra. cbv zeta.
    set (c := (a + y) / 2). assert (Hc : 0 < c) by (unfold c; lra).
    assert (D1 : is_derive (fun y => (y - a) * ef ((a + y) / 2)) y (ef c + (y - c) * (- exp (- c) / c - exp (- c) / c ^ 2))).
    { unfold ef. auto_derive; [lra|]. replace ((a + y) * / 2) with c by (unfold c; field). replace ((a + y) / 2) with c by reflexivity.
      replace (y + - a) with (2 * (y - c)) by (unfold c; field). field. lra. }
    assert (D2 : is_derive (fun y => E1 a - E1 y) y (ef y)).
    { replace (ef y) with (minus 0 (- ef y)) by (unfold minus, plus, opp; cbn; ring). apply (is_derive_minus (fun _ => E1 a) E1); [apply @is_derive_const|apply E1_derive; auto]. }
    apply (is_derive_minus _ _ _ _ _ D1 D2).
  - intros y Hy. cbv zeta. pose proof (tangent ((a + y) / 2) y ltac:(lra) ltac:(lra)). lra.
Qed.

(* one step of a table down to the argument a, from a (1 + r) *)
Lemma KE_step a r : 0 < a -> 0 <= r -> let d := a * r in let b := a * (1 + r) in
  exp (- d) * KE b + 2 * r / (2 + r) * exp (- (d / 2)) <= KE a
  /\ KE a <= exp (- d) * KE b + (r + r / (1 + r) * exp (- d)) / 2.
Proof.
  intros Ha Hr d b. assert (L : a <= b) by (unfold b; nra). assert (Hb : 0 < b) by lra.
  assert (S : KE a = exp (- d) * KE b + exp a * (E1 a - E1 b)).
  { unfold KE. replace (exp a) with (exp (- d) * exp b) by (rewrite <- exp_plus; f_equal; unfold d, b; ring). ring. }
  rewrite S. pose proof (exp_pos a) as P. split.
  - apply Rplus_le_compat_l. apply Rle_trans with (exp a * ((b - a) * ef ((a + b) / 2))); [|apply Rmult_le_compat_l; [lra|apply midpoint; auto]].
    right. unfold ef. replace (exp (- (d / 2))) with (exp a * exp (- ((a + b) / 2))) by (rewrite <- exp_plus; f_equal; unfold d, b; field).
    unfold b. field. split; [nra|lra].
  - apply Rplus_le_compat_l. eapply Rle_trans; [apply Rmult_le_compat_l; [lra|apply trapezoid; auto]|].
    right. unfold ef. replace (exp (- d)) with (exp a * exp (- b)) by (rewrite <- exp_plus; f_equal; unfold d, b; ring).
    replace (exp a * ((b - a) / 2 * (exp (- a) / a + exp (- b) / b))) with ((b - a) / 2 * ((exp a * exp (- a)) / a + exp a * exp (- b) / b)) by (field; lra).
    rewrite exp_cancel. unfold b. field. split; lra.
Qed.
