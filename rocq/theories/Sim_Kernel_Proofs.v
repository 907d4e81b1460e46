(** Comparisons of line source solutions. *)
From Verif Require Import Base FLS_Model FLS_Spec FLS_Proofs FLS_Erf_Proofs FLS_Sol_Proofs FLS_Line_Proofs.
From Coquelicot Require Import Coquelicot.
Local Open Scope R_scope.

Lemma decr_fun (f df : R -> R) x y : x < y -> (forall z, x <= z <= y -> is_derive f z (df z)) -> (forall z, x < z < y -> df z < 0) -> f y < f x.
Proof.
  intros L D N. destruct (MVT_cor2 f df x y L) as [c [E Hc]].
  - intros c Hc. apply is_derive_Reals, D. auto.
  - specialize (N c Hc). nra.
Qed.

Lemma erf_step a x y : 0 < a -> - a / 2 < x -> x < y -> erf (y + a) - erf y < erf (x + a) - erf x.
Proof.
  intros Ha Hx L. apply (decr_fun (fun z => erf (z + a) - erf z) (fun z => 2 / sqrt PI * exp (- (z + a) ^ 2) - 2 / sqrt PI * exp (- z ^ 2))); auto.
  - intros z _. apply (is_derive_minus (fun z => erf (z + a)) erf); [|apply erf_derive].
    replace (2 / sqrt PI * exp (- (z + a) ^ 2)) with (scal 1 (2 / sqrt PI * exp (- (z + a) ^ 2))) by (unfold scal; simpl; unfold mult; simpl; ring).
    apply (is_derive_comp erf (fun z => z + a)); [apply erf_derive|]. auto_derive; auto; ring.
  - intros z Hz. assert (exp (- (z + a) ^ 2) < exp (- z ^ 2)) by (apply exp_increasing; nra). pose proof spi. assert (0 < 2 / sqrt PI) by (apply Rdiv_lt_0_compat; lra). nra.
Qed.

Definition second (a y : R) : R := erfint (y + a) - 2 * erfint y + erfint (y - a).
Lemma second_decr a x y : 0 < a -> a / 2 < x -> x < y -> second a y < second a x.
Proof.
  intros Ha Hx L. apply (decr_fun (second a) (fun z => erf (z + a) - 2 * erf z + erf (z - a))); auto.
  - intros z _. unfold second.
    assert (Q : forall c, is_derive (fun z => erfint (z + c)) z (erf (z + c))).
    { intros c. replace (erf (z + c)) with (scal 1 (erf (z + c))) by (unfold scal; simpl; unfold mult; simpl; ring).
      apply (is_derive_comp erfint (fun z => z + c)); [apply erfint_derive|]. auto_derive; auto; ring. }
    apply (is_derive_plus (fun z => erfint (z + a) - 2 * erfint z) (fun z => erfint (z - a))).
    + apply (is_derive_minus (fun z => erfint (z + a)) (fun z => 2 * erfint z)); [apply Q|]. apply (is_derive_scal erfint z 2 (erf z)). apply erfint_derive.
    + apply (Q (- a)).
  - intros z Hz. pose proof (erf_step a (z - a) z Ha ltac:(lra) ltac:(lra)) as E. replace (z - a + a) with z in E by ring. lra.
Qed.

(** Two segments further apart respond less, whatever the images. *)
Lemma fls_apart time alpha d h D delta : 0 < alpha -> 0 < time -> 0 < d -> 0 < h -> 0 < delta -> delta < h / 2 ->
  fls time alpha d h D h (D + h + delta) true true < fls time alpha d h (D + delta) h (D + h) true true.
Proof.
  intros Ha Ht Hd Hh Hl Hl2. unfold fls. apply Rmult_lt_compat_l. { apply Rdiv_lt_0_compat; lra. }
  pose proof (lower_pos alpha time Ha Ht) as Lp.
  apply quad_lt.
  - apply integrand_conv; lra.
  - apply integrand_conv; lra.
  - intros s Hs. unfold fls_integrand. assert (Sp : 0 < s) by lra. apply Rmult_lt_compat_l.
    { apply Rmult_lt_0_compat; [apply Rinv_0_lt_compat; nra|apply exp_pos]. }
    unfold inner, fls_p, fls_q. cbn [map combine Rsum fold_right fst snd].
    pose proof (second_decr (h * s) ((h - delta) * s) ((h + delta) * s) ltac:(nra) ltac:(nra) ltac:(nra)) as E. unfold second in E.
    replace ((D + h + delta - D + h) * s) with ((h + delta) * s + h * s) by ring.
    replace ((D + h + delta - D) * s) with ((h + delta) * s) by ring.
    replace ((D + h + delta - D - h) * s) with ((h + delta) * s - h * s) by ring.
    replace ((D + h + delta - D + h - h) * s) with ((h + delta) * s) by ring.
    replace ((D + h - (D + delta) + h) * s) with ((h - delta) * s + h * s) by ring.
    replace ((D + h - (D + delta)) * s) with ((h - delta) * s) by ring.
    replace ((D + h - (D + delta) - h) * s) with ((h - delta) * s - h * s) by ring.
    replace ((D + h - (D + delta) + h - h) * s) with ((h - delta) * s) by ring.
    replace ((D + h + (D + delta) + h) * s) with ((D + h + delta + D + h) * s) by ring.
    replace ((D + h + (D + delta)) * s) with ((D + h + delta + D) * s) by ring.
    replace ((D + h + (D + delta) + h + h) * s) with ((D + h + delta + D + h + h) * s) by ring.
    lra.
  - intros s Hs. apply integrand_cont. lra.
  - intros s Hs. apply integrand_cont. lra.
Qed.
