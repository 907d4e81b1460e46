(** The vertical factor of the finite line source integrand: positive, and increasing once
    multiplied by the integration variable. *)
From Coq Require Import Reals Lra Lia List.
From Coquelicot Require Import Coquelicot.
From Verif Require Import Base FLS_Model FLS_Spec FLS_Erf_Proofs FLS_Proofs FLS_Sol_Proofs Def_Psd_Proofs.
Local Open Scope R_scope.

(* s times the integrand at distance 0 *)
Definition sw (H1 D1 H2 D2 s : R) : R := / s * comb true true (kern s) H1 D1 H2 D2.

Lemma integrand_sw dis H1 D1 H2 D2 s : s <> 0 ->
  fls_integrand dis H1 D1 H2 D2 true true s = / s * (exp (- dis ^ 2 * s ^ 2) * sw H1 D1 H2 D2 s).
Proof. intros Hs. rewrite integrand_comb. unfold sw. field. auto. Qed.

Lemma kern_derive q s : s <> 0 -> is_derive (fun s => / s * kern s q) s (/ (sqrt PI * s ^ 2) * (1 - exp (- (q * s) ^ 2))).
Proof.
  intros Hs. unfold kern.
  assert (E : is_derive (fun s => erfint (q * s)) s (q * erf (q * s))).
  { replace (q * erf (q * s)) with (scal q (erf (q * s))) by reflexivity.
    apply (is_derive_comp erfint (fun s => q * s) s (erf (q * s)) q); [apply erfint_derive|]. auto_derive; auto; ring. }
  evar_last.
  - apply (is_derive_mult (fun s => / s) (fun s => erfint (q * s)) s (- / s ^ 2) (q * erf (q * s))); [|exact E|].
    + auto_derive; auto. field; auto.
    + intros; apply Rmult_comm.
  - unfold plus, mult; cbn -[pow]. unfold erfint.
    pose proof spi as Sp. field. split; auto. lra.
Qed.

Lemma sw_derive H1 D1 H2 D2 s : s <> 0 ->
  is_derive (sw H1 D1 H2 D2) s (/ (sqrt PI * s ^ 2) * comb true true (fun q => - exp (- (q * s) ^ 2)) H1 D1 H2 D2).
Proof.
  intros Hs.
  assert (E : is_derive (fun s => comb true true (fun q => / s * kern s q) H1 D1 H2 D2) s
                (comb true true (fun q => / (sqrt PI * s ^ 2) * (1 - exp (- (q * s) ^ 2))) H1 D1 H2 D2)).
  { unfold comb. set (d := fun q => / (sqrt PI * s ^ 2) * (1 - exp (- (q * s) ^ 2))).
    assert (Hd : forall q, is_derive (fun s => / s * kern s q) s (d q)) by (intros q; apply kern_derive; auto).
    repeat match goal with
    | |- is_derive (fun s => _ + _) s _ => apply (@is_derive_plus R_AbsRing R_NormedModule)
    | |- is_derive (fun s => _ - _) s _ => apply (@is_derive_minus R_AbsRing R_NormedModule)
    | |- _ => apply Hd
    end. }
  apply (is_derive_ext (fun s => comb true true (fun q => / s * kern s q) H1 D1 H2 D2)).
  - intros t. unfold sw. apply comb_scal.
  - match goal with |- is_derive _ _ ?v => replace v with (comb true true (fun q => / (sqrt PI * s ^ 2) * (1 - exp (- (q * s) ^ 2))) H1 D1 H2 D2) end; [exact E|].
    rewrite comb_scal. f_equal.
    rewrite <- (comb_affine true true (fun q => - exp (- (q * s) ^ 2)) 1 0). apply comb_ext. intros q. ring.
Qed.

Lemma psd_ends n K (H D : nat -> R) s : psd n K ->
  psd n (fun i j => K i j * comb true true (fun q => - exp (- (q * s) ^ 2)) (H i) (D i) (H j) (D j)).
Proof.
  intros P.
  set (w := fun (i p : nat) => match p with O => 1 | 1%nat => - 1 | 2%nat => 1 | _ => - 1 end).
  set (a := fun (i p : nat) => match p with O => D i + H i | 1%nat => D i | 2%nat => - (D i + H i) | _ => - D i end).
  apply (psd_ext n (fun i j => 1 / 2 * (K i j * sumn 4 (fun p => sumn 4 (fun q => w i p * w j q * exp (- s ^ 2 * (a i p - a j q) ^ 2)))))).
  - intros i j _ _. unfold w, a, comb. cbn [sumn].
    set (g := fun z => exp (- s ^ 2 * z ^ 2)).
    assert (G : forall u v, u = v \/ u = - v -> exp (- (u * s) ^ 2) = g v).
    { intros u v [-> | ->]; unfold g; f_equal; ring. }
    assert (F : forall u v, u = v \/ u = - v -> exp (- s ^ 2 * u ^ 2) = g v).
    { intros u v [-> | ->]; unfold g; f_equal; ring. }
    set (Ei := D i + H i). set (Ej := D j + H j).
    rewrite (G (D j - D i + H j) (Ej - D i)) by (left; unfold Ej; ring).
    rewrite (G (D j - D i) (D j - D i)) by (left; ring).
    rewrite (G (D j - D i - H i) (D j - Ei)) by (left; unfold Ei; ring).
    rewrite (G (D j - D i + H j - H i) (Ej - Ei)) by (left; unfold Ei, Ej; ring).
    rewrite (G (D j + D i + H j) (Ej + D i)) by (left; unfold Ej; ring).
    rewrite (G (D j + D i) (D j + D i)) by (left; ring).
    rewrite (G (D j + D i + H i) (D j + Ei)) by (left; unfold Ei; ring).
    rewrite (G (D j + D i + H j + H i) (Ej + Ei)) by (left; unfold Ei, Ej; ring).
    rewrite (F (Ei - Ej) (Ej - Ei)) by (right; ring). rewrite (F (Ei - D j) (D j - Ei)) by (right; ring).
    rewrite (F (Ei - - Ej) (Ej + Ei)) by (left; ring). rewrite (F (Ei - - D j) (D j + Ei)) by (left; ring).
    rewrite (F (D i - Ej) (Ej - D i)) by (right; ring). rewrite (F (D i - D j) (D j - D i)) by (right; ring).
    rewrite (F (D i - - Ej) (Ej + D i)) by (left; ring). rewrite (F (D i - - D j) (D j + D i)) by (left; ring).
    rewrite (F (- Ei - Ej) (Ej + Ei)) by (right; ring). rewrite (F (- Ei - D j) (D j + Ei)) by (right; ring).
    rewrite (F (- Ei - - Ej) (Ej - Ei)) by (left; ring). rewrite (F (- Ei - - D j) (D j - Ei)) by (left; ring).
    rewrite (F (- D i - Ej) (Ej + D i)) by (right; ring). rewrite (F (- D i - D j) (D j + D i)) by (right; ring).
    rewrite (F (- D i - - Ej) (Ej - D i)) by (left; ring). rewrite (F (- D i - - D j) (D j - D i)) by (left; ring).
    field.
  - apply psd_scal; [lra|]. apply psd_gauss; auto. nra.
Qed.

Lemma derive_sumn n (f : nat -> R -> R) df s : (forall i, (i < n)%nat -> is_derive (f i) s (df i)) ->
  is_derive (fun s => sumn n (fun i => f i s)) s (sumn n df).
Proof.
  induction n; intros Hd; cbn [sumn]; [apply (@is_derive_const R_AbsRing R_NormedModule)|].
  apply (@is_derive_plus R_AbsRing R_NormedModule (fun s => sumn n (fun i => f i s)) (f n)); auto.
Qed.

Lemma derive_form n (K : nat -> nat -> R -> R) dK x s : (forall i j, (i < n)%nat -> (j < n)%nat -> is_derive (K i j) s (dK i j)) ->
  is_derive (fun s => form n (fun i j => K i j s) x) s (form n dK x).
Proof.
  intros Hd. unfold form. apply (derive_sumn n (fun i s => sumn n (fun j => x i * x j * K i j s))). intros i Hi.
  apply (derive_sumn n (fun j s => x i * x j * K i j s)). intros j Hj.
  apply (is_derive_scal (K i j) s (x i * x j)). auto.
Qed.

(* the form of s times the vertical factor *)
Definition uform n (K : nat -> nat -> R) (H D : nat -> R) (x : nat -> R) (s : R) : R :=
  form n (fun i j => K i j * sw (H i) (D i) (H j) (D j) s) x.

Lemma uform_derive n K H D x s : s <> 0 ->
  is_derive (uform n K H D x) s (/ (sqrt PI * s ^ 2) * form n (fun i j => K i j * comb true true (fun q => - exp (- (q * s) ^ 2)) (H i) (D i) (H j) (D j)) x).
Proof.
  intros Hs. rewrite <- form_scal. unfold uform.
  rewrite (form_ext n _ (fun i j => K i j * (/ (sqrt PI * s ^ 2) * comb true true (fun q => - exp (- (q * s) ^ 2)) (H i) (D i) (H j) (D j)))) by (intros; ring).
  apply (derive_form n (fun i j s => K i j * sw (H i) (D i) (H j) (D j) s)). intros i j _ _.
  apply (is_derive_scal (sw (H i) (D i) (H j) (D j)) s (K i j)). apply sw_derive; auto.
Qed.

Lemma uform_incr n K H D x s1 s2 : psd n K -> 0 < s1 -> s1 <= s2 -> uform n K H D x s1 <= uform n K H D x s2.
Proof.
  intros P H1 H2. destruct (Req_dec s1 s2) as [->|Ne]; [lra|].
  set (df := fun s => / (sqrt PI * s ^ 2) * form n (fun i j => K i j * comb true true (fun q => - exp (- (q * s) ^ 2)) (H i) (D i) (H j) (D j)) x).
  destruct (MVT_gen (uform n K H D x) s1 s2 df) as (c & Hc & E).
  - intros c. rewrite Rmin_left, Rmax_right by lra. intros Hc. apply uform_derive. lra.
  - intros c. rewrite Rmin_left, Rmax_right by lra. intros Hc.
    apply derivable_continuous_pt. exists (df c). apply is_derive_Reals. apply uform_derive. lra.
  - rewrite Rmin_left, Rmax_right in Hc by lra.
    assert (0 <= df c); [|nra]. unfold df. apply Rmult_le_pos.
    + left. apply Rinv_0_lt_compat. pose proof spi. apply Rmult_lt_0_compat; auto. nra.
    + apply psd_ends; auto.
Qed.

Lemma spi_ge1 : 1 <= sqrt PI.
Proof. rewrite <- sqrt_1. apply sqrt_le_1_alt. pose proof PI2_3_2. unfold PI2 in *. lra. Qed.

Lemma erfint_sq x : 0 <= erfint x <= 2 * x ^ 2.
Proof.
  split; [apply erfint_bound|].
  assert (P : forall y, 0 <= y -> erfint y <= 2 * y ^ 2).
  { intros y Hy. unfold erfint. pose proof (erf_small y Hy) as E. pose proof spi as Sp.
    assert (exp (- y ^ 2) <= 1) by (rewrite <- exp_0; destruct (Req_dec y 0) as [->|]; [right; f_equal; ring|left; apply exp_increasing; nra]).
    assert (0 <= (1 - exp (- y ^ 2)) / sqrt PI). { apply Rmult_le_pos; [lra|]. left. apply Rinv_0_lt_compat; auto. }
    nra. }
  destruct (Rle_dec 0 x); [apply P; auto|]. rewrite <- erfint_even. replace (x ^ 2) with ((- x) ^ 2) by ring. apply P; lra.
Qed.

Lemma erfint_large x : Rabs x - 2 <= erfint x.
Proof.
  assert (P : forall y, 0 <= y -> y - 2 <= erfint y).
  { intros y Hy. unfold erfint. pose proof (erf_near_1 y Hy) as E. pose proof spi as Sp.
    assert (L : y * (2 * exp (- y ^ 2)) <= 1).
    { pose proof (exp_ineq1_le (y ^ 2)) as G. assert (exp (- y ^ 2) * exp (y ^ 2) = 1) by (rewrite <- exp_plus; replace (- y ^ 2 + y ^ 2) with 0 by ring; apply exp_0).
      pose proof (exp_pos (- y ^ 2)). assert (A2 : 2 * y <= exp (y ^ 2)) by (pose proof (pow2_ge_0 (1 - y)); lra).
      apply (Rle_trans _ (exp (- y ^ 2) * exp (y ^ 2))); [|lra]. replace (y * (2 * exp (- y ^ 2))) with (exp (- y ^ 2) * (2 * y)) by ring. apply Rmult_le_compat_l; lra. }
    assert (F : (1 - exp (- y ^ 2)) / sqrt PI <= 1).
    { apply (Rmult_le_reg_r (sqrt PI)); auto. unfold Rdiv. rewrite Rmult_assoc, Rinv_l by lra. pose proof (exp_pos (- y ^ 2)). pose proof spi_ge1. lra. }
    nra. }
  unfold Rabs. destruct (Rcase_abs x) as [N|N]; [rewrite <- (erfint_even x)|]; apply P; lra.
Qed.

(* the vertical factor is positive *)
Lemma sw_small H1 D1 H2 D2 s : 0 < s -> Rabs (sw H1 D1 H2 D2 s) <= 16 * (Rabs D1 + Rabs H1 + Rabs D2 + Rabs H2) ^ 2 * s.
Proof.
  intros Hs. unfold sw. rewrite Rabs_mult, Rabs_inv, (Rabs_pos_eq s) by lra.
  set (Q := Rabs D1 + Rabs H1 + Rabs D2 + Rabs H2).
  assert (B : Rabs (comb true true (kern s) H1 D1 H2 D2) <= 8 * (2 * Q ^ 2 * s ^ 2)).
  { apply (comb_bound true true (kern s) H1 D1 H2 D2 Q); [unfold Q; lra|]. intros q Hq. unfold kern. pose proof (erfint_sq (q * s)) as E.
    rewrite Rabs_pos_eq by lra. assert (q ^ 2 <= Q ^ 2). { rewrite <- (pow2_abs q). apply pow_incr. split; auto. apply Rabs_pos. } 
    apply (Rle_trans _ (2 * (q * s) ^ 2)); [lra|]. rewrite Rpow_mult_distr. assert (0 <= s ^ 2) by nra. nra. }
  apply (Rmult_le_reg_l s); auto. rewrite <- Rmult_assoc, Rinv_r by lra. nra.
Qed.

Lemma sumn_abs n f : Rabs (sumn n f) <= sumn n (fun i => Rabs (f i)).
Proof. induction n; cbn; [rewrite Rabs_R0; lra|]. eapply Rle_trans; [apply Rabs_triang|]. lra. Qed.

Lemma form_abs n K L x : (forall i j, (i < n)%nat -> (j < n)%nat -> Rabs (K i j) <= L i j) -> Rabs (form n K x) <= form n L (fun i => Rabs (x i)).
Proof.
  intros B. unfold form. eapply Rle_trans; [apply sumn_abs|]. apply sumn_le; intros i Hi.
  eapply Rle_trans; [apply sumn_abs|]. apply sumn_le; intros j Hj. rewrite !Rabs_mult.
  apply Rmult_le_compat_l; auto. apply Rmult_le_pos; apply Rabs_pos.
Qed.

Lemma uform_nonneg n K H D x s : psd n K -> 0 < s -> 0 <= uform n K H D x s.
Proof.
  intros P Hs. destruct (Rle_dec 0 (uform n K H D x s)) as [|N]; auto. exfalso.
  set (B := form n (fun i j => Rabs (K i j) * (16 * (Rabs (D i) + Rabs (H i) + Rabs (D j) + Rabs (H j)) ^ 2)) (fun i => Rabs (x i))).
  assert (E : forall e, 0 < e -> Rabs (uform n K H D x e) <= B * e).
  { intros e He. unfold uform, B. rewrite Rmult_comm, <- form_scal.
    apply form_abs. intros i j _ _. rewrite Rabs_mult. pose proof (sw_small (H i) (D i) (H j) (D j) e He) as S1. pose proof (Rabs_pos (K i j)). nra. }
  assert (B0 : 0 <= B). { pose proof (E 1 ltac:(lra)). pose proof (Rabs_pos (uform n K H D x 1)). lra. }
  set (v := uform n K H D x s) in *.
  set (e := Rmin s (- v / (2 * (B + 1)))).
  assert (Pe : 0 < - v / (2 * (B + 1))). { apply Rdiv_lt_0_compat; lra. }
  assert (He : 0 < e) by (unfold e; apply Rmin_glb_lt; auto).
  pose proof (uform_incr n K H D x e s P He (Rmin_l _ _)) as I. fold v in I.
  pose proof (E e He) as A. pose proof (Rle_abs (- uform n K H D x e)) as A2. rewrite Rabs_Ropp in A2.
  pose proof (Rmin_r s (- v / (2 * (B + 1)))) as M. fold e in M.
  assert (B * e <= - v / 2). { apply (Rle_trans _ ((B + 1) * (- v / (2 * (B + 1))))); [|right; field; lra]. apply Rmult_le_compat; lra. }
  lra.
Qed.

(* for large s only the segments themselves remain *)
Lemma sw_large H1 D1 H2 D2 s : 0 < s -> Rabs (sw H1 D1 H2 D2 s - comb true true Rabs H1 D1 H2 D2) <= 16 / s.
Proof.
  intros Hs. unfold sw. rewrite <- comb_scal.
  replace (comb true true (fun q => / s * kern s q) H1 D1 H2 D2 - comb true true Rabs H1 D1 H2 D2)
    with (comb true true (fun q => / s * kern s q + - 1 * Rabs q) H1 D1 H2 D2) by (rewrite comb_plus, (comb_scal true true (- 1) Rabs); ring).
  replace (16 / s) with (8 * (2 / s)) by (field; lra).
  apply (comb_bound true true _ H1 D1 H2 D2 (Rabs D1 + Rabs H1 + Rabs D2 + Rabs H2)); [lra|]. intros q _.
  unfold kern. pose proof (erfint_bound (q * s)) as B. pose proof (erfint_large (q * s)) as L. rewrite Rabs_mult, (Rabs_pos_eq s) in * by lra.
  assert (I : 0 < / s) by (apply Rinv_0_lt_compat; auto).
  assert (E : / s * erfint (q * s) + - 1 * Rabs q = / s * (erfint (q * s) - Rabs q * s)) by (field; lra).
  rewrite E. unfold Rdiv. rewrite Rabs_mult, (Rabs_pos_eq (/ s)), Rmult_comm by lra. apply Rmult_le_compat_r; [lra|]. apply Rabs_le. lra.
Qed.

Lemma ends_self H D : 0 <= H -> 0 <= D -> comb true true Rabs H D H D = 2 * H.
Proof.
  intros. unfold comb. rewrite (Rabs_pos_eq (D - D + H)), (Rabs_pos_eq (D - D)), (Rabs_left1 (D - D - H)), (Rabs_pos_eq (D - D + H - H)) by lra.
  rewrite !Rabs_pos_eq by lra. ring.
Qed.

Lemma ends_apart H1 D1 H2 D2 : 0 <= H1 -> 0 <= D1 -> 0 <= H2 -> 0 <= D2 -> D1 + H1 <= D2 \/ D2 + H2 <= D1 -> comb true true Rabs H1 D1 H2 D2 = 0.
Proof.
  intros ? ? ? ? [A|A]; unfold comb.
  - rewrite !Rabs_pos_eq by lra. ring.
  - rewrite (Rabs_left1 (D2 - D1 + H2)), (Rabs_left1 (D2 - D1)), (Rabs_left1 (D2 - D1 - H1)), (Rabs_left1 (D2 - D1 + H2 - H1)) by lra.
    rewrite !Rabs_pos_eq by lra. ring.
Qed.
