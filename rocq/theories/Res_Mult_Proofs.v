(* The multipole method does not see turns, mirror images or the unit of length. *)
From Coq Require Import Reals Lra Lia List Bool FunctionalExtensionality.
From Verif Require Import Base LinAlg Bore_Model Net_Model Pipe_Model Res_Model Res_Spec.
From Coquelicot Require Import Coquelicot.
Import ListNotations.
Local Open Scope C_scope.

Lemma C_ext (x y : C) : fst x = fst y -> snd x = snd y -> x = y.
Proof. destruct x, y. cbn. intros -> ->. reflexivity. Qed.

Lemma conj_mult x y : Cconj (x * y) = Cconj x * Cconj y.
Proof. apply C_ext; cbn; ring. Qed.
Lemma conj_plus x y : Cconj (x + y) = Cconj x + Cconj y.
Proof. apply C_ext; cbn; ring. Qed.
Lemma conj_opp x : Cconj (- x) = - Cconj x.
Proof. apply C_ext; cbn; ring. Qed.
Lemma conj_minus x y : Cconj (x - y) = Cconj x - Cconj y.
Proof. apply C_ext; cbn; ring. Qed.
Lemma conj_R r : Cconj (RtoC r) = RtoC r.
Proof. apply C_ext; cbn; ring. Qed.
Lemma conj_conj x : Cconj (Cconj x) = x.
Proof. apply C_ext; cbn; ring. Qed.
Lemma conj_inv x : Cconj (/ x) = / Cconj x.
Proof.
  apply C_ext; cbn.
  - replace (- snd x * (- snd x * 1))%R with (snd x * (snd x * 1))%R by ring. reflexivity.
  - replace (- snd x * (- snd x * 1))%R with (snd x * (snd x * 1))%R by ring. unfold Rdiv. ring.
Qed.
Lemma Cmod_conj x : Cmod (Cconj x) = Cmod x.
Proof. unfold Cmod. cbn. f_equal. ring. Qed.
Lemma Cmod_R_conj r x : Cmod (RtoC r - Cconj x) = Cmod (RtoC r - x).
Proof. rewrite <- (conj_R r) at 1. rewrite <- conj_minus. apply Cmod_conj. Qed.
Lemma Re_conj x : Re (Cconj x) = Re x. Proof. reflexivity. Qed.

Lemma Cinv_0 : / RtoC 0 = RtoC 0.
Proof. apply C_ext; cbn; unfold Rdiv; ring. Qed.
Lemma C_dec (x : C) : x = RtoC 0 \/ x <> RtoC 0.
Proof.
  destruct x as [a b]. destruct (Req_dec a 0) as [->|N]; [|right; intros E; injection E; auto].
  destruct (Req_dec b 0) as [->|N]; [left; reflexivity|right; intros E; injection E; auto].
Qed.
Lemma Cinv_m x y : / (x * y) = / x * / y.
Proof.
  destruct (C_dec x) as [->|Nx]. { rewrite Cmult_0_l, Cinv_0, Cmult_0_l. reflexivity. }
  destruct (C_dec y) as [->|Ny]. { rewrite Cmult_0_r, Cinv_0, Cmult_0_r. reflexivity. }
  field. split; auto.
Qed.

Lemma cpow_mult x y k : cpow (x * y) k = cpow x k * cpow y k.
Proof. induction k as [|k IH]; cbn [cpow]; [ring|rewrite IH; ring]. Qed.
Lemma cpow_add x k l : cpow x (k + l) = cpow x k * cpow x l.
Proof. induction k as [|k IH]; cbn [cpow Nat.add]; [ring|rewrite IH; ring]. Qed.
Lemma cpow_conj x k : cpow (Cconj x) k = Cconj (cpow x k).
Proof. induction k as [|k IH]; cbn [cpow]; [rewrite conj_R; reflexivity|rewrite IH, conj_mult; reflexivity]. Qed.
Lemma cpow_R r k : cpow (RtoC r) k = RtoC (r ^ k).
Proof. induction k as [|k IH]; cbn [cpow pow]; [reflexivity|rewrite IH, RtoC_mult; reflexivity]. Qed.
Lemma cpow_inv x k : cpow (/ x) k = / cpow x k.
Proof.
  induction k as [|k IH]; cbn [cpow]; [|rewrite IH, Cinv_m; reflexivity].
  apply C_ext; cbn; field.
Qed.
Lemma cpow_nz x k : x <> RtoC 0 -> cpow x k <> RtoC 0.
Proof. intros N. induction k as [|k IH]; cbn [cpow]; [intros E; injection E; lra|apply Cmult_neq_0; auto]. Qed.
Lemma cpow_1 k : cpow (RtoC 1) k = RtoC 1.
Proof. induction k as [|k IH]; cbn [cpow]; [reflexivity|rewrite IH; ring]. Qed.
Lemma Cmod_cpow x k : Cmod (cpow x k) = (Cmod x ^ k)%R.
Proof. induction k as [|k IH]; cbn [cpow pow]; [apply Cmod_1|rewrite Cmod_mult, IH; reflexivity]. Qed.

Lemma csum_ext n f g : (forall i, (i < n)%nat -> f i = g i) -> csum n f = csum n g.
Proof. induction n as [|n IH]; intros H; cbn [csum]; [reflexivity|rewrite IH, (H n); auto]. Qed.
Lemma csum_scal n k f : csum n (fun i => k * f i) = k * csum n f.
Proof. induction n as [|n IH]; cbn [csum]; [ring|rewrite IH; ring]. Qed.
Lemma csum_conj n f : csum n (fun i => Cconj (f i)) = Cconj (csum n f).
Proof. induction n as [|n IH]; cbn [csum]; [rewrite conj_R; reflexivity|rewrite IH, conj_plus; reflexivity]. Qed.

Lemma other_scal n m k f g : (forall i, (i < n)%nat -> f i = k * g i) -> csum_other n m f = k * csum_other n m g.
Proof.
  intros H. unfold csum_other. rewrite <- csum_scal. apply csum_ext. intros i Hi.
  destruct (Nat.eqb i m); [ring|auto].
Qed.
Lemma sum_scal n k f g : (forall i, (i < n)%nat -> f i = k * g i) -> csum n f = k * csum n g.
Proof. intros H. rewrite <- csum_scal. apply csum_ext. exact H. Qed.
Lemma other_conj n m f g : (forall i, (i < n)%nat -> f i = Cconj (g i)) -> csum_other n m f = Cconj (csum_other n m g).
Proof.
  intros H. unfold csum_other. rewrite <- csum_conj. apply csum_ext. intros i Hi.
  destruct (Nat.eqb i m); [rewrite conj_R; reflexivity|auto].
Qed.
Lemma sum_conj n f g : (forall i, (i < n)%nat -> f i = Cconj (g i)) -> csum n f = Cconj (csum n g).
Proof. intros H. rewrite <- csum_conj. apply csum_ext. exact H. Qed.

Lemma find_ext {A} (f g : A -> bool) l : (forall x, f x = g x) -> find f l = find g l.
Proof. intros H. induction l as [|x l IH]; cbn; [reflexivity|rewrite H, IH; reflexivity]. Qed.

(* What both kinds of change share: the poles are multiplied or conjugated without
   change of modulus. *)
Section Iteration.
Variables (s s' : section) (q : nat -> R) (J : nat) (rel : poles -> poles -> Prop).
Hypothesis (En : s_n s' = s_n s).
Hypothesis (R0 : rel no_poles no_poles).
Hypothesis (Rnew : forall P P', rel P P' -> rel (new_poles s q P J) (new_poles s' q P' J)).
Hypothesis (Rmod : forall P P' Q Q', rel P P' -> rel Q Q' -> changes s' P' Q' J = changes s P Q J).

Lemma spread_rel P P' Q Q' : rel P P' -> rel Q Q' -> spread s' P' Q' J = spread s P Q J.
Proof. intros A B. unfold spread. rewrite (Rmod P P' Q Q'); auto. Qed.

Lemma iterate_rel eps d0 fuel : forall P P' it e, rel P P' ->
  let '(A, i, x) := iterate s q J eps d0 fuel P it e in
  let '(B, i', x') := iterate s' q J eps d0 fuel P' it e in
  rel A B /\ i' = i /\ x' = x.
Proof.
  induction fuel as [|fuel IH]; intros P P' it e H; cbn [iterate]; [auto|].
  destruct (Rltb eps e); [|auto].
  rewrite (spread_rel P P' (new_poles s q P J) (new_poles s' q P' J)) by auto. apply IH. auto.
Qed.

Lemma solve_rel : let '(A, i, x) := mp_poles s q J in let '(B, i', x') := mp_poles s' q J in rel A B /\ i' = i /\ x' = x.
Proof.
  unfold mp_poles. destruct (Nat.eqb J 0); [auto|]. unfold solve_poles.
  rewrite (spread_rel no_poles no_poles (new_poles s q no_poles J) (new_poles s' q no_poles J)) by auto.
  apply iterate_rel. auto.
Qed.
End Iteration.

Section Similar.
Variables (s : section) (rho : R) (om : C).
Hypothesis (Rp : (0 < rho)%R) (Uo : om * Cconj om = RtoC 1).
Let la := RtoC rho * om.
Let s' := mksection (s_n s) (fun i => la * s_z s i) (fun i => (rho * s_r s i)%R) (s_Rfp s) (rho * s_rb s)%R (s_ks s) (s_kg s).

Lemma rho_nz : RtoC rho <> RtoC 0. Proof. intros E. injection E. lra. Qed.
Lemma om_nz : om <> RtoC 0.
Proof. intros E. rewrite E, Cmult_0_l in Uo. injection Uo. lra. Qed.
Lemma om_inv : / om = Cconj om.
Proof. pose proof om_nz. transitivity (/ om * (om * Cconj om)); [rewrite Uo; ring|]. field. auto. Qed.
Lemma Cmod_om : Cmod om = 1%R.
Proof.
  assert (E : (Cmod om * Cmod om = 1)%R).
  { rewrite <- (Cmod_conj om) at 2. rewrite <- Cmod_mult, Uo. apply Cmod_1. }
  pose proof (Cmod_ge_0 om). nra.
Qed.
Lemma Cmod_la z : Cmod (la * z) = (rho * Cmod z)%R.
Proof. unfold la. rewrite !Cmod_mult, Cmod_om, Cmod_R, Rabs_pos_eq by lra. ring. Qed.
Lemma la_conj : la * Cconj la = RtoC (rho ^ 2).
Proof. unfold la. rewrite conj_mult, conj_R. replace (rho ^ 2)%R with (rho * rho)%R by ring. rewrite RtoC_mult.
  transitivity (RtoC rho * RtoC rho * (om * Cconj om)); [ring|rewrite Uo; ring]. Qed.

Lemma dz_sim m n : dz s' m n = la * dz s m n.
Proof. unfold dz, s'. cbn [s_z]. ring. Qed.
Lemma rb2 : RtoC ((rho * s_rb s) ^ 2) = RtoC (rho ^ 2) * RtoC (s_rb s ^ 2).
Proof. rewrite <- RtoC_mult. f_equal. ring. Qed.
Lemma zz_sim m n : zz s' m n = RtoC (rho ^ 2) * zz s m n.
Proof.
  unfold zz, s'. cbn [s_z s_rb]. rewrite rb2, conj_mult, <- la_conj.
  rewrite la_conj. rewrite <- la_conj at 2. rewrite <- la_conj. ring.
Qed.
Lemma zz_sim' x y : RtoC ((rho * s_rb s) ^ 2) - Cconj (la * x) * (la * y) = RtoC (rho ^ 2) * (RtoC (s_rb s ^ 2) - Cconj x * y).
Proof. rewrite rb2, conj_mult, <- la_conj. ring. Qed.
Lemma zz_sim2 x y : RtoC ((rho * s_rb s) ^ 2) - la * x * Cconj (la * y) = RtoC (rho ^ 2) * (RtoC (s_rb s ^ 2) - x * Cconj y).
Proof. rewrite rb2, conj_mult, <- la_conj. ring. Qed.

Definition twisted (P P' : poles) : Prop := forall m j, P' m j = cpow om (S j) * P m j.

Lemma pow_rho r k : RtoC ((rho * r) ^ k) = cpow (RtoC rho) k * RtoC (r ^ k).
Proof. rewrite Rpow_mult_distr, RtoC_mult, cpow_R. reflexivity. Qed.

Lemma cancel1 k : cpow (RtoC rho) k * / cpow la k = cpow (Cconj om) k.
Proof.
  rewrite <- cpow_inv, <- cpow_mult. f_equal. unfold la. rewrite Cinv_m, om_inv. pose proof rho_nz. field. auto.
Qed.

Lemma F1_sim q m k : F1 s' q m k = cpow (Cconj om) (S k) * F1 s q m k.
Proof.
  unfold F1. change (s_n s') with (s_n s). change (s_r s' m) with (rho * s_r s m)%R. change (pikg s') with (pikg s).
  rewrite (other_scal (s_n s) m (/ cpow la (S k)) _ (fun n => RtoC (q n) / cpow (- dz s m n) (S k))).
  - rewrite <- cancel1. unfold Rdiv. rewrite !RtoC_mult, pow_rho. ring.
  - intros n _. rewrite dz_sim. replace (- (la * dz s m n)) with (la * - dz s m n) by ring.
    rewrite cpow_mult. unfold Cdiv. rewrite Cinv_m. ring.
Qed.

Lemma cancel2 k : cpow (RtoC rho) k * (cpow (Cconj la) k * / cpow (RtoC (rho ^ 2)) k) = cpow (Cconj om) k.
Proof.
  rewrite <- cpow_inv, <- !cpow_mult. f_equal. unfold la. rewrite conj_mult, conj_R. cbn [pow]. rewrite Rmult_1_r, RtoC_mult.
  pose proof rho_nz. field. auto.
Qed.

Lemma F2_sim q m k : F2 s' q m k = cpow (Cconj om) (S k) * F2 s q m k.
Proof.
  unfold F2. change (s_n s') with (s_n s). change (s_r s' m) with (rho * s_r s m)%R. change (pikg s') with (pikg s). change (sig s') with (sig s).
  rewrite (sum_scal (s_n s) (cpow (Cconj la) (S k) * / cpow (RtoC (rho ^ 2)) (S k)) _
     (fun n => RtoC (q n) * cpow (Cconj (s_z s n)) (S k) / cpow (zz s m n) (S k))).
  - rewrite <- cancel2. unfold Rdiv. rewrite !RtoC_mult, pow_rho. ring.
  - intros n _. rewrite zz_sim. change (s_z s' n) with (la * s_z s n). rewrite conj_mult, !cpow_mult. unfold Cdiv. rewrite Cinv_m. ring.
Qed.

Lemma cancel3 k j : cpow (RtoC rho) (S k) * (cpow om (S j) * cpow (RtoC rho) (S j) * / cpow la (j + k + 2)) = cpow (Cconj om) (S k).
Proof.
  replace (j + k + 2)%nat with (S k + S j)%nat by lia. rewrite cpow_add, Cinv_m.
  rewrite <- (cancel1 (S k)). unfold la at 2. rewrite cpow_mult. rewrite (Cinv_m (cpow (RtoC rho) (S j))).
  pose proof (cpow_nz _ (S j) rho_nz). pose proof (cpow_nz _ (S j) om_nz). unfold la.
  pose proof (cpow_nz _ (S k) (Cmult_neq_0 _ _ rho_nz om_nz)). field. auto.
Qed.

Lemma F3_sim P P' m k j : twisted P P' -> F3 s' P' m k j = cpow (Cconj om) (S k) * F3 s P m k j.
Proof.
  intros T. unfold F3. change (s_n s') with (s_n s). change (s_r s' m) with (rho * s_r s m)%R.
  rewrite (other_scal (s_n s) m (cpow om (S j) * cpow (RtoC rho) (S j) * / cpow la (j + k + 2)) _
    (fun n => P n j * RtoC (s_r s n ^ S j) / cpow (dz s m n) (j + k + 2))).
  - rewrite <- (cancel3 k j). replace (- (rho * s_r s m))%R with (rho * - s_r s m)%R by ring. rewrite !RtoC_mult, pow_rho. ring.
  - intros n _. rewrite T, dz_sim. change (s_r s' n) with (rho * s_r s n)%R. rewrite pow_rho, cpow_mult. unfold Cdiv. rewrite Cinv_m. ring.
Qed.

Lemma cancel4 a b c : cpow (RtoC rho) (b + c) * cpow la a
    * (cpow (Cconj om) (a + c) * cpow (RtoC rho) (a + c) * cpow (Cconj la) b * / cpow (RtoC (rho ^ 2)) (a + b + c))
  = cpow (Cconj om) (b + c).
Proof.
  unfold la. replace (RtoC (rho ^ 2)) with (RtoC rho * RtoC rho) by (rewrite <- RtoC_mult; f_equal; ring).
  rewrite conj_mult, conj_R. rewrite !cpow_mult, !cpow_add.
  pose proof (cpow_nz _ a rho_nz). pose proof (cpow_nz _ b rho_nz). pose proof (cpow_nz _ c rho_nz).
  assert (U : cpow om a * cpow (Cconj om) a = RtoC 1) by (rewrite <- cpow_mult, Uo; apply cpow_1).
  set (ra := cpow (RtoC rho) a) in *. set (rb := cpow (RtoC rho) b) in *. set (rc := cpow (RtoC rho) c) in *.
  set (oa := cpow om a) in *. set (ca := cpow (Cconj om) a) in *. set (cb := cpow (Cconj om) b). set (cc := cpow (Cconj om) c).
  transitivity (oa * ca * (cb * cc)); [|rewrite U; ring]. field. auto.
Qed.

Lemma F4_sim P P' m k j jp : twisted P P' -> (jp < min k j + 2)%nat -> F4 s' P' m k j jp = cpow (Cconj om) (S k) * F4 s P m k j jp.
Proof.
  intros T Hj. unfold F4. change (s_n s') with (s_n s). change (s_r s' m) with (rho * s_r s m)%R. change (sig s') with (sig s).
  change (s_z s' m) with (la * s_z s m).
  assert (Ej : S j = (j + 1 - jp + jp)%nat) by lia. assert (Ek : S k = (k + 1 - jp + jp)%nat) by lia.
  assert (Es : (k + j + 2 - jp)%nat = (j + 1 - jp + (k + 1 - jp) + jp)%nat) by lia.
  set (a := (j + 1 - jp)%nat) in *. set (b := (k + 1 - jp)%nat) in *.
  rewrite (sum_scal (s_n s) (cpow (Cconj om) (a + jp) * cpow (RtoC rho) (a + jp) * cpow (Cconj la) b * / cpow (RtoC (rho ^ 2)) (a + b + jp)) _
    (fun n => Cconj (P n j) * RtoC (s_r s n ^ S j) * cpow (Cconj (s_z s n)) b / cpow (zz s m n) (k + j + 2 - jp))).
  - replace (cpow (Cconj om) (S k)) with (cpow (Cconj om) (b + jp)) by (rewrite <- Ek; reflexivity). rewrite <- (cancel4 a b jp). rewrite cpow_mult, !RtoC_mult, pow_rho. rewrite <- Ek. ring.
  - intros n _. rewrite T, zz_sim, conj_mult, <- cpow_conj. change (s_r s' n) with (rho * s_r s n)%R. change (s_z s' n) with (la * s_z s n).
    rewrite pow_rho, conj_mult, !cpow_mult. unfold Cdiv. rewrite Cinv_m. rewrite <- Ej, <- Es. ring.
Qed.

Lemma F_sim q P P' J m k : twisted P P' -> F_mk s' q P' J m k = cpow (Cconj om) (S k) * F_mk s q P J m k.
Proof.
  intros T. unfold F_mk. rewrite F1_sim, F2_sim.
  rewrite (sum_scal J (cpow (Cconj om) (S k)) _ (fun j => F3 s P m k j + csum (min k j + 2) (fun jp => F4 s P m k j jp))); [ring|].
  intros j _. rewrite (F3_sim P P') by auto.
  rewrite (sum_scal (min k j + 2) (cpow (Cconj om) (S k)) _ (fun jp => F4 s P m k j jp)); [ring|].
  intros jp Hj. apply F4_sim; auto.
Qed.

Lemma new_sim q J P P' : twisted P P' -> twisted (new_poles s q P J) (new_poles s' q P' J).
Proof.
  intros T m k. unfold new_poles. rewrite (F_sim q P P') by auto.
  change (coeff s' m k) with (coeff s m k). rewrite conj_mult, <- cpow_conj, conj_conj. ring.
Qed.

Lemma changes_sim P P' Q Q' J : twisted P P' -> twisted Q Q' -> changes s' P' Q' J = changes s P Q J.
Proof.
  intros A B. unfold changes. change (s_n s') with (s_n s). apply flat_map_ext. intros m. apply map_ext. intros k.
  rewrite A, B. replace (cpow om (S k) * Q m k - cpow om (S k) * P m k) with (cpow om (S k) * (Q m k - P m k)) by ring.
  rewrite Cmod_mult, Cmod_cpow, Cmod_om, pow1. ring.
Qed.

Lemma poles_sim q J : let '(A, i, x) := mp_poles s q J in let '(B, i', x') := mp_poles s' q J in twisted A B /\ i' = i /\ x' = x.
Proof.
  apply solve_rel.
  - intros m j. unfold no_poles. ring.
  - intros P P'. apply new_sim.
  - intros P P' Q Q'. apply changes_sim.
Qed.

Lemma ratio_sim x y : (rho * x / (rho * y) = x / y)%R.
Proof. unfold Rdiv. rewrite Rinv_mult. transitivity (rho * / rho * (x * / y))%R; [ring|]. rewrite Rinv_r by lra. ring. Qed.
Lemma ratio_sim2 x y : ((rho * x) ^ 2 / (rho ^ 2 * y) = x ^ 2 / y)%R.
Proof.
  unfold Rdiv. rewrite Rinv_mult. transitivity (rho ^ 2 * / rho ^ 2 * (x ^ 2 * / y))%R; [ring|].
  rewrite Rinv_r by (apply pow_nonzero; lra). ring.
Qed.

Lemma R0_sim i j : mpR0 s' i j = mpR0 s i j.
Proof.
  unfold mpR0. change (pikg s') with (pikg s). change (sig s') with (sig s). change (beta s' i) with (beta s i).
  unfold s'. cbn [s_rb s_r s_z]. rewrite !Cmod_la, ratio_sim.
  replace ((rho * s_rb s) ^ 2 - (rho * Cmod (s_z s i)) ^ 2)%R with (rho ^ 2 * (s_rb s ^ 2 - Cmod (s_z s i) ^ 2))%R by ring.
  rewrite ratio_sim2. replace (la * s_z s i - la * s_z s j) with (la * (s_z s i - s_z s j)) by ring.
  rewrite Cmod_la, ratio_sim, zz_sim', Cmod_mult, Cmod_R, Rabs_pos_eq by (apply pow2_ge_0).
  rewrite ratio_sim2. reflexivity.
Qed.

Lemma cancel5 j : cpow om j * cpow (RtoC rho) j * / cpow la j = RtoC 1.
Proof.
  unfold la. rewrite cpow_mult. pose proof (cpow_nz _ j rho_nz). pose proof (cpow_nz _ j om_nz). field. auto.
Qed.
Lemma cancel6 j : cpow (Cconj la) j * (cpow om j * cpow (RtoC rho) j * / cpow (RtoC (rho ^ 2)) j) = RtoC 1.
Proof.
  rewrite <- cpow_inv, <- !cpow_mult. rewrite <- (cpow_1 j). f_equal. unfold la. rewrite conj_mult, conj_R. cbn [pow]. rewrite Rmult_1_r, RtoC_mult.
  pose proof rho_nz. transitivity (om * Cconj om * (RtoC rho * RtoC rho * / (RtoC rho * RtoC rho))); [ring|]. rewrite Uo. field. auto.
Qed.

Lemma T_order_sim P P' m j : twisted P P' -> T_order s' P' m j = T_order s P m j.
Proof.
  intros T. unfold T_order. change (s_n s') with (s_n s). change (sig s') with (sig s).
  rewrite (other_scal (s_n s) m (RtoC 1) _ (fun n => P n j * RtoC (s_r s n ^ S j) / cpow (dz s m n) (S j))).
  2:{ intros n _. rewrite T, dz_sim. change (s_r s' n) with (rho * s_r s n)%R. rewrite pow_rho, cpow_mult. unfold Cdiv. rewrite Cinv_m.
      rewrite <- (cancel5 (S j)). ring. }
  rewrite (sum_scal (s_n s) (cpow om (S j) * cpow (RtoC rho) (S j) * / cpow (RtoC (rho ^ 2)) (S j)) _
    (fun n => P n j * RtoC (s_r s n ^ S j) / cpow (RtoC (s_rb s ^ 2) - Cconj (s_z s m) * s_z s n) (S j))).
  2:{ intros n _. rewrite T. change (s_r s' n) with (rho * s_r s n)%R. unfold s'. cbn [s_rb s_z]. rewrite zz_sim'.
      rewrite pow_rho, cpow_mult. unfold Cdiv. rewrite Cinv_m. ring. }
  change (s_z s' m) with (la * s_z s m). rewrite Cmult_1_l. f_equal. f_equal. f_equal.
  rewrite conj_mult, cpow_mult.
  match goal with |- ?l = _ => transitivity (RtoC 1 * l); [ring|] end.
  match goal with |- RtoC 1 * (cpow (Cconj la) (S j) * ?x * (?k * ?y)) = _ =>
    transitivity ((cpow (Cconj la) (S j) * k) * (x * y)); [ring|rewrite (cancel6 (S j)); ring] end.
Qed.

Lemma fluid_sim Tb q P P' J m : twisted P P' -> fluid_T s' Tb q P' J m = fluid_T s Tb q P J m.
Proof.
  intros T. unfold fluid_T. change (s_n s') with (s_n s). f_equal; [f_equal|]; apply sumn_ext; intros n _.
  - rewrite R0_sim. reflexivity.
  - apply T_order_sim. auto.
Qed.

Lemma leb_sim x y : Rleb (rho * x) (rho * y) = Rleb x y.
Proof. apply eq_iff_eq_true. rewrite !Rleb_true. split; intros H; [apply Rmult_le_reg_l with rho; lra|apply Rmult_le_compat_l; lra]. Qed.

Lemma W0_sim z n : W0 s' (la * z) n = W0 s z n.
Proof.
  unfold W0. change (sig s') with (sig s). unfold s'. cbn [s_rb s_z]. rewrite Cmod_la, leb_sim, ratio_sim.
  replace (la * z - la * s_z s n) with (la * (z - s_z s n)) by ring. rewrite Cmod_la, ratio_sim.
  rewrite zz_sim2. rewrite Cmod_mult, Cmod_R, Rabs_pos_eq by apply pow2_ge_0. rewrite ratio_sim2. reflexivity.
Qed.

Lemma WJ_sim z n j : WJ s' (la * z) n j = cpow (Cconj om) (S j) * WJ s z n j.
Proof.
  unfold WJ. change (sig s') with (sig s). unfold s'. cbn [s_rb s_z s_r]. rewrite Cmod_la, leb_sim.
  replace (la * z - la * s_z s n) with (la * (z - s_z s n)) by ring.
  assert (E1 : RtoC (rho * s_r s n) / (la * (z - s_z s n)) = Cconj om * (RtoC (s_r s n) / (z - s_z s n))).
  { unfold Cdiv. rewrite RtoC_mult. unfold la. rewrite !Cinv_m, om_inv. pose proof rho_nz.
    transitivity (RtoC rho * / RtoC rho * (Cconj om * (RtoC (s_r s n) * / (z - s_z s n)))); [ring|]. rewrite Cinv_r by auto. ring. }
  assert (E2 : RtoC (rho * s_r s n) * Cconj (la * z) / (RtoC ((rho * s_rb s) ^ 2) - la * s_z s n * Cconj (la * z))
     = Cconj om * (RtoC (s_r s n) * Cconj z / (RtoC (s_rb s ^ 2) - s_z s n * Cconj z))).
  { rewrite zz_sim2. unfold Cdiv. rewrite Cinv_m, RtoC_mult, conj_mult. unfold la. rewrite conj_mult, conj_R.
    replace (RtoC (rho ^ 2)) with (RtoC rho * RtoC rho) by (rewrite <- RtoC_mult; f_equal; ring). rewrite Cinv_m. pose proof rho_nz.
    transitivity (RtoC rho * / RtoC rho * (RtoC rho * / RtoC rho) * (Cconj om * (RtoC (s_r s n) * Cconj z * / (RtoC (s_rb s ^ 2) - s_z s n * Cconj z)))); [ring|].
    rewrite Cinv_r by auto. ring. }
  rewrite E1, E2, !cpow_mult. destruct (Rleb (Cmod z) (s_rb s)); ring.
Qed.

Lemma outside_sim Tb q P P' J z : twisted P P' -> outside_T s' Tb q P' J (la * z) = outside_T s Tb q P J z.
Proof.
  intros T. unfold outside_T. change (s_n s') with (s_n s). change (pikg s') with (pikg s). f_equal. apply sumn_ext. intros n _.
  rewrite W0_sim. f_equal. apply sumn_ext. intros j _. rewrite WJ_sim, T. f_equal.
  assert (U : cpow om (S j) * cpow (Cconj om) (S j) = RtoC 1) by (rewrite <- cpow_mult, Uo; apply cpow_1).
  transitivity (cpow om (S j) * cpow (Cconj om) (S j) * (P n j * WJ s z n j)); [ring|]. rewrite U. ring.
Qed.

Lemma field_sim Tb q P P' J z : twisted P P' -> field_T s' Tb q P' J (la * z) = field_T s Tb q P J z.
Proof.
  intros T. unfold field_T. change (s_n s') with (s_n s).
  rewrite (find_ext _ (fun n => Rltb (Cmod (z - s_z s n) / s_r s n) 1)).
  - destruct (find _ _); [apply fluid_sim; auto|apply outside_sim; auto].
  - intros n. unfold s'. cbn [s_z s_r]. replace (la * z - la * s_z s n) with (la * (z - s_z s n)) by ring.
    rewrite Cmod_la, ratio_sim. reflexivity.
Qed.

Theorem multipole_sim Tb q J :
  let '(T, field, it, e) := multipole s Tb q J in
  let '(T', field', it', e') := multipole s' Tb q J in
  (forall m, T' m = T m) /\ (forall z, field' (la * z) = field z) /\ it' = it /\ e' = e.
Proof.
  unfold multipole. assert (H := poles_sim q J). destruct (mp_poles s q J) as [[A i] x].
  destruct (mp_poles s' q J) as [[B i'] x']. destruct H as (T & -> & ->).
  split; [intros m; apply fluid_sim; auto|]. split; [intros z; apply field_sim; auto|auto].
Qed.
End Similar.

Section Mirror.
Variables (s : section).
Let s' := mksection (s_n s) (fun i => Cconj (s_z s i)) (s_r s) (s_Rfp s) (s_rb s) (s_ks s) (s_kg s).

Definition conjugate (P P' : poles) : Prop := forall m j, P' m j = Cconj (P m j).

Lemma dz_mir m n : dz s' m n = Cconj (dz s m n).
Proof. unfold dz, s'. cbn [s_z]. rewrite conj_minus. reflexivity. Qed.
Lemma zz_mir m n : zz s' m n = Cconj (zz s m n).
Proof. unfold zz, s'. cbn [s_z s_rb]. rewrite conj_minus, conj_mult, conj_R. reflexivity. Qed.

Lemma F_mir q P P' J m k : conjugate P P' -> F_mk s' q P' J m k = Cconj (F_mk s q P J m k).
Proof.
  intros T. unfold F_mk. rewrite !conj_plus, <- csum_conj. f_equal; [f_equal|].
  - unfold F1. rewrite conj_mult, conj_R. f_equal. apply other_conj. intros n _. unfold Cdiv.
    rewrite dz_mir, conj_mult, conj_R, conj_inv, <- cpow_conj, conj_opp. reflexivity.
  - unfold F2. rewrite conj_mult, conj_R. f_equal. apply sum_conj. intros n _. unfold Cdiv.
    rewrite zz_mir, !conj_mult, conj_R, conj_inv, <- !cpow_conj. reflexivity.
  - apply csum_ext. intros j _. rewrite conj_plus, <- csum_conj. f_equal.
    + unfold F3. rewrite conj_mult, conj_R. f_equal. apply other_conj. intros n _. unfold Cdiv.
      rewrite dz_mir, !conj_mult, conj_R, conj_inv, <- cpow_conj, T. reflexivity.
    + apply csum_ext. intros jp _. unfold F4. rewrite !conj_mult, conj_R, <- cpow_conj. f_equal. apply sum_conj. intros n _. unfold Cdiv.
      rewrite zz_mir, !conj_mult, conj_R, conj_inv, <- !cpow_conj, T. reflexivity.
Qed.

Lemma new_mir q J P P' : conjugate P P' -> conjugate (new_poles s q P J) (new_poles s' q P' J).
Proof.
  intros T m k. unfold new_poles. rewrite (F_mir q P P') by auto. rewrite conj_mult, conj_R. reflexivity.
Qed.

Lemma changes_mir P P' Q Q' J : conjugate P P' -> conjugate Q Q' -> changes s' P' Q' J = changes s P Q J.
Proof.
  intros A B. unfold changes. change (s_n s') with (s_n s). apply flat_map_ext. intros m. apply map_ext. intros k.
  rewrite A, B, <- conj_minus, Cmod_conj. reflexivity.
Qed.

Lemma poles_mir q J : let '(A, i, x) := mp_poles s q J in let '(B, i', x') := mp_poles s' q J in conjugate A B /\ i' = i /\ x' = x.
Proof.
  apply solve_rel.
  - intros m j. unfold no_poles. rewrite conj_R. reflexivity.
  - intros P P'. apply new_mir.
  - intros P P' Q Q'. apply changes_mir.
Qed.

Lemma R0_mir i j : mpR0 s' i j = mpR0 s i j.
Proof.
  unfold mpR0. change (pikg s') with (pikg s). change (sig s') with (sig s). change (beta s' i) with (beta s i).
  unfold s'. cbn [s_rb s_r s_z]. rewrite <- conj_minus, !Cmod_conj, <- conj_mult.
  rewrite Cmod_R_conj. reflexivity.
Qed.

Lemma T_order_mir P P' m j : conjugate P P' -> T_order s' P' m j = T_order s P m j.
Proof.
  intros T. unfold T_order. change (s_n s') with (s_n s). change (sig s') with (sig s).
  rewrite (other_conj (s_n s) m _ (fun n => P n j * RtoC (s_r s n ^ S j) / cpow (dz s m n) (S j))).
  2:{ intros n _. unfold Cdiv. rewrite T, dz_mir, !conj_mult, conj_R, conj_inv, <- cpow_conj. reflexivity. }
  rewrite (sum_conj (s_n s) _ (fun n => P n j * RtoC (s_r s n ^ S j) / cpow (RtoC (s_rb s ^ 2) - Cconj (s_z s m) * s_z s n) (S j))).
  2:{ intros n _. unfold Cdiv. rewrite T, !conj_mult, conj_R, conj_inv, <- cpow_conj, conj_minus, conj_mult, conj_R. reflexivity. }
  change (s_z s' m) with (Cconj (s_z s m)). rewrite (cpow_conj (Cconj (s_z s m))), <- conj_mult, !Re_conj. reflexivity.
Qed.

Lemma fluid_mir Tb q P P' J m : conjugate P P' -> fluid_T s' Tb q P' J m = fluid_T s Tb q P J m.
Proof.
  intros T. unfold fluid_T. change (s_n s') with (s_n s). f_equal; [f_equal|]; apply sumn_ext; intros n _.
  - rewrite R0_mir. reflexivity.
  - apply T_order_mir. auto.
Qed.

Lemma W0_mir z n : W0 s' (Cconj z) n = W0 s z n.
Proof.
  unfold W0. change (sig s') with (sig s). unfold s'. cbn [s_rb s_z]. rewrite <- conj_minus, !Cmod_conj, <- conj_mult.
  rewrite Cmod_R_conj. reflexivity.
Qed.

Lemma WJ_mir z n j : WJ s' (Cconj z) n j = Cconj (WJ s z n j).
Proof.
  unfold WJ. change (sig s') with (sig s). unfold s'. cbn [s_rb s_z s_r]. rewrite Cmod_conj.
  unfold Cdiv. destruct (Rleb (Cmod z) (s_rb s)); [rewrite conj_plus|];
    rewrite !conj_mult, <- !cpow_conj, !conj_mult, !conj_R, !conj_inv, !conj_minus; [|reflexivity].
  rewrite !conj_mult, !conj_R. reflexivity.
Qed.

Lemma outside_mir Tb q P P' J z : conjugate P P' -> outside_T s' Tb q P' J (Cconj z) = outside_T s Tb q P J z.
Proof.
  intros T. unfold outside_T. change (s_n s') with (s_n s). change (pikg s') with (pikg s). f_equal. apply sumn_ext. intros n _.
  rewrite W0_mir. f_equal. apply sumn_ext. intros j _. rewrite WJ_mir, T, <- conj_mult, Re_conj. reflexivity.
Qed.

Lemma field_mir Tb q P P' J z : conjugate P P' -> field_T s' Tb q P' J (Cconj z) = field_T s Tb q P J z.
Proof.
  intros T. unfold field_T. change (s_n s') with (s_n s).
  rewrite (find_ext _ (fun n => Rltb (Cmod (z - s_z s n) / s_r s n) 1)).
  - destruct (find _ _); [apply fluid_mir; auto|apply outside_mir; auto].
  - intros n. unfold s'. cbn [s_z s_r]. rewrite <- conj_minus, Cmod_conj. reflexivity.
Qed.

Theorem multipole_mir Tb q J :
  let '(T, field, it, e) := multipole s Tb q J in
  let '(T', field', it', e') := multipole s' Tb q J in
  (forall m, T' m = T m) /\ (forall z, field' (Cconj z) = field z) /\ it' = it /\ e' = e.
Proof.
  unfold multipole. assert (H := poles_mir q J). destruct (mp_poles s q J) as [[A i] x].
  destruct (mp_poles s' q J) as [[B i'] x']. destruct H as (T & -> & ->).
  split; [intros m; apply fluid_mir; auto|]. split; [intros z; apply field_mir; auto|auto].
Qed.
End Mirror.
