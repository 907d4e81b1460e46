(** Boreholes with eigenvectors in closed form: one U-tube and two U-tubes. *)
From Coq Require Import Psatz FunctionalExtensionality.
From Coquelicot Require Import Coquelicot.
From Verif Require Import Base LinAlg LinInv Bore_Model Bore_Proofs Pipe_Proofs
  Multi_Model Multi_Spec Multi_Ode_Proofs Multi_Profile_Proofs Multi_Energy_Proofs Multi_Setup_Proofs Multi_Main_Proofs Multi_Query_Proofs Multi_Max_Proofs.
Local Open Scope R_scope.

Definition ex_bore : bore := Bore 1 4 (3/40) 0 0 0 0.

(** ** One U-tube *)
Definition one_Rd : Mx := fun i j => if Nat.eqb i j then 1 else 2/3.
Definition one_tube (rev : bool) : multi := mkmulti one_Rd ex_bore rev 1 InParallel.
Definition one_L (s : R) (k : nat) : Complex.C := RtoC (match k with O => 2 * s | _ => - 2 * s end).
Definition one_V (i k : nat) : Complex.C := RtoC (if Nat.eqb i k then 3 else 1).
Definition one_W (i k : nat) : Complex.C := RtoC (if Nat.eqb i k then 3/8 else - (1/8)).
Definition one_s (s : R) : spectrum := mkspectrum (one_L s) one_V one_W.

(** ** Two U-tubes *)
Definition two_Rd : Mx := fun i j => if Nat.eqb i j then 1 else 1/2.
Definition two_tubes (q : kind) (rev : bool) : multi := mkmulti two_Rd ex_bore rev 2 q.
Definition two_L (s : R) (k : nat) : Complex.C := RtoC (match k with O => - 9 * s | 1%nat => 9 * s | 2%nat => 3 * s | _ => - 3 * s end).
Definition two_V (i k : nat) : Complex.C :=
  RtoC (match k, i with
        | O, O => 1 | O, 1%nat => -1 | O, _ => 0
        | 1%nat, 2%nat => 1 | 1%nat, 3%nat => -1 | 1%nat, _ => 0
        | 2%nat, O => 1 | 2%nat, 1%nat => 1 | 2%nat, _ => 2
        | _, O => 2 | _, 1%nat => 2 | _, _ => 1 end).
Definition two_W (k i : nat) : Complex.C :=
  RtoC (match k, i with
        | O, O => 1/2 | O, 1%nat => - (1/2) | O, _ => 0
        | 1%nat, 2%nat => 1/2 | 1%nat, 3%nat => - (1/2) | 1%nat, _ => 0
        | 2%nat, O => - (1/6) | 2%nat, 1%nat => - (1/6) | 2%nat, _ => 1/3
        | _, O => 1/3 | _, 1%nat => 1/3 | _, _ => - (1/6) end).
Definition two_s (s : R) : spectrum := mkspectrum (two_L s) two_V two_W.

Definition ex_eig (N : nat) (A : Mx) : option spectrum :=
  let s := if Rltb (A 0%nat 0%nat) 0 then 1 else -1 in
  if Nat.eqb N 2 then Some (one_s (- s)) else Some (two_s s).

Ltac rlt := repeat match goal with
  | |- context [Rltb ?x 0] => first [replace (Rltb x 0) with true by (symmetry; apply Rltb_true; lra) | replace (Rltb x 0) with false by (symmetry; apply Rltb_false; lra)]
  | |- context [Rltb 0 ?x] => first [replace (Rltb 0 x) with true by (symmetry; apply Rltb_true; lra) | replace (Rltb 0 x) with false by (symmetry; apply Rltb_false; lra)]
  end.

Lemma one_decomposes s A : (forall i j, (i < 2)%nat -> (j < 2)%nat -> A i j = s * (match i, j with O, O => 5/2 | O, _ => - (3/2) | _, O => 3/2 | _, _ => - (5/2) end)) -> decomposes 2 A (one_s s).
Proof.
  intros E. split; [|split]; intros i j Hi Hj; unfold csum; rewrite ?E by lia; destruct i as [|[|i]]; try lia; destruct j as [|[|j]]; try lia;
    cbn; rewrite ?E by lia; unfold Cmult, RtoC; cbn; f_equal; field.
Qed.

Lemma two_decomposes s A : (forall i j, (i < 4)%nat -> (j < 4)%nat -> A i j = s * (if Nat.ltb i 2 then 1 else -1) * (if Nat.eqb i j then -7 else 2)) -> decomposes 4 A (two_s s).
Proof.
  intros E. split; [|split]; intros i j Hi Hj; unfold csum; destruct i as [|[|[|[|i]]]]; try lia; destruct j as [|[|[|[|j]]]]; try lia;
    cbn; rewrite ?E by lia; unfold Cmult, RtoC; cbn; f_equal; field.
Qed.

Lemma one_format rev x : format (one_tube rev) (x :: nil) (1 :: nil) =
  Some (mkinputs (fun i => sign x * (if Nat.ltb i 1 then Rabs x / 1 else - (Rabs x / 1))) (fun _ => 1) (fun _ => x) (fun _ => 1) (fun _ => Rltb x 0 && rev)%bool).
Proof. reflexivity. Qed.

Lemma one_system rev x (Hx : x = 1 \/ x = -1) g : format (one_tube rev) (x :: nil) (1 :: nil) = Some g -> forall i j, (i < 2)%nat -> (j < 2)%nat ->
  system_mx (one_tube rev) g i j = - x * (match i, j with O, O => 5/2 | O, _ => - (3/2) | _, O => 3/2 | _, _ => - (5/2) end).
Proof.
  intros E.
  assert (S : sign x = x) by (unfold sign; destruct Hx as [-> | ->]; rlt; auto). assert (A : Rabs x = 1) by (destruct Hx as [-> | ->]; unfold Rabs; destruct (Rcase_abs _); lra).
  assert (G : forall i, (i < 2)%nat -> g_m g i = x * (if Nat.ltb i 1 then 1 else -1) /\ g_cp g i = 1).
  { rewrite one_format in E. injection E as <-. intros i Hi. cbn [g_m g_cp]. rewrite S, A. destruct (Nat.ltb i 1); split; lra. }
  intros i j Hi Hj. unfold system_mx. destruct (G i Hi) as [G1 G2]. rewrite G1, G2. cbn [one_tube x_Rd x_n]. unfold one_Rd.
  destruct i as [|[|i]]; try lia; destruct j as [|[|j]]; try lia; cbn; destruct Hx as [-> | ->]; field.
Qed.

Lemma one_eig rev x : x = 1 \/ x = -1 -> eig_ok ex_eig (one_tube rev) (x :: nil) (1 :: nil).
Proof.
  intros Hx g G. pose proof (one_system rev x Hx g G) as E. exists (one_s (- x)). split.
  - cbn [one_tube x_n Nat.mul Nat.add]. unfold ex_eig. cbn [Nat.eqb]. do 2 f_equal. rewrite E by lia. destruct Hx as [-> | ->]; rlt; lra.
  - apply one_decomposes. exact E.
Qed.

Lemma one_positive rev : positive_circuit (one_tube rev).
Proof. intros p q Hp Hq. cbn. unfold one_Rd. rewrite (Nat.eqb_sym q p). destruct (Nat.eqb p q); lra. Qed.

Lemma one_usable rev x : x = 1 \/ x = -1 -> usable (one_tube rev) (x :: nil) (1 :: nil).
Proof. intros Hx. unfold usable. cbn. repeat split; auto; assert (i = O) by lia; subst; cbn; destruct Hx as [-> | ->]; lra. Qed.

Lemma two_format q rev x : q <> Separate -> format (two_tubes q rev) (x :: nil) (1 :: nil) =
  let y := match q with InSeries => Rabs x | _ => Rabs x / (1 + 1) end in
  Some (mkinputs (fun i => sign x * (if Nat.ltb i 2 then y else - y)) (fun _ => 1) (fun _ => x) (fun _ => 1) (fun _ => Rltb x 0 && rev)%bool).
Proof. intros K. destruct q; [reflexivity..|congruence]. Qed.

(** flow of the borehole for a unit flow in the tubes *)
Definition two_flow (q : kind) (s : R) : list R := match q with InParallel => 2 * s :: nil | InSeries => s :: nil | Separate => s :: s :: nil end.

Lemma two_system q rev s (Hs : s = 1 \/ s = -1) g : format (two_tubes q rev) (two_flow q s) (1 :: nil) = Some g -> forall i j, (i < 4)%nat -> (j < 4)%nat ->
  system_mx (two_tubes q rev) g i j = s * (if Nat.ltb i 2 then 1 else -1) * (if Nat.eqb i j then -7 else 2).
Proof.
  intros E.
  assert (G : forall i, (i < 4)%nat -> g_m g i = s * (if Nat.ltb i 2 then 1 else -1) /\ g_cp g i = 1).
  { assert (S1 : sign s = s) by (unfold sign; destruct Hs as [-> | ->]; rlt; auto). assert (S2 : sign (2 * s) = s) by (unfold sign; destruct Hs as [-> | ->]; rlt; auto).
    assert (A1 : Rabs s = 1) by (destruct Hs as [-> | ->]; unfold Rabs; destruct (Rcase_abs _); lra). assert (A2 : Rabs (2 * s) = 2) by (rewrite Rabs_mult, A1; unfold Rabs; destruct (Rcase_abs _); lra).
    destruct q; unfold two_flow in E.
    - rewrite two_format in E by congruence. injection E as <-. intros i Hi. cbn [g_m g_cp]. rewrite S2, A2. destruct (Nat.ltb i 2); split; lra.
    - rewrite two_format in E by congruence. injection E as <-. intros i Hi. cbn [g_m g_cp]. rewrite S1, A1. destruct (Nat.ltb i 2); split; lra.
    - cbn in E. injection E as <-. intros i Hi. cbn [g_m g_cp]. destruct i as [|[|[|[|i]]]]; cbn; try lia; split; lra. }
  intros i j Hi Hj. unfold system_mx. destruct (G i Hi) as [G1 G2].
  rewrite G1, G2. cbn [two_tubes x_Rd x_n]. unfold two_Rd.
  destruct i as [|[|[|[|i]]]]; try lia; destruct j as [|[|[|[|j]]]]; try lia; cbn; destruct Hs as [-> | ->]; field.
Qed.

Lemma two_eig q rev s : s = 1 \/ s = -1 -> eig_ok ex_eig (two_tubes q rev) (two_flow q s) (1 :: nil).
Proof.
  intros Hs g G. pose proof (two_system q rev s Hs g G) as E. exists (two_s s). split.
  - cbn [two_tubes x_n Nat.mul Nat.add]. unfold ex_eig. cbn [Nat.eqb]. do 2 f_equal. rewrite E by lia. cbn. destruct Hs as [-> | ->]; rlt; lra.
  - apply two_decomposes. exact E.
Qed.

Lemma two_positive q rev : positive_circuit (two_tubes q rev).
Proof. intros i j Hp Hq. cbn. unfold two_Rd. rewrite (Nat.eqb_sym j i). destruct (Nat.eqb i j); lra. Qed.

Lemma two_usable q rev s : s = 1 \/ s = -1 -> usable (two_tubes q rev) (two_flow q s) (1 :: nil).
Proof.
  intros Hs. unfold usable, n_inlets. cbn [two_tubes x_n x_kind]. split; [lia|]. split; [destruct q; auto|]. split; [auto|].
  intros i Hi. destruct q; cbn in *; (destruct i as [|[|i]]; try lia); cbn; destruct Hs as [-> | ->]; lra.
Qed.

Lemma two_meant q rev s : s = 1 \/ rev = true -> reversals_meant (two_tubes q rev) (two_flow q s).
Proof.
  intros [-> | ->]; [right|left; auto]. intros i Hi. unfold n_inlets in Hi. destruct q; cbn in *; (destruct i as [|[|i]]; try lia); cbn; lra.
Qed.

(** ** A negative flow in a borehole that is not reversible *)
Lemma one_reversed : exists a, q_outlet ex_eig (one_tube false) (fun _ => 1) 1 (fun _ => 0) (-1 :: nil) (1 :: nil) None = Some a /\ 1 < a O.
Proof.
  unfold q_outlet, m_outlet, prepare.
  destruct (one_eig false (-1) (or_intror eq_refl) _ (one_format false (-1))) as [s [Es _]].
  assert (s = one_s 1).
  { pose proof (one_system false (-1) (or_intror eq_refl) _ (one_format false (-1)) 0 0 ltac:(lia) ltac:(lia)) as E0. cbn [one_tube x_n Nat.mul Nat.add] in Es. unfold ex_eig in Es. cbn [Nat.eqb] in Es.
    injection Es as <-. f_equal. rewrite E0. rlt. lra. }
  subst s. rewrite one_format, Es. set (g := mkinputs _ _ _ _ _).
  assert (Gr : g_rev g 0%nat = false) by (cbn; apply Bool.andb_false_r).
  set (E := exp 2). assert (E1 : 1 < E) by (unfold E; rewrite <- exp_0; apply exp_increasing; lra).
  assert (EI : exp (- 2) = / E) by apply exp_Ropp.
  assert (F : forall i j, (i < 2)%nat -> (j < 2)%nat -> a_f0 2 (one_s 1) 1 i j = match i, j with O, O => (9 * E - / E) / 8 | O, _ => (- 3 * E + 3 * / E) / 8 | _, O => (3 * E - 3 * / E) / 8 | _, _ => (- E + 9 * / E) / 8 end).
  { assert (X2 : cexp (Cmult (RtoC 1) (one_L 1 0)) = RtoC E).
    { unfold cexp, Cmult, one_L, RtoC, E. cbn. replace (1 * (2 * 1) - 0 * 0) with 2 by ring. replace (1 * 0 + 0 * (2 * 1)) with 0 by ring. rewrite cos_0, sin_0. f_equal; ring. }
    assert (X3 : cexp (Cmult (RtoC 1) (one_L 1 1)) = RtoC (/ E)).
    { unfold cexp, Cmult, one_L, RtoC. cbn. replace (1 * (-2 * 1) - 0 * 0) with (- 2) by ring. replace (1 * 0 + 0 * (-2 * 1)) with 0 by ring. rewrite cos_0, sin_0, EI. f_equal; ring. }
    intros i j Hi Hj. unfold a_f0, csum. cbn [sumn one_s s_L s_V s_W]. rewrite X2, X3. destruct i as [|[|i]]; try lia; destruct j as [|[|j]]; try lia; cbn; field; lra. }
  assert (IE : 0 < / E) by (apply Rinv_0_lt_compat; lra).
  assert (Mx00 : mx_mul 2 (mx_mul 2 (im_i 1) (a_f0 2 (one_s 1) 1)) (top (one_tube false) g) 0%nat 0%nat = - (2 * E + 6 * / E) / 8).
  { unfold mx_mul, top, mx_add, mx_mul, im_i, f_fu, f_fd, c_fu. cbn [sumn one_tube x_n x_kind]. rewrite Gr. rewrite !F by lia. cbn. field. lra. }
  unfold returns. cbn [one_tube x_n x_b ex_bore bH Nat.mul Nat.add] in *. change (mkmulti one_Rd (Bore 1 4 (3/40) 0 0 0 0) false 1 InParallel) with (one_tube false). 
  set (Mat := mx_mul 2 _ _). fold Mat in Mx00.
  assert (NS : nonsingular 1 Mat).
  { intros y Hy i Hi. assert (i = O) by lia. subst i. specialize (Hy O ltac:(lia)). cbn [sumn] in Hy. rewrite Mx00 in Hy.
    assert (N : - (2 * E + 6 * / E) / 8 <> 0) by lra. rewrite Rplus_0_l in Hy. apply Rmult_integral in Hy. tauto. }
  destruct (lin_solve_mx_some 1 Mat (fun i p => - im_i 1 i p) NS) as [Y EY]. rewrite EY. pose proof (lin_solve_mx_sound _ _ _ _ EY) as SY.
  cbn [option_map]. eexists. split; [reflexivity|]. unfold apply2. cbn [n_inlets one_tube x_kind sumn fst snd]. rewrite Rmult_0_r.
  assert (Y0 : - (2 * E + 6 * / E) / 8 * Y 0%nat 0%nat = -1) by (pose proof (SY O O ltac:(lia)) as Q; cbn [sumn] in Q; rewrite Mx00 in Q; unfold im_i in Q; cbn [Nat.eqb Nat.add] in Q; rewrite Rplus_0_l in Q; rewrite Q; ring).
  assert (Y1 : - (2 * E + 6 * / E) / 8 * Y 0%nat 1%nat = 1) by (pose proof (SY O 1%nat ltac:(lia)) as Q; cbn [sumn] in Q; rewrite Mx00 in Q; unfold im_i in Q; cbn [Nat.eqb Nat.add] in Q; rewrite Rplus_0_l in Q; rewrite Q; ring).
  assert (D : d_fu (one_tube false) g 0%nat 0%nat = 1).
  { unfold d_fu. cbn [one_tube x_kind x_n sumn]. subst g. cbn [g_m g_cp]. unfold sign. rlt. cbn. unfold Rabs. repeat destruct (Rcase_abs _); try lra; field; lra. }
  unfold mx_mul, f_fd, c_in. cbn [sumn one_tube x_n x_kind]. rewrite D, Gr, !F by lia. cbn.
  set (I := / E) in *. assert (EI1 : E * I = 1) by (apply Rinv_r; lra). clearbody I.
  assert (Yv : Y 0%nat 1%nat = - Y 0%nat 0%nat) by (apply Rmult_eq_reg_l with (- (2 * E + 6 * I) / 8); lra). rewrite Yv.
  set (y := Y 0%nat 0%nat) in *. clearbody y. 
  assert (y * (2 * E + 6 * I) = 8) by lra. assert (0 < y) by nra.
  assert (I < 1) by nra. 
  match goal with |- 1 < ?t => replace t with (y * (6 * E + 2 * I) / 8) by field end. nra.
Qed.
