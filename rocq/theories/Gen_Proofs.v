(* The general procedure of single U-tubes gives the coefficients of the closed form. *)
From Coq Require Import Reals Lra Lia List Bool Psatz.
From Coquelicot Require Import Coquelicot.
From Verif Require Import Base LinAlg Bore_Model Net_Model Pipe_Model Pipe_Spec Pipe_Alg_Proofs Pipe_Proofs Pipe_Main_Proofs Gen_Model.
Import ListNotations.
Local Open Scope R_scope.

Section Edge.
Variables (b1 b2 b12 H : R).
Hypothesis (Hs : 0 < b1 + b2).
Hypothesis (Hd : 0 < b1 * b2 + b12 * (b1 + b2)).
Hypothesis (HH : 0 <= H).
Let v := vars_of b1 b2 b12.

Lemma exp_split x y : exp (x + y) = exp x * exp y. Proof. apply exp_plus. Qed.

(* the derivatives of the primitives *)
Lemma F_der z : is_derive (F4 v) z (f4 v z) /\ is_derive (F5 v) z (f5 v z).
Proof.
  unfold F4, F5, f4, f5, cosh, sinh.
  open_vars v g b1 b2 b12 Hs Hd. clearbody g. clear v.
  assert (D : (1/2 * (b2 - b1)) ^ 2 - g ^ 2 <> 0).
  { replace ((1/2 * (b2 - b1)) ^ 2 - g ^ 2) with ((1/2 * (b2 - b1) + g) * (1/2 * (b2 - b1) - g)) by ring. apply Rmult_integral_contrapositive; split; lra. }
  split; (auto_derive; [trivial|]);
    set (X := exp (1 / 2 * (b2 - b1) * z)) in *;
    set (Y := exp (g * z)); set (Z := exp (- (g * z))); clearbody X Y Z; field; split; auto; lra.
Qed.

(* the first derivatives of the homogeneous solutions *)
Lemma f_zero : f1 v 0 = 1 /\ f2 v 0 = 0 /\ f3 v 0 = 1.
Proof.
  unfold f1, f2, f3. rewrite !Rmult_0_r, exp_0, cosh_0, sinh_0.
  repeat split; ring.
Qed.

Lemma cut_pos z w : w <= z -> Rmax (z - w) 0 = z - w. Proof. intro. apply Rmax_left. lra. Qed.
Lemma cut_neg z w : z <= w -> Rmax (z - w) 0 = 0. Proof. intro. apply Rmax_right. lra. Qed.


Ltac ex a r := replace (exp a) with r by (rewrite <- ?exp_Ropp, <- ?exp_plus; f_equal; ring).

(* both sides in the exponentials of the depths *)
Ltac atoms t g z w H :=
  let P := constr:(exp (t * z)) in let G := constr:(exp (g * z)) in
  let Q := constr:(exp (t * w)) in let W := constr:(exp (g * w)) in let K := constr:(exp (g * H)) in
  ex ((t + g) * (z - w) - 2 * g * H) (P * / Q * (G * / W) * / K * / K);
  ex ((t - g) * (z - w)) (P * / Q * (W * / G));
  ex ((t - g) * (z - w) - 2 * g * H) (P * / Q * (W * / G) * / K * / K);
  ex ((t - g) * z - (t + g) * w) (P * / Q * (/ G * / W));
  ex ((t + g) * z - (t - g) * w - 2 * g * H) (P * / Q * (G * W) * / K * / K);
  ex (- 2 * g * H) (/ K * / K);
  ex (- w * (t + g)) (/ Q * / W);
  ex (- w * (t - g) - 2 * g * H) (/ Q * W * / K * / K);
  ex ((t + g) * (z - w)) (P * / Q * (G * / W));
  ex (t * (z - w)) (P * / Q);
  ex (g * (z - w)) (G * / W);
  ex (- (g * (z - w))) (W * / G);
  ex (- (g * z)) (/ G).

Lemma edge_rest z w :
  cC v H * t_edge0 v H z w = f1 v z + f2 v z * (1 - out_edge v H w) + F4 v z - F4 v (Rmax (z - w) 0)
  /\ cC v H * t_edge1 v H z w = - f2 v z + f3 v z * (1 - out_edge v H w) - (F5 v z - F5 v (Rmax (z - w) 0)).
Proof.
  rewrite t_edge0_eq, t_edge1_eq. pose proof (den_field b1 b2 b12 H Hs Hd HH) as DF. cbv zeta in DF. fold v in DF.
  assert (B1 : b1 = (b1 + b2) / 2 - 1/2 * (b2 - b1)) by field.
  assert (B2 : b2 = (b1 + b2) / 2 + 1/2 * (b2 - b1)) by field.
  assert (KE : exp (- 2 * vg v * H) = / exp (vg v * H) * / exp (vg v * H)) by (rewrite <- ?exp_Ropp, <- ?exp_plus; f_equal; ring).
  assert (M : Rmax (z - w) 0 = if Rle_dec 0 (z - w) then z - w else 0).
  { destruct (Rle_dec 0 (z - w)); [apply cut_pos|apply cut_neg]; lra. }
  rewrite M. clear M. unfold Rleb.
  assert (Z : exp 0 = 1) by apply exp_0.
  unfold pe0, pe1, me0, me1, F4, F5, f1, f2, f3, out_edge, cosh, sinh, cC, cA4, cB4, cA5, cB5, cA, cB.
  open_vars v g b1 b2 b12 Hs Hd. rewrite KE in DF. clearbody g. clear v Hd KE.
  set (t := 1 / 2 * (b2 - b1)) in *. set (s := b1 + b2) in *.
  replace (t ^ 2 - g ^ 2) with ((t + g) * (t - g)) by ring.
  destruct (Rle_dec 0 (z - w)) as [q|q]; rewrite ?Rmult_0_r, ?Ropp_0, ?Z; atoms t g z w H;
  (pose proof (exp_pos (t * z)); pose proof (exp_pos (g * z)); pose proof (exp_pos (t * w)); pose proof (exp_pos (g * w)); pose proof (exp_pos (g * H)));
  set (P := exp (t * z)) in *; set (G := exp (g * z)) in *; set (Q := exp (t * w)) in *; set (W := exp (g * w)) in *; set (K := exp (g * H)) in *;
  clearbody P G Q W K t s; rewrite B1, B2, P12; clear B1 B2 P12;
  (assert (D2 : (2 * g + s) * (K * K) + (2 * g - s) <> 0);
   [replace ((2 * g + s) * (K * K) + (2 * g - s)) with ((2 * g * (1 + / K * / K) + s * (1 - / K * / K)) * (K * K)) by (field; lra);
    apply Rmult_integral_contrapositive; split; [exact DF|nra]|]);
  split; field; repeat split; try exact D2; lra.
Qed.

(* the condition at the bottom has one solution *)
Lemma head_pos : 0 < f3 v H - f2 v H.
Proof.
  unfold f3, f2, cosh, sinh.
  assert (E : 0 < exp (vb v * H)) by apply exp_pos.
  assert (X : exp (- (vg v * H)) <= exp (vg v * H)).
  { apply exp_le. pose proof (g_pos b1 b2 b12 Hd : 0 < vg v). nra. }
  pose proof (exp_pos (- (vg v * H))) as Y.
  open_vars v g b1 b2 b12 Hs Hd.
  set (P := exp (1 / 2 * (b2 - b1) * H)) in *. set (K := exp (g * H)) in *. set (L := exp (- (g * H))) in *.
  replace (P * ((K + L) / 2 + 1 / g * (b12 + 1 / 2 * (b1 + b2)) * ((K - L) / 2)) - P * b12 / g * ((K - L) / 2))
    with (P * ((K + L) / 2 + 1 / g * (1 / 2 * (b1 + b2)) * ((K - L) / 2))) by (field; lra).
  apply Rmult_lt_0_compat; [exact E|].
  assert (0 <= 1 / g * (1 / 2 * (b1 + b2)) * ((K - L) / 2)).
  { apply Rmult_le_pos; [|lra]. apply Rmult_le_pos; [|lra]. left. apply Rdiv_lt_0_compat; lra. }
  lra.
Qed.

Lemma out_top : 1 - out_edge v H 0 = out_in v H.
Proof.
  destruct (edge_top b1 b2 b12 H Hs Hd HH 0 (Rle_refl 0)) as [_ E1]. fold v in E1. rewrite <- E1.
  unfold t_edge1. unfold Rleb. destruct (Rle_dec 0 (0 - 0)) as [_|q]; [|exfalso; apply q; lra].
  pose proof (den_field b1 b2 b12 H Hs Hd HH) as DF. fold v in DF.
  unfold out_in, cC, cA5, cB5, cA, cB.
  replace (0 - 0) with 0 by ring. rewrite !Rmult_0_r, !Rminus_0_r, !Rminus_0_l, exp_0.
  replace (- (2 * vg v * H)) with (- 2 * vg v * H) by ring.
  assert (B1 : b1 = (b1 + b2) / 2 - 1/2 * (b2 - b1)) by field.
  assert (B2 : b2 = (b1 + b2) / 2 + 1/2 * (b2 - b1)) by field.
  open_vars v g b1 b2 b12 Hs Hd. set (E := exp (- 2 * g * H)) in *. clearbody g E. clear v E1 Hd.
  set (t := 1 / 2 * (b2 - b1)) in *. set (s := b1 + b2) in *.
  clearbody t s. rewrite B1, B2, P12. clear B1 B2 P12.
  field. repeat split; try lra.
Qed.

Lemma below w : w <= H ->
  (f3 v H - f2 v H) * (1 - out_edge v H w) = f1 v H + f2 v H + (F4 v H + F5 v H) - (F4 v (H - w) + F5 v (H - w)).
Proof.
  intros q. pose proof (edge_bottom b1 b2 b12 H Hs Hd w q) as E. fold v in E.
  destruct (edge_rest H w) as [E0 E1]. rewrite E0, E1 in E. rewrite (cut_pos H w q) in E. lra.
Qed.

Lemma below_in : (f3 v H - f2 v H) * out_in v H = f1 v H + f2 v H.
Proof. rewrite <- out_top, (below 0 HH), Rminus_0_r. ring. Qed.

Lemma below_b ed k : nth k ed 0 <= H -> nth (S k) ed 0 <= H ->
  let D F j := F v (Rmax (H - nth j ed 0) 0) in
  (f3 v H - f2 v H) * out_b v H ed k = (D F4 k - D F4 (S k)) + (D F5 k - D F5 (S k)).
Proof.
  intros q1 q2. cbv beta zeta. rewrite !cut_pos by assumption. unfold out_b.
  pose proof (below _ q1) as E1. pose proof (below _ q2) as E2. lra.
Qed.

Lemma depth_in z : 0 <= z -> t_in0 v H z = f1 v z + f2 v z * out_in v H /\ t_in1 v H z = - f2 v z + f3 v z * out_in v H.
Proof.
  intros q. destruct (edge_first b1 b2 b12 H Hs Hd z q) as [E0 E1]. fold v in E0, E1.
  destruct (edge_rest z 0) as [R0 R1]. rewrite R0 in E0. rewrite R1 in E1.
  rewrite cut_pos, Rminus_0_r in E0, E1 by exact q. rewrite out_top in E0, E1. split; lra.
Qed.

Lemma depth_b ed z k :
  let D F j := F v (Rmax (z - nth j ed 0) 0) in
  t_b0 v H ed z k = f2 v z * out_b v H ed k + (D F4 k - D F4 (S k))
  /\ t_b1 v H ed z k = f3 v z * out_b v H ed k - (D F5 k - D F5 (S k)).
Proof.
  cbv beta zeta. unfold t_b0, t_b1, out_b. destruct (edge_rest z (nth k ed 0)) as [A0 A1]. destruct (edge_rest z (nth (S k) ed 0)) as [B0 B1].
  rewrite !Rmult_minus_distr_l, A0, A1, B0, B1. split; ring.
Qed.
End Edge.

(* a system of one equation *)
Lemma solve_one (M B : Mx) : M O O <> 0 -> exists Y, lin_solve_mx 1 M B = Some Y /\ forall j, Y O j = B O j / M O O.
Proof.
  intros N. destruct (lin_solve_mx_some 1 M B) as [Y E].
  - intros x Hx i Hi. replace i with O by lia. specialize (Hx O ltac:(lia)). cbn in Hx. apply Rmult_eq_reg_l with (M O O); lra.
  - exists Y. split; [exact E|]. intros j. pose proof (lin_solve_mx_sound 1 M B Y E O j ltac:(lia)) as S1. cbn in S1.
    rewrite <- S1. field. exact N.
Qed.

Section Tube.
Variables (u : utube) (m cp : R) (n : nat) (r : option (list R)) (d e : nat).
Hypothesis (G : good_flow u m cp n r d e).
Let H := bH (u_b u).
Let ed := segment_edges (u_b u) n r.
Let v := model_vars u m cp.
Let X := f3 v H - f2 v H.

Lemma tube_facts :
  0 < X /\ X * out_in v H = f1 v H + f2 v H
  /\ (forall k, (k < n)%nat -> let D F j := F v (Rmax (H - nth j ed 0) 0) in
       X * out_b v H ed k = (D F4 k - D F4 (S k)) + (D F5 k - D F5 (S k)))
  /\ (forall z, 0 <= z -> t_in0 v H z = f1 v z + f2 v z * out_in v H /\ t_in1 v H z = - f2 v z + f3 v z * out_in v H)
  /\ (forall z k, let D F j := F v (Rmax (z - nth j ed 0) 0) in
       t_b0 v H ed z k = f2 v z * out_b v H ed k + (D F4 k - D F4 (S k))
       /\ t_b1 v H ed z k = f3 v z * out_b v H ed k - (D F5 k - D F5 (S k))).
Proof.
  pose proof (b_sum _ _ _ _ _ _ _ G) as Hs. pose proof (b_det _ _ _ _ _ _ _ G) as Hd. pose proof (H_nn _ _ _ _ _ _ _ G) as HH.
  unfold X, v. rewrite (vars_eq _ _ _ _ _ _ _ G). fold H in HH.
  set (b1 := cond u d d / (Rabs m * cp)) in *. set (b2 := cond u e e / (Rabs m * cp)) in *. set (b12 := cond u d e / (Rabs m * cp)) in *.
  split; [apply (head_pos b1 b2 b12 H Hs Hd HH)|]. split; [apply (below_in b1 b2 b12 H Hs Hd HH)|].
  split; [|split].
  - intros k Hk. apply (below_b b1 b2 b12 H Hs Hd HH);
      apply (ed_range H n ed (ed_0 _ _ _ _ _ _ _ G) (ed_n _ _ _ _ _ _ _ G) (ed_step _ _ _ _ _ _ _ G)); lia.
  - intros z Hz. apply (depth_in b1 b2 b12 H Hs Hd HH z Hz).
  - intros z k. apply (depth_b b1 b2 b12 H Hs Hd HH ed z k).
Qed.

Lemma head_solution : exists Y, head_solve u m cp = Some Y
  /\ Y O O = (if is_reversed u m then - 1 else 1) / X /\ Y O 1%nat = (if is_reversed u m then 1 else - 1) / X.
Proof.
  destruct tube_facts as (PX & _). unfold head_solve.
  set (M := mx_mul 2 _ _).
  assert (EM : M O O = (if is_reversed u m then 1 else - 1) * X).
  { unfold M, mx_mul, head_top, mx_add, mx_mul, im_i1, solution_f0, dir_fu, dir_fd, head_fu, X. fold v H.
    destruct (is_reversed u m); cbn; ring. }
  destruct (solve_one M (fun i p => - im_i1 i p)) as (Y & E & S1).
  - rewrite EM. destruct (is_reversed u m); lra.
  - exists Y. split; [exact E|]. rewrite !S1, EM. cbn. destruct (is_reversed u m); split; field; lra.
Qed.

Lemma outlet_general : exists a b, general_outlet u m cp n r = Some (a, b)
  /\ a O O = fst (outlet u m cp n r) /\ forall k, (k < n)%nat -> b O k = snd (outlet u m cp n r) k.
Proof.
  destruct tube_facts as (PX & Ein & Eb & _). destruct head_solution as (Y & ES & Y0 & Y1).
  unfold general_outlet. rewrite ES. eexists; eexists; split; [reflexivity|].
  unfold outlet. cbn [fst snd]. fold v H ed. split.
  - apply Rmult_eq_reg_l with X; [|lra]. rewrite Ein.
    unfold mx_mul, connect_fu, head_in, dir_fd, solution_f0. fold v H. cbn [sumn]. rewrite Y0, Y1.
    destruct (is_reversed u m); cbn; field; lra.
  - intros k Hk. apply Rmult_eq_reg_l with X; [|lra]. rewrite (Eb k Hk). cbv beta zeta.
    unfold mx_mul, connect_fu, solution_b, i_inlet. fold v H ed. cbn [sumn]. rewrite Y0, Y1.
    destruct (is_reversed u m); cbn [Nat.eqb]; field; lra.
Qed.

Lemma temperature_general z : 0 <= z -> exists a b, general_temperature u m cp n r z = Some (a, b)
  /\ (forall i, (i < 2)%nat -> a i O = fst (temperature u m cp n r z) i)
  /\ forall i k, (i < 2)%nat -> (k < n)%nat -> b i k = snd (temperature u m cp n r z) i k.
Proof.
  intros Hz. destruct tube_facts as (PX & Ein & Eb & Di & Db). destruct head_solution as (Y & ES & Y0 & Y1).
  unfold general_temperature. rewrite ES. eexists; eexists; split; [reflexivity|].
  unfold temperature, temperature_at. cbn [fst snd]. fold v H ed.
  assert (Oi : out_in v H = (f1 v H + f2 v H) / X) by (rewrite <- Ein; field; lra).
  destruct (Di z Hz) as [Di0 Di1]. split.
  - intros i Hi. rewrite Di0, Di1, Oi.
    unfold mx_mul, mx_add, head_in, head_top, mx_add, mx_mul, dir_fd, dir_fu, head_fu, solution_f0, id_mx, i_inlet. fold v H. cbn [sumn]. rewrite Y0, Y1.
    destruct i as [|[|i]]; [| |lia]; destruct (is_reversed u m); cbn; unfold X; field; fold X; lra.
  - intros i k Hi Hk. destruct (Db z k) as [Db0 Db1]. rewrite Db0, Db1.
    assert (Ok := Eb k Hk). cbv beta zeta in Ok.
    assert (Ob : out_b v H ed k = (F4 v (Rmax (H - nth k ed 0) 0) - F4 v (Rmax (H - nth (S k) ed 0) 0) +
       (F5 v (Rmax (H - nth k ed 0) 0) - F5 v (Rmax (H - nth (S k) ed 0) 0))) / X) by (rewrite <- Ok; field; lra).
    rewrite Ob.
    unfold mx_mul, mx_add, head_top, mx_add, mx_mul, dir_fd, dir_fu, head_fu, solution_f0, solution_b, i_inlet. fold v H ed. cbn [sumn]. rewrite Y0, Y1.
    destruct i as [|[|i]]; [| |lia]; destruct (is_reversed u m); cbn [Nat.eqb block2 column2]; field; lra.
Qed.
End Tube.
