(** A single U-tube at a uniform wall temperature: effect of the flow and of the length. *)
From Coq Require Import Reals Lra Lia List.
From Coquelicot Require Import Coquelicot.
From Verif Require Import Base Bore_Model Pipe_Model Pipe_Spec Pipe_Main_Proofs Pipe_Flow_Proofs Pipe_Props.
Local Open Scope R_scope.

Lemma sinh_pos x : 0 < x -> 0 < sinh x.
Proof. intros H. pose proof (sinh_ge x ltac:(lra)). lra. Qed.
Lemma cosh_gt1 x : 0 < x -> 1 < cosh x.
Proof. intros H. pose proof (xcosh_ge x H). pose proof (sinh_ge x ltac:(lra)). nra. Qed.

Lemma sinh_sub x y : sinh (y - x) = sinh y * cosh x - cosh y * sinh x.
Proof.
  unfold sinh, cosh. replace (- (y - x)) with (x + - y) by ring. replace (y - x) with (y + - x) by ring. rewrite !exp_plus. field.
Qed.

Lemma coth_down x y : 0 < x -> x < y -> cosh y / sinh y < cosh x / sinh x.
Proof.
  intros Hx L. pose proof (sinh_pos x Hx). pose proof (sinh_pos y ltac:(lra)).
  pose proof (sinh_pos (y - x) ltac:(lra)) as K. rewrite sinh_sub in K.
  apply Rmult_lt_reg_r with (sinh x * sinh y); [nra|].
  replace (cosh y / sinh y * (sinh x * sinh y)) with (cosh y * sinh x) by (field; lra).
  replace (cosh x / sinh x * (sinh x * sinh y)) with (cosh x * sinh y) by (field; lra). lra.
Qed.

Lemma coth_gt1 x : 0 < x -> 1 < cosh x / sinh x.
Proof.
  intros H. pose proof (sinh_pos x H). apply Rmult_lt_reg_r with (sinh x); [lra|].
  unfold Rdiv. rewrite Rmult_assoc, Rinv_l by lra. unfold sinh, cosh. pose proof (exp_pos (- x)). lra.
Qed.

Lemma xcoth_up x y : 0 < x -> x < y -> x * cosh x / sinh x < y * cosh y / sinh y.
Proof.
  intros Hx L.
  destruct (MVT_gen (fun z => z * cosh z / sinh z) x y (fun z => (cosh z * sinh z - z) / (sinh z) ^ 2)) as [c [Hc E]].
  - intros z [H1 H2]. rewrite Rmin_left in H1 by lra. pose proof (sinh_pos z ltac:(lra)).
    assert (Q : exp z * exp (- z) = 1) by (rewrite <- exp_plus, Rplus_opp_r; apply exp_0).
    unfold sinh, cosh in *. auto_derive; [lra|].
    match goal with |- ?a = ?b => change (@eq R a b) end.
    replace (exp (- z)) with (/ exp z) in * by (rewrite exp_Ropp; reflexivity).
    pose proof (exp_pos z). set (p := exp z) in *. field. split; [lra|].
    intros K. assert (p - / p = 0) by (replace (p - / p) with ((p * p - 1) / p) by (field; lra); unfold Rdiv; rewrite K || idtac; lra). lra.
  - intros z [H1 H2]. rewrite Rmin_left in H1 by lra. pose proof (sinh_pos z ltac:(lra)).
    apply continuity_pt_filterlim. apply (ex_derive_continuous (fun z => z * cosh z / sinh z)).
    unfold sinh, cosh in *. auto_derive. lra.
  - rewrite Rmin_left, Rmax_right in Hc by lra.
    pose proof (sinh_pos c ltac:(lra)). pose proof (cosh_gt1 c ltac:(lra)). pose proof (sinh_ge c ltac:(lra)).
    assert (0 < (cosh c * sinh c - c) / (sinh c) ^ 2) by (apply Rdiv_lt_0_compat; nra). nra.
Qed.

Definition wall (u : utube) (d e : nat) : R := cond u d d + cond u e e.
Definition root (u : utube) (d e : nat) : R := sqrt (1/4 * wall u d e ^ 2 + cond u d e * wall u d e).
Definition eta (u : utube) (m cp : R) (d e : nat) : R := bH (u_b u) / (Rabs m * cp) * root u d e.

Lemma root_pos u m cp d e : good_flow u m cp 1 None d e -> 0 < root u d e.
Proof.
  intros (_ & _ & [Cs Cp] & _). unfold root, wall. apply sqrt_lt_R0.
  set (a := cond u d d) in *. set (b := cond u e e) in *. set (c := cond u d e) in *.
  pose proof (pow2_ge_0 (a - b)). nra.
Qed.
Lemma rate_pos u m cp d e : good_flow u m cp 1 None d e -> 0 < Rabs m * cp.
Proof. exact (M_pos u m cp 1 None d e). Qed.
Lemma eta_positive u m cp d e : good_flow u m cp 1 None d e -> 0 < eta u m cp d e.
Proof.
  intros G. unfold eta. pose proof (root_pos _ _ _ _ _ G). pose proof (rate_pos _ _ _ _ _ G).
  assert (0 < bH (u_b u)) by apply G. apply Rmult_lt_0_compat; [apply Rdiv_lt_0_compat|]; assumption.
Qed.

Lemma same_circuit u1 u2 d e : u_Rd u1 = u_Rd u2 -> cond u1 d e = cond u2 d e.
Proof. intros E. unfold cond. rewrite E. reflexivity. Qed.

(** Resistance and outlet temperature through [eta]. *)
Lemma eff_eta u m cp d e : good_flow u m cp 1 None d e -> 0 < m \/ u_reversible u = true ->
  effective_R u m cp = 1 / wall u d e * (eta u m cp d e * cosh (eta u m cp d e) / sinh (eta u m cp d e)).
Proof. intros G P. exact (proj1 (C68_effective u m cp d e G P)). Qed.

Lemma eff_larger u1 u2 m1 m2 cp1 cp2 d e : good_flow u1 m1 cp1 1 None d e -> good_flow u2 m2 cp2 1 None d e ->
  0 < m1 \/ u_reversible u1 = true -> 0 < m2 \/ u_reversible u2 = true -> u_Rd u1 = u_Rd u2 ->
  bH (u_b u1) / (Rabs m1 * cp1) < bH (u_b u2) / (Rabs m2 * cp2) ->
  effective_R u1 m1 cp1 < effective_R u2 m2 cp2.
Proof.
  intros G1 G2 P1 P2 E L. rewrite (eff_eta u1 m1 cp1 d e), (eff_eta u2 m2 cp2 d e) by assumption.
  assert (Ew : wall u1 d e = wall u2 d e) by (unfold wall; rewrite !(same_circuit u1 u2) by exact E; reflexivity).
  assert (Er : root u1 d e = root u2 d e) by (unfold root; rewrite Ew, !(same_circuit u1 u2) by exact E; reflexivity).
  rewrite Ew. assert (W : 0 < wall u2 d e) by (destruct G2 as (_ & _ & [Cs _] & _); exact Cs).
  apply Rmult_lt_compat_l; [apply Rdiv_lt_0_compat; lra|].
  apply xcoth_up; [exact (eta_positive _ _ _ _ _ G1)|]. unfold eta. rewrite Er.
  apply Rmult_lt_compat_r; [exact (root_pos _ _ _ _ _ G2)|exact L].
Qed.

(** Rise of the fluid temperature through the ratio of the two resistances. *)
Definition ratio (u : utube) (m cp : R) : R := effective_R u m cp * (Rabs m * cp) / bH (u_b u).
Lemma fluid_rise u m cp d e t T : good_flow u m cp 1 None d e -> 0 < m \/ u_reversible u = true ->
  (get_outlet_temperature u t 1 (fun _ => T) m cp None - t) * (1 / 2 + ratio u m cp) = T - t.
Proof.
  intros G P. pose proof (C57_meaning u m cp d e t T G P) as E. cbv zeta in E.
  set (out := get_outlet_temperature u t 1 (fun _ => T) m cp None) in *.
  assert (HP : 0 < bH (u_b u)) by apply G. unfold ratio.
  replace (effective_R u m cp * (Rabs m * cp * (t - out) / bH (u_b u)))
    with (effective_R u m cp * (Rabs m * cp) / bH (u_b u) * (t - out)) in E by (field; lra). lra.
Qed.
Lemma ratio_eta u m cp d e : good_flow u m cp 1 None d e -> 0 < m \/ u_reversible u = true ->
  ratio u m cp = root u d e / wall u d e * (cosh (eta u m cp d e) / sinh (eta u m cp d e)).
Proof.
  intros G P. unfold ratio. rewrite (eff_eta u m cp d e G P).
  pose proof (sinh_pos _ (eta_positive _ _ _ _ _ G)) as Sp.
  assert (W : 0 < wall u d e) by (destruct G as (_ & _ & [Cs _] & _); exact Cs).
  assert (HP : 0 < bH (u_b u)) by apply G. pose proof (rate_pos _ _ _ _ _ G) as Mp.
  set (x := cosh (eta u m cp d e)). set (y := sinh (eta u m cp d e)) in *. unfold eta.
  field. repeat split; try lra; intros Z; rewrite Z in Mp; lra.
Qed.
Lemma ratio_pos u m cp d e : good_flow u m cp 1 None d e -> 0 < m \/ u_reversible u = true -> 0 < ratio u m cp.
Proof.
  intros G P. rewrite (ratio_eta u m cp d e G P).
  assert (W : 0 < wall u d e) by (destruct G as (_ & _ & [Cs _] & _); exact Cs).
  pose proof (root_pos _ _ _ _ _ G). pose proof (coth_gt1 _ (eta_positive _ _ _ _ _ G)).
  apply Rmult_lt_0_compat; [apply Rdiv_lt_0_compat; assumption|lra].
Qed.
Lemma ratio_less u1 u2 m1 m2 cp1 cp2 d e : good_flow u1 m1 cp1 1 None d e -> good_flow u2 m2 cp2 1 None d e ->
  0 < m1 \/ u_reversible u1 = true -> 0 < m2 \/ u_reversible u2 = true -> u_Rd u1 = u_Rd u2 ->
  bH (u_b u1) / (Rabs m1 * cp1) < bH (u_b u2) / (Rabs m2 * cp2) ->
  ratio u2 m2 cp2 < ratio u1 m1 cp1.
Proof.
  intros G1 G2 P1 P2 E L. rewrite (ratio_eta u1 m1 cp1 d e), (ratio_eta u2 m2 cp2 d e) by assumption.
  assert (Ew : wall u1 d e = wall u2 d e) by (unfold wall; rewrite !(same_circuit u1 u2) by exact E; reflexivity).
  assert (Er : root u1 d e = root u2 d e) by (unfold root; rewrite Ew, !(same_circuit u1 u2) by exact E; reflexivity).
  rewrite Ew, Er. assert (W : 0 < wall u2 d e) by (destruct G2 as (_ & _ & [Cs _] & _); exact Cs).
  pose proof (root_pos _ _ _ _ _ G2) as Rp.
  apply Rmult_lt_compat_l; [apply Rdiv_lt_0_compat; assumption|].
  apply coth_down; [exact (eta_positive _ _ _ _ _ G1)|]. unfold eta. rewrite Er.
  apply Rmult_lt_compat_r; [exact Rp|exact L].
Qed.
Lemma ratio_half u m cp d e : good_flow u m cp 1 None d e -> 0 < m \/ u_reversible u = true -> 0 <= cond u d e ->
  1 / 2 < ratio u m cp.
Proof.
  intros G P C0. rewrite (ratio_eta u m cp d e G P).
  assert (W : 0 < wall u d e) by (destruct G as (_ & _ & [Cs _] & _); exact Cs).
  pose proof (coth_gt1 _ (eta_positive _ _ _ _ _ G)) as K.
  assert (1 / 2 <= root u d e / wall u d e).
  { apply Rmult_le_reg_r with (wall u d e); [lra|]. unfold Rdiv at 2. rewrite Rmult_assoc, Rinv_l, Rmult_1_r by lra.
    rewrite <- (sqrt_pow2 (1 / 2 * wall u d e)) by nra. apply sqrt_le_1_alt. nra. }
  nra.
Qed.

(** A product with a known value: the larger the one factor, the smaller the other. *)
Lemma product_less a b x y c : 0 < a -> a < b -> x * a = c -> y * b = c -> c <> 0 -> Rabs y < Rabs x.
Proof.
  intros A L E1 E2 N. apply Rmult_lt_reg_r with b; [lra|].
  replace (Rabs y * b) with (Rabs c) by (rewrite <- E2, Rabs_mult, (Rabs_right b) by lra; reflexivity).
  apply Rle_lt_trans with (Rabs x * a).
  - rewrite <- (Rabs_right a) at 1 by lra. rewrite <- Rabs_mult, E1. lra.
  - assert (x <> 0) by (intros ->; apply N; rewrite <- E1; ring). pose proof (Rabs_pos_lt x H).
    apply Rmult_lt_compat_l; assumption.
Qed.

Section Two.
Variables (u1 u2 : utube) (m1 m2 cp1 cp2 : R) (d e : nat) (t T : R).
Hypothesis G1 : good_flow u1 m1 cp1 1 None d e.
Hypothesis G2 : good_flow u2 m2 cp2 1 None d e.
Hypothesis P1 : 0 < m1 \/ u_reversible u1 = true.
Hypothesis P2 : 0 < m2 \/ u_reversible u2 = true.
Hypothesis E : u_Rd u1 = u_Rd u2.
Hypothesis NE : t <> T.
Definition out1 : R := get_outlet_temperature u1 t 1 (fun _ => T) m1 cp1 None.
Definition out2 : R := get_outlet_temperature u2 t 1 (fun _ => T) m2 cp2 None.

Lemma closer_inlet : bH (u_b u1) / (Rabs m1 * cp1) < bH (u_b u2) / (Rabs m2 * cp2) ->
  Rabs (out1 - t) < Rabs (out2 - t).
Proof.
  intros L. pose proof (ratio_pos _ _ _ _ _ G2 P2) as Rp.
  pose proof (ratio_less u1 u2 m1 m2 cp1 cp2 d e G1 G2 P1 P2 E L) as K.
  apply (product_less (1/2 + ratio u2 m2 cp2) (1/2 + ratio u1 m1 cp1) _ _ (T - t)); try lra.
  - exact (fluid_rise u2 m2 cp2 d e t T G2 P2).
  - exact (fluid_rise u1 m1 cp1 d e t T G1 P1).
Qed.

Lemma between u m cp x : good_flow u m cp 1 None d e -> 0 < m \/ u_reversible u = true -> 0 <= cond u d e ->
  x = get_outlet_temperature u t 1 (fun _ => T) m cp None ->
  exists l, 0 < l < 1 /\ x - t = l * (T - t) /\ T - x = (1 - l) * (T - t).
Proof.
  intros G P C0 ->. pose proof (fluid_rise u m cp d e t T G P) as F. pose proof (ratio_half u m cp d e G P C0) as H.
  exists (/ (1 / 2 + ratio u m cp)).
  assert (I : / (1 / 2 + ratio u m cp) < / 1) by (apply Rinv_lt_contravar; lra).
  assert (J : 0 < / (1 / 2 + ratio u m cp)) by (apply Rinv_0_lt_compat; lra).
  assert (K : get_outlet_temperature u t 1 (fun _ => T) m cp None - t = / (1 / 2 + ratio u m cp) * (T - t))
    by (rewrite <- F; field; lra).
  repeat split; lra.
Qed.

Lemma closer_wall : 0 <= cond u1 d e -> bH (u_b u1) / (Rabs m1 * cp1) < bH (u_b u2) / (Rabs m2 * cp2) ->
  Rabs (out2 - T) < Rabs (out1 - T).
Proof.
  intros C0 L. pose proof (closer_inlet L) as K.
  assert (C2 : 0 <= cond u2 d e) by (rewrite <- (same_circuit u1 u2) by exact E; exact C0).
  destruct (between u1 m1 cp1 out1 G1 P1 C0 eq_refl) as (l1 & L1 & A1 & B1).
  destruct (between u2 m2 cp2 out2 G2 P2 C2 eq_refl) as (l2 & L2 & A2 & B2).
  rewrite A1, A2, !Rabs_mult, !(Rabs_right l1), !(Rabs_right l2) in K by lra.
  rewrite (Rabs_minus_sym out1), (Rabs_minus_sym out2), B1, B2, !Rabs_mult, !(Rabs_right (1 - _)) by lra.
  assert (0 < Rabs (T - t)) by (apply Rabs_pos_lt; lra). nra.
Qed.

Lemma heat_eff u m cp : good_flow u m cp 1 None d e -> 0 < m \/ u_reversible u = true ->
  get_fluid_heat u t 1 (fun _ => T) m cp None * (1 / (2 * (Rabs m * cp)) + effective_R u m cp / bH (u_b u)) = T - t.
Proof.
  intros G P. rewrite C28_fluid, <- (fluid_rise u m cp d e t T G P). unfold ratio.
  assert (HP : 0 < bH (u_b u)) by apply G. pose proof (rate_pos _ _ _ _ _ G) as Mp.
  field. repeat split; try lra; intros Z; rewrite Z in Mp; lra.
Qed.

(** Same length, more flow. *)
Lemma more_flow_heat : bH (u_b u1) = bH (u_b u2) -> Rabs m1 * cp1 < Rabs m2 * cp2 ->
  Rabs (get_fluid_heat u1 t 1 (fun _ => T) m1 cp1 None) < Rabs (get_fluid_heat u2 t 1 (fun _ => T) m2 cp2 None).
Proof.
  intros EH L. pose proof (rate_pos _ _ _ _ _ G1) as M1. pose proof (rate_pos _ _ _ _ _ G2) as M2.
  assert (HP : 0 < bH (u_b u2)) by apply G2.
  assert (I : / (Rabs m2 * cp2) < / (Rabs m1 * cp1)) by (apply Rinv_lt_contravar; nra).
  assert (K : effective_R u2 m2 cp2 < effective_R u1 m1 cp1).
  { apply (eff_larger u2 u1 m2 m1 cp2 cp1 d e); auto. rewrite EH. unfold Rdiv. apply Rmult_lt_compat_l; assumption. }
  assert (EP : 0 < effective_R u2 m2 cp2).
  { pose proof (ratio_pos _ _ _ _ _ G2 P2) as Rp. unfold ratio in Rp.
    apply Rmult_lt_reg_r with (Rabs m2 * cp2 / bH (u_b u2)); [apply Rdiv_lt_0_compat; assumption|].
    rewrite Rmult_0_l. unfold Rdiv in *. rewrite <- Rmult_assoc. exact Rp. }
  apply (product_less (1 / (2 * (Rabs m2 * cp2)) + effective_R u2 m2 cp2 / bH (u_b u2))
                      (1 / (2 * (Rabs m1 * cp1)) + effective_R u1 m1 cp1 / bH (u_b u1)) _ _ (T - t)); try lra.
  - apply Rplus_lt_0_compat; apply Rdiv_lt_0_compat; lra.
  - rewrite EH. replace (1 / (2 * (Rabs m2 * cp2))) with (/ (Rabs m2 * cp2) / 2) by (field; split; intros Z; rewrite Z in M2; lra).
    replace (1 / (2 * (Rabs m1 * cp1))) with (/ (Rabs m1 * cp1) / 2) by (field; split; intros Z; rewrite Z in M1; lra).
    apply Rplus_lt_compat; [lra|]. unfold Rdiv. apply Rmult_lt_compat_r; [apply Rinv_0_lt_compat; exact HP|exact K].
  - exact (heat_eff u2 m2 cp2 G2 P2).
  - exact (heat_eff u1 m1 cp1 G1 P1).
Qed.

(** Same flow, longer borehole. *)
Lemma longer_heat : Rabs m1 * cp1 = Rabs m2 * cp2 -> bH (u_b u1) < bH (u_b u2) ->
  Rabs (get_fluid_heat u1 t 1 (fun _ => T) m1 cp1 None) < Rabs (get_fluid_heat u2 t 1 (fun _ => T) m2 cp2 None).
Proof.
  intros EM L. rewrite !C28_fluid, !Rabs_mult, <- !(Rabs_mult (Rabs _)), EM.
  pose proof (rate_pos _ _ _ _ _ G2) as M2.
  apply Rmult_lt_compat_l; [apply Rabs_pos_lt; lra|]. apply closer_inlet. rewrite EM.
  unfold Rdiv. apply Rmult_lt_compat_r; [apply Rinv_0_lt_compat; exact M2|exact L].
Qed.
End Two.

(** * All the influences on the effective resistance at once *)
Definition root_of (s c : R) : R := sqrt (1/4 * s ^ 2 + c * s).
Definition eff_of (x s c : R) : R := 1 / s * (x * root_of s c * cosh (x * root_of s c) / sinh (x * root_of s c)).

Lemma root_of_pos s c : 0 < s -> 0 <= c -> 0 < root_of s c.
Proof. intros S0 C0. apply sqrt_lt_R0. nra. Qed.
Lemma root_of_le s c1 c2 : 0 < s -> 0 <= c1 -> c1 <= c2 -> root_of s c1 <= root_of s c2.
Proof. intros S0 C0 L. apply sqrt_le_1_alt. nra. Qed.
Lemma root_of_up s1 s2 c : 0 < s1 -> 0 <= c -> s1 <= s2 -> root_of s1 c <= root_of s2 c.
Proof. intros S0 C0 L. apply sqrt_le_1_alt. nra. Qed.
Lemma root_of_down s1 s2 c : 0 < s1 -> 0 <= c -> s1 <= s2 -> 1 / s2 * root_of s2 c <= 1 / s1 * root_of s1 c.
Proof.
  intros S0 C0 L. assert (K : forall s, 0 < s -> 1 / s * root_of s c = sqrt (1 / 4 + c / s)).
  { intros s Hs. unfold root_of. replace (1/4 * s ^ 2 + c * s) with (s ^ 2 * (1 / 4 + c / s)) by (field; lra).
    rewrite sqrt_mult_alt by nra. rewrite sqrt_pow2 by lra. field. lra. }
  rewrite !K by lra. apply sqrt_le_1_alt. apply Rplus_le_compat_l. unfold Rdiv.
  apply Rmult_le_compat_l; [exact C0|]. apply Rinv_le_contravar; lra.
Qed.

Lemma xcoth_le x y : 0 < x -> x <= y -> x * cosh x / sinh x <= y * cosh y / sinh y.
Proof. intros X [L| ->]; [left; apply xcoth_up; assumption|lra]. Qed.
Lemma coth_le x y : 0 < x -> x <= y -> cosh y / sinh y <= cosh x / sinh x.
Proof. intros X [L| ->]; [left; apply coth_down; assumption|lra]. Qed.

Lemma eff_of_le x1 x2 s1 s2 c1 c2 : 0 < x1 -> x1 <= x2 -> 0 < s2 -> s2 <= s1 -> 0 <= c1 -> c1 <= c2 ->
  eff_of x1 s1 c1 <= eff_of x2 s2 c2.
Proof.
  intros X1 LX S2 LS C1 LC. apply Rle_trans with (eff_of x1 s1 c2).
  - unfold eff_of. pose proof (root_of_pos s1 c1 ltac:(lra) C1).
    apply Rmult_le_compat_l; [left; apply Rdiv_lt_0_compat; lra|].
    apply xcoth_le; [nra|]. apply Rmult_le_compat_l; [lra|]. apply root_of_le; lra.
  - apply Rle_trans with (eff_of x1 s2 c2).
    + unfold eff_of. pose proof (root_of_pos s1 c2 ltac:(lra) ltac:(lra)) as R1. pose proof (root_of_pos s2 c2 S2 ltac:(lra)) as R2.
      assert (E : forall s r, 1 / s * (x1 * r * cosh (x1 * r) / sinh (x1 * r)) = x1 * (1 / s * r) * (cosh (x1 * r) / sinh (x1 * r)))
        by (intros; unfold Rdiv; ring).
      rewrite !E. pose proof (root_of_down s2 s1 c2 S2 ltac:(lra) LS) as D. pose proof (root_of_up s2 s1 c2 S2 ltac:(lra) LS) as U.
      assert (P2 : 0 < x1 * root_of s2 c2) by nra. assert (P1 : 0 < x1 * root_of s1 c2) by nra.
      pose proof (coth_gt1 _ P1). 
      assert (I : 0 < 1 / s1) by (apply Rdiv_lt_0_compat; lra).
      apply Rmult_le_compat; [|lra|nra|].
      * apply Rmult_le_pos; [lra|]. apply Rmult_le_pos; lra.
      * apply coth_le; [exact P2|nra].
    + unfold eff_of. pose proof (root_of_pos s2 c2 S2 ltac:(lra)).
      apply Rmult_le_compat_l; [left; apply Rdiv_lt_0_compat; lra|].
      apply xcoth_le; [nra|]. apply Rmult_le_compat_r; lra.
Qed.

Lemma eff_monotone u1 u2 m1 m2 cp1 cp2 d1 e1 d2 e2 : good_flow u1 m1 cp1 1 None d1 e1 -> good_flow u2 m2 cp2 1 None d2 e2 ->
  0 < m1 \/ u_reversible u1 = true -> 0 < m2 \/ u_reversible u2 = true ->
  bH (u_b u1) / (Rabs m1 * cp1) <= bH (u_b u2) / (Rabs m2 * cp2) ->
  cond u2 d2 d2 + cond u2 e2 e2 <= cond u1 d1 d1 + cond u1 e1 e1 ->
  0 <= cond u1 d1 e1 <= cond u2 d2 e2 ->
  effective_R u1 m1 cp1 <= effective_R u2 m2 cp2.
Proof.
  intros G1 G2 P1 P2 LX LS [C1 LC]. rewrite (eff_eta u1 m1 cp1 d1 e1), (eff_eta u2 m2 cp2 d2 e2) by assumption.
  apply (eff_of_le _ _ (wall u1 d1 e1) (wall u2 d2 e2) (cond u1 d1 e1) (cond u2 d2 e2)); try assumption.
  - pose proof (rate_pos _ _ _ _ _ G1). assert (0 < bH (u_b u1)) by apply G1. apply Rdiv_lt_0_compat; assumption.
  - destruct G2 as (_ & _ & [Cs _] & _); exact Cs.
Qed.

(** * Any segments at one temperature *)
Lemma uniform_outlet u m cp n r d e t T : good_flow u m cp n r d e ->
  get_outlet_temperature u t n (fun _ => T) m cp r = get_outlet_temperature u t 1 (fun _ => T) m cp None.
Proof.
  intros G. assert (G1 : good_flow u m cp 1 None d e).
  { destruct G as (A & B & C & D & F & _). split; [exact A|]. split; [exact B|]. split; [exact C|]. split; [exact D|]. split; [exact F|cbn; lia]. }
  pose proof (proj1 (equil u m cp n r d e G 1 (fun _ => 1) 1 eq_refl (fun _ _ => eq_refl))) as E.
  pose proof (proj1 (equil u m cp 1 None d e G1 1 (fun _ => 1) 1 eq_refl (fun _ _ => eq_refl))) as E1.
  unfold get_outlet_temperature in *.
  change (fst (outlet u m cp n r)) with (fst (outlet u m cp 1 None)) in *.
  rewrite (sumn_scal_r n T), (sumn_scal_r 1 T). rewrite (sumn_scal_r n 1) in E. rewrite (sumn_scal_r 1 1) in E1.
  assert (K : sumn n (snd (outlet u m cp n r)) = sumn 1 (snd (outlet u m cp 1 None))) by lra.
  change (sumn n (fun k => snd (outlet u m cp n r) k)) with (sumn n (snd (outlet u m cp n r))).
  change (sumn 1 (fun k => snd (outlet u m cp 1 None) k)) with (sumn 1 (snd (outlet u m cp 1 None))).
  rewrite K. reflexivity.
Qed.
Lemma uniform_heat u m cp n r d e t T : good_flow u m cp n r d e ->
  get_fluid_heat u t n (fun _ => T) m cp r = get_fluid_heat u t 1 (fun _ => T) m cp None.
Proof. intros G. rewrite !C28_fluid, (uniform_outlet u m cp n r d e t T G). reflexivity. Qed.
Lemma one_segment u m cp n r d e : good_flow u m cp n r d e -> good_flow u m cp 1 None d e.
Proof.
  intros (A & B & C & D & F & _). split; [exact A|]. split; [exact B|]. split; [exact C|]. split; [exact D|]. split; [exact F|cbn; lia].
Qed.

(** * Reversed flow *)
Lemma reversed_flow u m cp : good_flow u m cp 1 None 0 1 -> 0 < m -> u_reversible u = true -> cond u 0 1 = cond u 1 0 ->
  good_flow u (- m) cp 1 None 1 0.
Proof.
  intros (A & B & [C1 C2] & D) P V E. split; [right; repeat split; [lra|exact V]|]. split; [exact B|]. split; [|exact D].
  split; [lra|]. rewrite <- E. lra.
Qed.
Lemma reversed_R u m cp : good_flow u m cp 1 None 0 1 -> 0 < m -> u_reversible u = true -> cond u 0 1 = cond u 1 0 ->
  effective_R u (- m) cp = effective_R u m cp.
Proof.
  intros G P V E. pose proof (reversed_flow u m cp G P V E) as G'.
  rewrite (eff_eta u m cp 0 1 G (or_introl P)), (eff_eta u (- m) cp 1 0 G' (or_intror V)).
  unfold eta, root, wall. rewrite <- E, Rabs_Ropp, (Rplus_comm (cond u 1 1)). reflexivity.
Qed.
Lemma reversed_out u m cp t T : good_flow u m cp 1 None 0 1 -> 0 < m -> u_reversible u = true -> cond u 0 1 = cond u 1 0 ->
  get_outlet_temperature u t 1 (fun _ => T) (- m) cp None = get_outlet_temperature u t 1 (fun _ => T) m cp None.
Proof.
  intros G P V E. pose proof (reversed_flow u m cp G P V E) as G'.
  pose proof (fluid_rise u m cp 0 1 t T G (or_introl P)) as F1. pose proof (fluid_rise u (- m) cp 1 0 t T G' (or_intror V)) as F2.
  pose proof (ratio_pos u m cp 0 1 G (or_introl P)) as Rp.
  replace (ratio u (- m) cp) with (ratio u m cp) in F2 by (unfold ratio; rewrite (reversed_R u m cp G P V E), Rabs_Ropp; reflexivity).
  assert (K : get_outlet_temperature u t 1 (fun _ => T) (- m) cp None - t = get_outlet_temperature u t 1 (fun _ => T) m cp None - t).
  { apply Rmult_eq_reg_r with (1 / 2 + ratio u m cp); [lra|lra]. }
  lra.
Qed.
