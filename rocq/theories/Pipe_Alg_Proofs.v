(* The closed-form solution of the two legs of a U-tube: algebra and calculus. *)
From Coq Require Import Reals Lra Lia List Bool Psatz.
From Coquelicot Require Import Coquelicot.
From Verif Require Import Base LinAlg Bore_Model Net_Model Pipe_Model.
Import ListNotations.
Local Open Scope R_scope.

Section Closed.
Variables (b1 b2 b12 H : R).
Hypothesis (Hs : 0 < b1 + b2).
Hypothesis (Hd : 0 < b1 * b2 + b12 * (b1 + b2)).
Hypothesis (HH : 0 <= H).

Let v := vars_of b1 b2 b12.
Let g := vg v.
Let b := vb v.

Lemma g_arg : 0 < 1/4 * (b1 + b2) ^ 2 + b12 * (b1 + b2).
Proof. assert (0 <= (b1 - b2)^2) by apply pow2_ge_0. nra. Qed.

Lemma g_pos : 0 < g.
Proof. apply sqrt_lt_R0, g_arg. Qed.

Lemma g_sq : g * g = 1/4 * (b1 + b2) ^ 2 + b12 * (b1 + b2).
Proof. apply sqrt_def. left; apply g_arg. Qed.

Lemma b_eq : b = 1/2 * (b2 - b1). Proof. reflexivity. Qed.

Lemma bg_pos : 0 < b + g.
Proof. assert (X := g_pos); assert (Y := g_sq). unfold b, vb, v, vars_of; fold v. rewrite ?b_eq. nra. Qed.

Lemma bg_neg : b - g < 0.
Proof. assert (X := g_pos); assert (Y := g_sq). rewrite b_eq. nra. Qed.

Lemma b12_eq : b12 = (g * g - 1/4 * (b1 + b2) ^ 2) / (b1 + b2).
Proof. rewrite g_sq. field. lra. Qed.

Let E := exp (- 2 * g * H).

Lemma E_range : 0 < E <= 1.
Proof.
  split; [apply exp_pos|]. unfold E. rewrite <- exp_0 at 1.
  assert (X := g_pos). destruct (Req_dec (-2 * g * H) 0) as [-> | ?]; [lra|].
  left; apply exp_increasing. nra.
Qed.

Lemma den_pos : 0 < cB v + cA v * E.
Proof.
  unfold cA, cB. fold g. assert (X := g_pos). assert (Y := E_range).
  change (v1 v) with b1; change (v2 v) with b2.
  assert (0 < 1/2 * (b1 + b2) / g) by (apply Rdiv_lt_0_compat; lra).
  set (s := 1/2 * (b1 + b2) / g) in *. nra.
Qed.

Lemma den_field : 2 * g * (1 + E) + (b1 + b2) * (1 - E) <> 0.
Proof. assert (X := g_pos). assert (Y := E_range). nra. Qed.

End Closed.


(* The facts used below about three conductances; gamma becomes a variable and
   beta12 is expressed with it. *)
Ltac open_vars v g b1 b2 b12 Hs Hd :=
  pose proof (g_pos b1 b2 b12 Hd : 0 < vg v) as Pg;
  pose proof (bg_pos b1 b2 b12 Hd : 0 < 1/2 * (b2 - b1) + vg v) as Pp;
  pose proof (bg_neg b1 b2 b12 Hd : 1/2 * (b2 - b1) - vg v < 0) as Pn;
  pose proof (b12_eq b1 b2 b12 Hs Hd
    : b12 = (vg v * vg v - 1/4 * (b1 + b2) ^ 2) / (b1 + b2)) as P12;
  change (vd v) with (1 / vg v * (b12 + 1/2 * (b1 + b2))) in *;
  change (vb v) with (1/2 * (b2 - b1)) in *;
  change (v1 v) with b1 in *; change (v2 v) with b2 in *; change (v12 v) with b12 in *;
  set (g := vg v) in *.

Section Der.
Variables (b1 b2 b12 H : R).
Hypothesis (Hs : 0 < b1 + b2).
Hypothesis (Hd : 0 < b1 * b2 + b12 * (b1 + b2)).

Lemma t_in_der (z : R) :
  let v := vars_of b1 b2 b12 in
  is_derive (t_in0 v H) z (- (b1 + b12) * t_in0 v H z + b12 * t_in1 v H z)
  /\ is_derive (t_in1 v H) z (- b12 * t_in0 v H z + (b2 + b12) * t_in1 v H z).
Proof.
  intros v.
  unfold t_in0, t_in1, cA, cB. set (C := cC v H).
  open_vars v g b1 b2 b12 Hs Hd. clearbody g C. clear v.
  split; (auto_derive; [trivial|]);
    set (X := exp ((1 / 2 * (b2 - b1) + g) * z + - (2 * g * H)));
    change (exp ((1 / 2 * (b2 - b1) + g) * z - 2 * g * H)) with X;
    set (Y := exp ((1 / 2 * (b2 - b1) + - g) * z));
    change (exp ((1 / 2 * (b2 - b1) - g) * z)) with Y;
    clearbody X Y; rewrite P12; field; lra.
Qed.
End Der.

(* The two branches of the edge functions. *)
Definition pe0 (v : uvars) (H w z : R) : R :=
  let a1 := - cA4 v * cA v in let a2 := - cB4 v * cB v in let a3 := - cB4 v * cA v in
  let a4 := v12 v / vg v * (v1 v + v2 v) / vg v in
  let a5 := - v12 v / vg v * (v1 v + v2 v) / vg v in
  let b := vb v in let g := vg v in let dz := z - w in
  1/2 * (a1 * exp ((b + g) * dz - 2 * g * H) + a2 * exp ((b - g) * dz)
         + a3 * exp ((b - g) * dz - 2 * g * H) + a4 * exp ((b - g) * z - (b + g) * w)
         - a5 * exp ((b + g) * z - (b - g) * w - 2 * g * H)
         + a5 * exp ((b - g) * dz - 2 * g * H)).
Definition me0 (v : uvars) (H w z : R) : R :=
  let a0 := - cA4 v * cB v in
  let a1 := - cA4 v * cA v in let a2 := - cB4 v * cB v in let a3 := - cB4 v * cA v in
  let a4 := v12 v / vg v * (v1 v + v2 v) / vg v in
  let a5 := - v12 v / vg v * (v1 v + v2 v) / vg v in
  let b := vb v in let g := vg v in let dz := z - w in
  1/2 * (a0 - a4 * exp ((b + g) * dz) + a1 * exp (- 2 * g * H) + a2
         + a3 * exp (- 2 * g * H) + a4 * exp ((b - g) * z - (b + g) * w)
         - a5 * exp ((b + g) * z - (b - g) * w - 2 * g * H)
         + a5 * exp ((b - g) * dz - 2 * g * H)).
Definition pe1 (v : uvars) (H w z : R) : R :=
  let a1 := cA5 v * cA v in let a2 := cB5 v * cB v in let a3 := cB5 v * cA v in
  let a4 := (vd v + 1) * (v1 v + v2 v) / vg v in
  let a5 := (vd v - 1) * (v1 v + v2 v) / vg v in
  let b := vb v in let g := vg v in let dz := z - w in
  1/2 * (a1 * exp ((b + g) * dz - 2 * g * H) + a2 * exp ((b - g) * dz)
         + a3 * exp ((b - g) * dz - 2 * g * H) + a5 * exp ((b - g) * z - (b + g) * w)
         + a4 * exp ((b + g) * z - (b - g) * w - 2 * g * H)
         - a5 * exp ((b - g) * dz - 2 * g * H)).
Definition me1 (v : uvars) (H w z : R) : R :=
  let a0 := cA5 v * cB v in
  let a1 := cA5 v * cA v in let a2 := cB5 v * cB v in let a3 := cB5 v * cA v in
  let a4 := (vd v + 1) * (v1 v + v2 v) / vg v in
  let a5 := (vd v - 1) * (v1 v + v2 v) / vg v in
  let b := vb v in let g := vg v in let dz := z - w in
  1/2 * (a0 - a4 * exp ((b + g) * dz) + a1 * exp (- 2 * g * H) + a2
         + a3 * exp (- 2 * g * H) + a5 * exp ((b - g) * z - (b + g) * w)
         + a4 * exp ((b + g) * z - (b - g) * w - 2 * g * H)
         - a5 * exp ((b - g) * dz - 2 * g * H)).

Lemma t_edge0_eq v H z w : t_edge0 v H z w = if Rleb 0 (z - w) then pe0 v H w z else me0 v H w z.
Proof. reflexivity. Qed.
Lemma t_edge1_eq v H z w : t_edge1 v H z w = if Rleb 0 (z - w) then pe1 v H w z else me1 v H w z.
Proof. reflexivity. Qed.

Section Edge.
Variables (b1 b2 b12 H : R).
Hypothesis (Hs : 0 < b1 + b2).
Hypothesis (Hd : 0 < b1 * b2 + b12 * (b1 + b2)).
Let v := vars_of b1 b2 b12.

Ltac op g := unfold pe0, me0, pe1, me1, cA4, cB4, cA5, cB5, cA, cB;
  open_vars v g b1 b2 b12 Hs Hd; clearbody g; clear v.
Ltac fin P12 := rewrite P12; field; repeat split; lra.

Lemma pe_der w z :
  is_derive (pe0 v H w) z (- (b1 + b12) * pe0 v H w z + b12 * pe1 v H w z)
  /\ is_derive (pe1 v H w) z (- b12 * pe0 v H w z + (b2 + b12) * pe1 v H w z).
Proof.
  op g.
  split; (auto_derive; [trivial|]);
    change (1 / 2 * (b2 - b1) + - g) with (1 / 2 * (b2 - b1) - g);
    change (z + - w) with (z - w);
    set (X1 := exp ((1 / 2 * (b2 - b1) + g) * (z - w) + - (2 * g * H)));
    change (exp ((1 / 2 * (b2 - b1) + g) * (z - w) - 2 * g * H)) with X1;
    set (X2 := exp ((1 / 2 * (b2 - b1) - g) * (z - w)));
    set (X3 := exp ((1 / 2 * (b2 - b1) - g) * (z - w) + - (2 * g * H)));
    change (exp ((1 / 2 * (b2 - b1) - g) * (z - w) - 2 * g * H)) with X3;
    set (X4 := exp ((1 / 2 * (b2 - b1) - g) * z + - ((1 / 2 * (b2 - b1) + g) * w)));
    change (exp ((1 / 2 * (b2 - b1) - g) * z - (1 / 2 * (b2 - b1) + g) * w)) with X4;
    set (X5 := exp ((1 / 2 * (b2 - b1) + g) * z + - ((1 / 2 * (b2 - b1) - g) * w) + - (2 * g * H)));
    change (exp ((1 / 2 * (b2 - b1) + g) * z - (1 / 2 * (b2 - b1) - g) * w - 2 * g * H)) with X5;
    clearbody X1 X2 X3 X4 X5; fin P12.
Qed.

Lemma me_der w z :
  let S := cB v + cA v * exp (- 2 * vg v * H) in
  is_derive (me0 v H w) z (- (b1 + b12) * me0 v H w z + b12 * me1 v H w z + b1 * S)
  /\ is_derive (me1 v H w) z (- b12 * me0 v H w z + (b2 + b12) * me1 v H w z - b2 * S).
Proof.
  cbv zeta. op g.
  split; (auto_derive; [trivial|]);
    change (1 / 2 * (b2 - b1) + - g) with (1 / 2 * (b2 - b1) - g);
    change (z + - w) with (z - w);
    set (X1 := exp ((1 / 2 * (b2 - b1) + g) * (z - w)));
    set (X2 := exp (- 2 * g * H));
    set (X3 := exp ((1 / 2 * (b2 - b1) - g) * (z - w) + - (2 * g * H)));
    change (exp ((1 / 2 * (b2 - b1) - g) * (z - w) - 2 * g * H)) with X3;
    set (X4 := exp ((1 / 2 * (b2 - b1) - g) * z + - ((1 / 2 * (b2 - b1) + g) * w)));
    change (exp ((1 / 2 * (b2 - b1) - g) * z - (1 / 2 * (b2 - b1) + g) * w)) with X4;
    set (X5 := exp ((1 / 2 * (b2 - b1) + g) * z + - ((1 / 2 * (b2 - b1) - g) * w) + - (2 * g * H)));
    change (exp ((1 / 2 * (b2 - b1) + g) * z - (1 / 2 * (b2 - b1) - g) * w - 2 * g * H)) with X5;
    clearbody X1 X2 X3 X4 X5; fin P12.
Qed.

(* The branches meet at z = w. *)
Lemma pe_me w : pe0 v H w w = me0 v H w w /\ pe1 v H w w = me1 v H w w.
Proof.
  op g. replace (w - w) with 0 by ring. rewrite !Rmult_0_r, exp_0.
  replace (0 - 2 * g * H) with (-2 * g * H) by ring.
  split.
  - set (X2 := exp (- 2 * g * H)).
    set (X4 := exp _). set (X5 := exp _). clearbody X2 X4 X5. fin P12.
  - set (X2 := exp (- 2 * g * H)).
    set (X4 := exp _). set (X5 := exp _). clearbody X2 X4 X5. fin P12.
Qed.

(* Top of the inlet leg *)
Lemma me0_top w : me0 v H w 0 = cB v + cA v * exp (- 2 * vg v * H).
Proof.
  op g. rewrite Rmult_0_r.
  replace ((1 / 2 * (b2 - b1) + g) * (0 - w)) with (- ((1 / 2 * (b2 - b1) + g) * w)) by ring.
  replace (0 - (1 / 2 * (b2 - b1) + g) * w) with (- ((1 / 2 * (b2 - b1) + g) * w)) by ring.
  replace ((1 / 2 * (b2 - b1) - g) * (0 - w) - 2 * g * H)
    with ((1 / 2 * (b2 - b1) + g) * 0 - (1 / 2 * (b2 - b1) - g) * w - 2 * g * H) by ring.
  set (X2 := exp (- 2 * g * H)).
  set (X4 := exp _). set (X5 := exp _). clearbody X2 X4 X5. fin P12.
Qed.

(* Bottom *)
Lemma pe_bottom w : pe0 v H w H = pe1 v H w H.
Proof.
  op g.
  replace ((1 / 2 * (b2 - b1) + g) * (H - w) - 2 * g * H)
    with ((1 / 2 * (b2 - b1) - g) * H - (1 / 2 * (b2 - b1) + g) * w) by ring.
  replace ((1 / 2 * (b2 - b1) + g) * H - (1 / 2 * (b2 - b1) - g) * w - 2 * g * H)
    with ((1 / 2 * (b2 - b1) - g) * (H - w)) by ring.
  set (X2 := exp (_ * (H - w))).
  set (X3 := exp (_ * (H - w) - _)). set (X4 := exp _). clearbody X2 X3 X4. fin P12.
Qed.

(* Top of the outlet leg *)
Lemma me1_top w :
  me1 v H w 0 = cB v + cA v * exp (- 2 * vg v * H)
    - (v1 v + v2 v) / vg v * (exp (- w * (vb v + vg v)) - exp (- w * (vb v - vg v) - 2 * vg v * H)).
Proof.
  op g. rewrite Rmult_0_r.
  replace ((1 / 2 * (b2 - b1) + g) * (0 - w)) with (- w * (1 / 2 * (b2 - b1) + g)) by ring.
  replace (0 - (1 / 2 * (b2 - b1) + g) * w) with (- w * (1 / 2 * (b2 - b1) + g)) by ring.
  replace ((1 / 2 * (b2 - b1) + g) * 0 - (1 / 2 * (b2 - b1) - g) * w - 2 * g * H)
    with (- w * (1 / 2 * (b2 - b1) - g) - 2 * g * H) by ring.
  replace ((1 / 2 * (b2 - b1) - g) * (0 - w) - 2 * g * H)
    with (- w * (1 / 2 * (b2 - b1) - g) - 2 * g * H) by ring.
  set (X2 := exp (- 2 * g * H)).
  set (X4 := exp (- w * (1 / 2 * (b2 - b1) + g))). set (X5 := exp _). clearbody X2 X4 X5. fin P12.
Qed.

(* Edge at the top *)
Lemma pe_zero z :
  cC v H * pe0 v H 0 z = t_in0 v H z /\ cC v H * pe1 v H 0 z = t_in1 v H z.
Proof.
  unfold t_in0, t_in1. generalize (cC v H); intros C. op g. rewrite Rminus_0_r, !Rmult_0_r, !Rminus_0_r.
  set (X1 := exp ((_ + _) * z - _)). set (X2 := exp (_ * z)). set (X3 := exp (_ * z - _)).
  clearbody X1 X2 X3. split; fin P12.
Qed.

(* Edge at the bottom *)
Lemma me_bottom z :
  me0 v H H z = cB v + cA v * exp (- 2 * vg v * H)
  /\ me1 v H H z = cB v + cA v * exp (- 2 * vg v * H).
Proof.
  op g.
  replace ((1 / 2 * (b2 - b1) - g) * z - (1 / 2 * (b2 - b1) + g) * H)
    with ((1 / 2 * (b2 - b1) - g) * (z - H) - 2 * g * H) by ring.
  replace ((1 / 2 * (b2 - b1) + g) * z - (1 / 2 * (b2 - b1) - g) * H - 2 * g * H)
    with ((1 / 2 * (b2 - b1) + g) * (z - H)) by ring.
  set (X1 := exp (- 2 * g * H)). set (X2 := exp (_ * (z - H))). set (X3 := exp (_ * _ - _)).
  clearbody X1 X2 X3. split; fin P12.
Qed.

Lemma pe_bottom_H : pe0 v H H H = cB v + cA v * exp (- 2 * vg v * H)
  /\ pe1 v H H H = cB v + cA v * exp (- 2 * vg v * H).
Proof. destruct (pe_me H) as [-> ->]. apply me_bottom. Qed.

(* Response to the inlet: top and bottom *)
Lemma t_in_ends (HH : 0 <= H) :
  t_in0 v H 0 = 1 /\ t_in0 v H H = t_in1 v H H /\ t_in1 v H 0 = out_in v H.
Proof.
  pose proof (den_field b1 b2 b12 H Hs Hd HH) as DF.
  unfold t_in0, t_in1, out_in, cC, cA, cB. open_vars v g b1 b2 b12 Hs Hd.
  change (vg (vars_of b1 b2 b12)) with g in DF.
  clearbody g; clear v.
  rewrite !Rmult_0_r, exp_0.
  replace (0 - 2 * g * H) with (-2 * g * H) by ring.
  replace ((1 / 2 * (b2 - b1) + g) * H - 2 * g * H) with ((1 / 2 * (b2 - b1) - g) * H) by ring.
  set (X1 := exp (- 2 * g * H)) in *. set (X2 := exp _). clearbody X1 X2.
  repeat split; rewrite ?P12; field; repeat split; try lra.
Qed.

End Edge.
