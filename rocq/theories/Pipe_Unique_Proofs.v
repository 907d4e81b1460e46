(* The energy balances and the end conditions have one solution. *)
From Coq Require Import Reals Lra Lia List Bool Psatz.
From Coquelicot Require Import Coquelicot.
From Verif Require Import Base LinAlg Bore_Model Net_Model Pipe_Model Pipe_Spec Pipe_Alg_Proofs Pipe_Proofs Pipe_Main_Proofs.
Local Open Scope R_scope.

Section Homogeneous.
Variables (b1 b2 b12 : R) (n : nat) (x : nat -> R) (f g : R -> R).
Hypothesis (Hs : 0 < b1 + b2) (Hd : 0 < b1 * b2 + b12 * (b1 + b2)).
Hypothesis (X : forall k, (k < n)%nat -> x k <= x (S k)).
Hypothesis (C : forall z, x 0%nat <= z <= x n -> continuous f z /\ continuous g z).
Hypothesis (D : forall k z, (k < n)%nat -> x k < z < x (S k) ->
  is_derive f z (- (b1 + b12) * f z + b12 * g z) /\ is_derive g z (- b12 * f z + (b2 + b12) * g z)).
Hypothesis (F0 : f (x 0%nat) = 0) (FH : f (x n) = g (x n)).

Let Q z := (b1 + b12) * f z ^ 2 - 2 * b12 * f z * g z + (b2 + b12) * g z ^ 2.
Let W z := f z ^ 2 - g z ^ 2.

Lemma Q_pos z : 0 <= Q z /\ (Q z = 0 -> f z = 0 /\ g z = 0).
Proof.
  unfold Q. set (p := f z). set (q := g z).
  assert (A : 0 < b1 + b12).
  { assert (0 < (b1 + b12) * (b1 + b2)) by nra. nra. }
  assert (E : (b1 + b12) * ((b1 + b12) * p ^ 2 - 2 * b12 * p * q + (b2 + b12) * q ^ 2)
    = ((b1 + b12) * p - b12 * q) ^ 2 + (b1 * b2 + b12 * (b1 + b2)) * q ^ 2) by ring.
  assert (S1 : 0 <= ((b1 + b12) * p - b12 * q) ^ 2) by apply pow2_ge_0.
  assert (S2 : 0 <= q ^ 2) by apply pow2_ge_0.
  split; [nra|]. intros Z. rewrite Z in E.
  assert (q ^ 2 = 0) by nra. assert (Q0 : q = 0) by nra. split; [|exact Q0].
  rewrite Q0 in Z. assert (p ^ 2 = 0) by nra. nra.
Qed.

Lemma x_mono i j : (i <= j <= n)%nat -> x i <= x j.
Proof.
  intros [L M]. induction L as [|j L IH]; [lra|]. specialize (IH ltac:(lia)). specialize (X j ltac:(lia)). lra.
Qed.

Lemma W_cont z : x 0%nat <= z <= x n -> continuity_pt W z.
Proof.
  intros Hz. destruct (C z Hz) as [Cf Cg]. apply continuity_pt_filterlim.
  unfold W. cbn [pow].
  apply (continuous_minus (fun z => f z * (f z * 1)) (fun z => g z * (g z * 1)) z).
  - apply (continuous_mult f (fun z => f z * 1) z Cf).
    apply (continuous_mult f (fun _ => 1) z Cf). apply continuous_const.
  - apply (continuous_mult g (fun z => g z * 1) z Cg).
    apply (continuous_mult g (fun _ => 1) z Cg). apply continuous_const.
Qed.

Lemma W_der k z : (k < n)%nat -> x k < z < x (S k) -> is_derive W z (- 2 * Q z).
Proof.
  intros Hk Hz. destruct (D k z Hk Hz) as [Df Dg].
  assert (P : forall (h : R -> R) l, is_derive h z l -> is_derive (fun z => h z ^ 2) z (2 * h z * l)).
  { intros h l Dh. assert (Y := is_derive_pow h 2 z l Dh). cbn [pred pow] in Y.
    replace (INR 2) with 2 in Y by (cbn; lra).
    replace (2 * h z * l) with (2 * l * (h z * 1)) by ring. exact Y. }
  assert (Y := is_derive_minus (fun z => f z ^ 2) (fun z => g z ^ 2) z _ _ (P f _ Df) (P g _ Dg)).
  unfold W. replace (- 2 * Q z) with (minus (2 * f z * (- (b1 + b12) * f z + b12 * g z)) (2 * g z * (- b12 * f z + (b2 + b12) * g z))).
  - exact Y.
  - unfold minus, plus, opp; cbn. unfold Q. ring.
Qed.

Lemma in_range k z : (k < n)%nat -> x k <= z <= x (S k) -> x 0%nat <= z <= x n.
Proof. intros Hk Hz. pose proof (x_mono 0 k ltac:(lia)). pose proof (x_mono (S k) n ltac:(lia)). lra. Qed.

Lemma W_dec k a b : (k < n)%nat -> x k <= a -> a <= b -> b <= x (S k) -> W b <= W a.
Proof.
  intros Hk Ha Hab Hb.
  destruct (MVT_gen W a b (fun z => - 2 * Q z)) as [c [Hc E]].
  - intros z. rewrite Rmin_left, Rmax_right by lra. intros Hz. apply (W_der k); auto. lra.
  - intros z. rewrite Rmin_left, Rmax_right by lra. intros Hz. apply W_cont. apply (in_range k); auto. lra.
  - pose proof (proj1 (Q_pos c)). nra.
Qed.

Lemma W_edges i j : (i <= j <= n)%nat -> W (x j) <= W (x i).
Proof.
  intros [L M]. induction L as [|j L IH]; [lra|]. specialize (IH ltac:(lia)).
  pose proof (W_dec j (x j) (x (S j)) ltac:(lia) ltac:(lra) (X j ltac:(lia)) ltac:(lra)). lra.
Qed.

Lemma W_zero k z : (k < n)%nat -> x k <= z <= x (S k) -> W z = 0.
Proof.
  intros Hk Hz.
  pose proof (W_edges 0 k ltac:(lia)). pose proof (W_edges (S k) n ltac:(lia)).
  pose proof (W_dec k (x k) z Hk ltac:(lra) ltac:(lra) ltac:(lra)).
  pose proof (W_dec k z (x (S k)) Hk ltac:(lra) ltac:(lra) ltac:(lra)).
  assert (W (x 0%nat) <= 0) by (unfold W; rewrite F0; pose proof (pow2_ge_0 (g (x 0%nat))); nra).
  assert (W (x n) = 0) by (unfold W; rewrite FH; ring). lra.
Qed.

Lemma inside k z : (k < n)%nat -> x k < z < x (S k) -> f z = 0 /\ g z = 0.
Proof.
  intros Hk Hz. apply Q_pos.
  pose proof (proj1 (Q_pos z)) as Qz.
  assert (D1 := W_der k z Hk Hz).
  assert (D2 : is_derive W z 0).
  { apply (is_derive_ext_loc (fun _ => 0)).
    - assert (Z1 := open_gt (x k) z ltac:(lra)). assert (Z2 := open_lt (x (S k)) z ltac:(lra)).
      generalize (filter_and _ _ Z1 Z2). apply filter_imp. intros y [Y1 Y2]. symmetry. apply (W_zero k); auto. lra.
    - apply (is_derive_const (V := R_NormedModule)). }
  apply is_derive_unique in D1. apply is_derive_unique in D2. lra.
Qed.

Lemma vanish_at (h : R -> R) a b z : a < b -> a <= z <= b -> continuous h z ->
  (forall y, a < y < b -> h y = 0) -> h z = 0.
Proof.
  intros Hab Hz Ch Hy. destruct (Req_dec (h z) 0) as [E|N]; [exact E|]. exfalso.
  assert (L : locally z (fun y => h y <> 0)).
  { apply (Ch (fun y => y <> 0)). apply (open_neq 0 (h z)). exact N. }
  destruct L as [eps L].
  assert (P : exists y, a < y < b /\ Rabs (y - z) < eps).
  { pose proof (cond_pos eps) as Ep. destruct (Rlt_dec z b) as [Lt|Ge].
    - set (s := Rmin (eps / 2) ((b - z) / 2)).
      assert (0 < s) by (unfold s; apply Rmin_pos; lra).
      assert (s <= eps / 2) by apply Rmin_l. assert (s <= (b - z) / 2) by apply Rmin_r.
      exists (z + s). split; [lra|]. replace (z + s - z) with s by ring. rewrite Rabs_pos_eq; lra.
    - set (s := Rmin (eps / 2) ((b - a) / 2)).
      assert (0 < s) by (unfold s; apply Rmin_pos; lra).
      assert (s <= eps / 2) by apply Rmin_l. assert (s <= (b - a) / 2) by apply Rmin_r.
      exists (z - s). split; [lra|]. replace (z - s - z) with (- s) by ring. rewrite Rabs_Ropp, Rabs_pos_eq; lra. }
  destruct P as [y [Y1 Y2]]. apply (L y); [exact Y2|]. apply Hy. exact Y1.
Qed.

Lemma located z : x 0%nat <= z <= x n -> x 0%nat < x n ->
  exists k, (k < n)%nat /\ x k < x (S k) /\ x k <= z <= x (S k).
Proof.
  intros Hz Hn.
  assert (A : forall m, (m <= n)%nat -> x 0%nat < x m -> x 0%nat <= z <= x m ->
    exists k, (k < n)%nat /\ x k < x (S k) /\ x k <= z <= x (S k)).
  { induction m as [|m IH]; intros Hm L Zm; [lra|].
    destruct (Rlt_dec (x m) (x (S m))) as [Lt|Ge].
    - destruct (Rle_dec (x m) z) as [Le|Gt].
      + exists m. repeat split; try lra. lia.
      + apply IH; [lia| |]; pose proof (x_mono 0 m ltac:(lia)); lra.
    - pose proof (X m ltac:(lia)). apply IH; [lia| |]; lra. }
  apply (A n); auto.
Qed.

Lemma vanish z : x 0%nat < x n -> x 0%nat <= z <= x n -> f z = 0 /\ g z = 0.
Proof.
  intros Hn Hz. destruct (located z Hz Hn) as [k [Hk [L Zk]]]. destruct (C z Hz) as [Cf Cg].
  split.
  - apply (vanish_at f (x k) (x (S k)) z L Zk Cf). intros y Hy. apply (inside k y Hk Hy).
  - apply (vanish_at g (x k) (x (S k)) z L Zk Cg). intros y Hy. apply (inside k y Hk Hy).
Qed.
End Homogeneous.

Section Unique.
Variables (u : utube) (m cp : R) (n : nat) (r : option (list R)) (d e : nat).
Hypothesis (G : good_flow u m cp n r d e).
Variables (Tin : R) (Tb : nat -> R) (S : nat -> R -> R).
Let H := bH (u_b u).
Let M := Rabs m * cp.
Let T i z := get_temperature u Tin n Tb m cp r z i.
Hypothesis (SE : forall k z, (k < n)%nat -> depth u n r k < z < depth u n r (Datatypes.S k) ->
  energy_balance u d e M (Tb k) S z).
Hypothesis (SC : forall z, 0 <= z <= H -> continuous (S d) z /\ continuous (S e) z).
Hypothesis (S0 : S d 0 = Tin) (SH : S d H = S e H).

Lemma unique z : 0 <= z <= H -> S d z = T d z /\ S e z = T e z.
Proof.
  intros Hz.
  pose proof (M_pos u m cp n r d e G) as Mp. fold M in Mp.
  pose proof (b_sum u m cp n r d e G) as Hs. pose proof (b_det u m cp n r d e G) as Hd. fold M in Hs, Hd.
  set (b1 := cond u d d / M) in *. set (b2 := cond u e e / M) in *. set (b12 := cond u d e / M) in *.
  assert (X0 : depth u n r 0 = 0) by (unfold depth; cbn; ring).
  assert (Xn : depth u n r n = H) by (rewrite <- (ed_depth u m cp n r d e G n (le_n n)); exact (ed_n u m cp n r d e G)).
  assert (HP : 0 < H) by (destruct G as (_ & _ & _ & _ & HP & _); exact HP).
  destruct (boundary u m cp n r d e G Tin Tb) as [B0 [BH _]]. fold H in BH. change (T d 0 = Tin) in B0. change (T d H = T e H) in BH.
  assert (K := vanish b1 b2 b12 n (depth u n r) (fun z => S d z - T d z) (fun z => S e z - T e z) Hs Hd).
  cbv beta in K.
  cut (S d z - T d z = 0 /\ S e z - T e z = 0); [intros [A B]; split; lra|].
  apply K; clear K; try (rewrite ?X0, ?Xn); try lra.
  - intros k Hk. rewrite <- !(ed_depth u m cp n r d e G) by lia. apply (ed_step u m cp n r d e G); auto.
  - intros y Hy. destruct (SC y Hy) as [C1 C2].
    destruct (profile_continuous u m cp n r d e G Tin Tb y) as [C3 C4].
    split; [apply (continuous_minus (S d) (T d) y C1 C3)|apply (continuous_minus (S e) (T e) y C2 C4)].
  - intros k y Hk Hy. destruct (SE k y Hk Hy) as (p & q & Dp & Dq & Ep & Eq).
    destruct (energy u m cp n r d e G Tin Tb k y Hk Hy) as (p' & q' & Dp' & Dq' & Ep' & Eq').
    fold M in Ep', Eq'. change (is_derive (T d) y p') in Dp'. change (is_derive (T e) y q') in Dq'.
    change (M * p' = cond u d d * (Tb k - T d y) + cond u d e * (T e y - T d y)) in Ep'.
    change (- M * q' = cond u e e * (Tb k - T e y) + cond u d e * (T d y - T e y)) in Eq'.
    split.
    + replace (- (b1 + b12) * (S d y - T d y) + b12 * (S e y - T e y)) with (minus p p').
      * exact (is_derive_minus (S d) (T d) y p p' Dp Dp').
      * unfold minus, plus, opp; cbn. apply Rmult_eq_reg_l with M; [|lra]. unfold b1, b12. field_simplify; [|lra].
        lra.
    + replace (- b12 * (S d y - T d y) + (b2 + b12) * (S e y - T e y)) with (minus q q').
      * exact (is_derive_minus (S e) (T e) y q q' Dq Dq').
      * unfold minus, plus, opp; cbn. apply Rmult_eq_reg_l with M; [|lra]. unfold b2, b12. field_simplify; [|lra].
        lra.
Qed.

Lemma unique_outlet : S e 0 = get_outlet_temperature u Tin n Tb m cp r.
Proof.
  destruct (boundary u m cp n r d e G Tin Tb) as [_ [_ B]]. rewrite <- B. apply (unique 0).
  destruct G as (_ & _ & _ & _ & HP & _). fold H in HP. lra.
Qed.
End Unique.
