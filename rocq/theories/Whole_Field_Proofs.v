(** The fields of the library are spread if the spacing is at least six radii. *)
From Coq Require Import String Reals Lra Lia List Sorted.
From Verif Require Import Base Bore_Model Bore_Spec Field_Model Field_Spec FieldLayout_Proofs FieldStag_Proofs Field_Props Whole_Spec.
Import ListNotations.
Local Open Scope R_scope.

(** A field of equal vertical boreholes at least d apart *)
Lemma spread_equal l H D r o d : l <> [] -> (forall b, In b l -> as_specified H D r 0 o b) -> spaced d l -> 6 * r <= d -> 0 < H -> 0 <= D -> 0 < r -> spread l.
Proof.
  intros N S Sp L PH PD Pr. split; [exact N|]. split.
  - intros b Ib. destruct (S b Ib) as (E1 & E2 & E3 & T1 & T2). rewrite E1, E2, E3. split; [|auto].
    destruct (Rlt_le_dec (sqrt ((bx b - fst o) ^ 2 + (by_ b - snd o) ^ 2)) r) as [K|K]; [apply (T1 K)|apply (T2 K)].
  - intros a b c La Lb Ic Nab. destruct (S c Ic) as (_ & _ & E3 & _). rewrite E3. eapply Rle_trans; [exact L|]. apply Sp; auto.
Qed.

Lemma some_bores (l : list bore) n : List.length l = n -> (1 <= n)%nat -> l <> [].
Proof. intros E L ->. cbn in E. lia. Qed.

Lemma lattice_spread P m B1 B2 H D r o res : built (lattice B1 B2) P m H D r 0 o res -> (1 <= m)%nat -> 0 < H -> 0 <= D -> 0 < r -> 6 * r <= B1 -> 6 * r <= B2 ->
  exists f, res = Some f /\ List.length (to_boreholes f) = m /\ spread (to_boreholes f).
Proof.
  intros (f & E & _ & L & La & S) Pm PH PD Pr L1 L2. exists f. split; auto. split; auto.
  apply (spread_equal _ H D r o (Rmin B1 B2)); auto; [apply (some_bores _ m); auto|apply (C14_spacing B1 B2 P); auto; lra|apply Rmin_glb; auto].
Qed.

Lemma staggered_spread P m B1 B2 H D r o res : built (half_shifted B1 B2) P m H D r 0 o res -> (1 <= m)%nat -> 0 < H -> 0 <= D -> 0 < r ->
  6 * r <= B1 -> 3 * r <= B2 -> (6 * r) ^ 2 <= (B1 / 2) ^ 2 + B2 ^ 2 ->
  exists f, res = Some f /\ List.length (to_boreholes f) = m /\ spread (to_boreholes f).
Proof.
  intros (f & E & _ & L & La & S) Pm PH PD Pr L1 L2 L3. exists f. split; auto. split; auto.
  apply (spread_equal _ H D r o (6 * r)); auto; [apply (some_bores _ m); auto| |lra].
  apply (C16_staggered_spacing B1 B2 (6 * r) P); auto; nra.
Qed.

Lemma sin_chord N k : (0 < k < N)%nat -> sin (PI / INR N) <= sin (PI * INR k / INR N).
Proof.
  intros Hk. assert (PN : 0 < INR N) by (apply lt_0_INR; lia). pose proof PI_RGT_0 as Pp.
  assert (L1 : 1 <= INR k) by (apply (le_INR 1); lia). assert (L2 : INR k <= INR N - 1) by (replace (INR N - 1) with (INR (N - 1)) by (rewrite minus_INR by lia; cbn; ring); apply le_INR; lia).
  assert (A : forall x, 1 <= x -> x <= INR N / 2 -> sin (PI / INR N) <= sin (PI * x / INR N)).
  { intros x X1 X2. apply sin_incr_1.
    - assert (0 < PI / INR N) by (apply Rdiv_lt_0_compat; lra). lra.
    - apply (Rmult_le_reg_r (INR N)); auto. replace (PI / INR N * INR N) with PI by (field; lra). nra.
    - assert (0 <= PI * x / INR N) by (apply Rmult_le_pos; [nra|left; apply Rinv_0_lt_compat; lra]). lra.
    - apply (Rmult_le_reg_r (INR N)); auto. replace (PI * x / INR N * INR N) with (PI * x) by (field; lra). nra.
    - apply (Rmult_le_reg_r (INR N)); auto. replace (PI / INR N * INR N) with PI by (field; lra). replace (PI * x / INR N * INR N) with (PI * x) by (field; lra). nra. }
  destruct (Rle_lt_dec (INR k) (INR N / 2)) as [K|K]; [apply A; auto|].
  replace (sin (PI * INR k / INR N)) with (sin (PI * (INR N - INR k) / INR N)); [apply A; lra|].
  replace (PI * (INR N - INR k) / INR N) with (PI - PI * INR k / INR N) by (field; lra). apply sin_PI_x.
Qed.

Lemma circle_spread N Rad H D r o : (1 <= N)%nat -> 0 < Rad -> 0 < H -> 0 <= D -> 0 < r -> (N = 1%nat \/ 6 * r <= 2 * Rad * sin (PI / INR N)) ->
  exists f, circle_field N Rad H D r 0 o = Some f /\ List.length (to_boreholes f) = N /\ spread (to_boreholes f).
Proof.
  intros PN PR PH PD Pr L. destruct (C17_circle N Rad H D r 0 o PR) as (f & E & _ & Ln & S & _ & Di). exists f. split; auto. split; auto.
  apply (spread_equal _ H D r (circle_center o) (6 * r)); auto; [apply (some_bores _ N); auto|intros b Ib; apply (S b Ib)| |lra].
  assert (Q : forall a b, (a < b < N)%nat -> 6 * r <= plane_dist (nth a (to_boreholes f) b0) (nth b (to_boreholes f) b0)).
  { intros a b Lab. destruct L as [->|L]; [lia|]. rewrite (proj1 (Di a b Lab)). eapply Rle_trans; [exact L|]. apply Rmult_le_compat_l; [lra|]. apply sin_chord. lia. }
  intros a b La Lb Nab. rewrite Ln in *. destruct (Nat.lt_gt_cases a b) as [K _]. destruct (K Nab) as [K1|K1]; [apply Q; lia|].
  pose proof (Q b a ltac:(lia)) as Q1. unfold plane_dist in *. eapply Rle_trans; [exact Q1|]. right. f_equal. ring.
Qed.

Lemma dense_spread N1 N2 B H D r last o : (1 <= N1)%nat -> (1 <= N2)%nat -> 0 < H -> 0 <= D -> 0 < r -> 6 * r <= B ->
  exists f, dense_field N1 N2 B H D r last 0 o = Some f /\ spread (to_boreholes f).
Proof.
  intros P1 P2 PH PD Pr L.
  assert (Q : exists f oo, dense_field N1 N2 B H D r last 0 o = Some f /\ to_boreholes f <> [] /\ forall b, In b (to_boreholes f) -> as_specified H D r 0 oo b).
  { unfold dense_field. set (B2 := if (1 <? N1)%nat then sqrt 3 / 2 * B else B). destruct (Nat.eq_dec N1 1) as [K1|K1]; [|destruct (Nat.eq_dec N2 1) as [K2|K2]].
    - rewrite C16_staggered_line by auto. destruct (C14_rectangle N1 N2 B B2 H D r 0 o) as (f & E & _ & Ln & _ & S). exists f, (center N1 N2 B B2 o).
      split; auto. split; auto. apply (some_bores _ _ Ln). nia.
    - rewrite C16_staggered_line by auto. destruct (C14_rectangle N1 N2 B B2 H D r 0 o) as (f & E & _ & Ln & _ & S). exists f, (center N1 N2 B B2 o).
      split; auto. split; auto. apply (some_bores _ _ Ln). nia.
    - destruct (C16_staggered N1 N2 B B2 H D r last 0 o ltac:(lia) ltac:(lia)) as (f & E & _ & Ln & _ & S). exists f, (stag_center N1 N2 B B2 last o).
      split; auto. split; auto. apply (some_bores _ _ Ln). unfold staggered_count. destruct last; [nia|].
      pose proof (Nat.div_le_upper_bound N2 2 N2 ltac:(lia) ltac:(lia)). assert (2 * N2 <= N1 * N2)%nat by nia. lia. }
  destruct Q as (f & oo & E & N & S). exists f. split; auto. apply (spread_equal _ H D r oo B); auto.
  destruct (Nat.eq_dec (N1 * N2) 1) as [K|K].
  - assert (Ln : List.length (to_boreholes f) = 1%nat).
    { assert (N1 = 1 /\ N2 = 1)%nat as [-> ->] by nia. unfold dense_field in E. rewrite C16_staggered_line in E by auto. cbn [Nat.ltb Nat.leb] in E.
      destruct (C14_rectangle 1 1 B B H D r 0 o) as (f' & E' & _ & Ln & _). rewrite E' in E. injection E as ->. exact Ln. }
    intros a b La Lb Nab. rewrite Ln in La, Lb. lia.
  - destruct (C16_dense N1 N2 B H D r last 0 o ltac:(lra) P1 P2 ltac:(nia)) as (f' & E' & _ & _ & Sp & _). rewrite E' in E. injection E as ->. exact Sp.
Qed.
