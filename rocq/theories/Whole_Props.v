(** Borefield.evaluate_g_function: C124. *)
From Coq Require Import String Reals Lra Lia List Sorted.
From Verif Require Import Base LinAlg FLS_Model.
From Verif Require Import Bore_Model Bore_Spec Field_Model Field_Spec Field_Props TimeGrid_Model Net_Model Solve_Model Detailed_Model Detailed_Spec
  Sim_Model Eq_Model GFun_Model GFun_Spec GFun_Props Def_Spec Def_Props Whole_Model Whole_Spec Whole_Proofs Whole_Field_Proofs.
Import ListNotations.
Local Open Scope R_scope.
Local Open Scope string_scope.

(** * C124 *)

(** A field of vertical boreholes that are far apart has g-functions at a uniform wall
    temperature and for uniform heat extraction rates, with any number of segments. *)
Theorem C124_field : forall link uw roots n f alpha l bc, sr_exact_roots n (2 / 100) (roots n (2 / 100)) -> (1 <= n)%nat -> spread (to_boreholes f) -> 0 < alpha -> later_times l ->
  bc = "UBWT" \/ bc = "UHTR" ->
  exists g, evaluate_g_function link uw roots f alpha (VArr l) "detailed" bc (Some (usual_options roots n)) = Some (G1 g) /\ List.length g = List.length l.
Proof.
  intros link uw roots n f alpha l bc Ro Pn Sp Pa Lt Hb. pose proof (whole_constructed roots n Ro Pn (to_boreholes f) alpha Sp "detailed" bc ltac:(cbn; auto) Hb) as Co.
  set (c := whole_call roots n (to_boreholes f) alpha "detailed" (Some bc) (VArr l)).
  destruct (whole_threshold roots n (to_boreholes f) alpha Sp Pa "detailed" (Some bc) (VArr l)) as (thr & Th & Tp). fold c in Th.
  destruct (whole_segmented roots n Ro Pn (to_boreholes f) alpha "detailed" (Some bc) (VArr l)) as [Sg Gr]. fold c in Sg, Gr.
  destruct (later_ok l thr Lt) as [Ti Nr].
  destruct Hb as [-> | ->].
  - exact (C122_detailed link uw c thr l Pa Th Tp eq_refl Sg (spread_vertical _ Sp) Gr (spread_spaced _ Sp) Co Ti Nr).
  - destruct (C90_detailed link uw c thr l Pa Th Tp eq_refl Co Ti Sg (spread_vertical _ Sp) Gr) as (g & E & L & _). exists g. split; [exact E|exact L].
Qed.
Print Assumptions C124_field.

(** The first value at a uniform wall temperature is positive and at most that of uniform
    heat extraction rates, whose values increase. *)
Theorem C124_values : forall link uw roots n f alpha l g g', sr_exact_roots n (2 / 100) (roots n (2 / 100)) -> (1 <= n)%nat -> spread (to_boreholes f) -> 0 < alpha -> later_times l ->
  evaluate_g_function link uw roots f alpha (VArr l) "detailed" "UBWT" (Some (usual_options roots n)) = Some (G1 g) ->
  evaluate_g_function link uw roots f alpha (VArr l) "detailed" "UHTR" (Some (usual_options roots n)) = Some (G1 g') ->
  0 < nth 0 g 0 <= nth 0 g' 0 /\ StronglySorted Rlt g'.
Proof.
  intros link uw roots n f alpha l g g' Ro Pn Sp Pa Lt E E'.
  set (c := whole_call roots n (to_boreholes f) alpha "detailed" (Some "UBWT") (VArr l)).
  destruct (whole_threshold roots n (to_boreholes f) alpha Sp Pa "detailed" (Some "UBWT") (VArr l)) as (thr & Th & Tp). fold c in Th.
  destruct (whole_segmented roots n Ro Pn (to_boreholes f) alpha "detailed" (Some "UBWT") (VArr l)) as [Sg Gr]. fold c in Sg, Gr.
  destruct (later_ok l thr Lt) as [Ti Nr].
  assert (P0 : 0 < nth 0 l 0) by (destruct Lt as (N & P & _); rewrite Forall_forall in P; apply P, nth_In; destruct l; [contradiction|cbn; lia]).
  destruct (C123_first link uw c thr l g Pa Th Tp eq_refl Sg (spread_vertical _ Sp) Gr (spread_spaced _ Sp) P0 E) as [A B]. split; [split; [exact A|exact (B g' E')]|].
  pose proof (whole_constructed roots n Ro Pn (to_boreholes f) alpha Sp "detailed" "UHTR" ltac:(cbn; auto) ltac:(auto)) as Co.
  destruct (C90_detailed link uw c thr l Pa Th Tp eq_refl Co Ti Sg (spread_vertical _ Sp) Gr) as (g2 & E2 & L2 & V2).
  assert (Eg : Some (G1 g2) = Some (G1 g')) by (rewrite <- E2; exact E'). injection Eg as ->.
  assert (I : forall i j, (i < j < List.length l)%nat -> nth i g' 0 < nth j g' 0).
  { intros i j Hij. rewrite !V2 by lia. destruct Lt as (N & P & So).
    assert (Lij : nth i l 0 < nth j l 0).
    { clear - So Hij. revert i j Hij. induction l as [|x r IH]; intros i j Hij; [cbn in Hij; lia|]. inversion So as [|? ? Sr Fx]; subst.
      destruct j as [|j]; [lia|]. destruct i as [|i]; cbn [nth].
      - rewrite Forall_forall in Fx. apply Fx, nth_In. cbn in Hij. lia.
      - apply IH; auto. cbn in Hij. lia. }
    rewrite Forall_forall in P. pose proof (P _ (nth_In l 0 (proj1 (conj (Nat.lt_trans _ _ _ (proj1 Hij) (proj2 Hij)) I)))) as Pi.
    apply C90_increasing; auto; [apply Sp|apply spread_vertical; auto|lra]. }
  clear - I L2. rewrite <- L2 in I. clear L2. induction g' as [|x r IH]; constructor.
  - apply IH. intros i j Hij. apply (I (S i) (S j)). cbn. lia.
  - apply Forall_forall. intros y Hy. destruct (In_nth r y 0 Hy) as (j & Lj & <-). apply (I O (S j)). cbn. lia.
Qed.
Print Assumptions C124_values.

(** The fields of the library *)
Theorem C124_rectangle : forall link uw roots N1 N2 B1 B2 H D r o alpha l bc, sr_exact_roots 8 (2 / 100) (roots 8%nat (2 / 100)) -> (1 <= N1)%nat -> (1 <= N2)%nat -> 0 < H -> 0 <= D -> 0 < r ->
  6 * r <= B1 -> 6 * r <= B2 -> 0 < alpha -> later_times l -> bc = "UBWT" \/ bc = "UHTR" ->
  exists f g, rectangle_field N1 N2 B1 B2 H D r 0 o = Some f /\ evaluate_g_function link uw roots f alpha (VArr l) "detailed" bc None = Some (G1 g) /\ List.length g = List.length l.
Proof.
  intros link uw roots N1 N2 B1 B2 H D r o alpha l bc Ro P1 P2 PH PD Pr L1 L2 Pa Lt Hb.
  destruct (lattice_spread _ _ _ _ _ _ _ _ _ (C14_rectangle N1 N2 B1 B2 H D r 0 o) ltac:(nia) PH PD Pr L1 L2) as (f & E & _ & Sp).
  destruct (C124_field link uw roots 8 f alpha l bc Ro ltac:(lia) Sp Pa Lt Hb) as (g & Eg & Lg). exists f, g. auto.
Qed.
Print Assumptions C124_rectangle.
Theorem C124_L : forall link uw roots N1 N2 B1 B2 H D r o alpha l bc, sr_exact_roots 8 (2 / 100) (roots 8%nat (2 / 100)) -> (1 <= N1)%nat -> (1 <= N2)%nat -> 0 < H -> 0 <= D -> 0 < r ->
  6 * r <= B1 -> 6 * r <= B2 -> 0 < alpha -> later_times l -> bc = "UBWT" \/ bc = "UHTR" ->
  exists f g, L_field N1 N2 B1 B2 H D r 0 o = Some f /\ evaluate_g_function link uw roots f alpha (VArr l) "detailed" bc None = Some (G1 g) /\ List.length g = List.length l.
Proof.
  intros link uw roots N1 N2 B1 B2 H D r o alpha l bc Ro P1 P2 PH PD Pr L1 L2 Pa Lt Hb.
  destruct (lattice_spread _ _ _ _ _ _ _ _ _ (C15_L N1 N2 B1 B2 H D r 0 o P1 P2) ltac:(lia) PH PD Pr L1 L2) as (f & E & _ & Sp).
  destruct (C124_field link uw roots 8 f alpha l bc Ro ltac:(lia) Sp Pa Lt Hb) as (g & Eg & Lg). exists f, g. auto.
Qed.
Print Assumptions C124_L.
Theorem C124_U : forall link uw roots N1 N2 B1 B2 H D r o alpha l bc, sr_exact_roots 8 (2 / 100) (roots 8%nat (2 / 100)) -> (1 <= N1)%nat -> (1 <= N2)%nat -> 0 < H -> 0 <= D -> 0 < r ->
  6 * r <= B1 -> 6 * r <= B2 -> 0 < alpha -> later_times l -> bc = "UBWT" \/ bc = "UHTR" ->
  exists f g, U_field N1 N2 B1 B2 H D r 0 o = Some f /\ evaluate_g_function link uw roots f alpha (VArr l) "detailed" bc None = Some (G1 g) /\ List.length g = List.length l.
Proof.
  intros link uw roots N1 N2 B1 B2 H D r o alpha l bc Ro P1 P2 PH PD Pr L1 L2 Pa Lt Hb.
  destruct (lattice_spread _ _ _ _ _ _ _ _ _ (C15_U N1 N2 B1 B2 H D r 0 o P1 P2) ltac:(lia) PH PD Pr L1 L2) as (f & E & _ & Sp).
  destruct (C124_field link uw roots 8 f alpha l bc Ro ltac:(lia) Sp Pa Lt Hb) as (g & Eg & Lg). exists f, g. auto.
Qed.
Print Assumptions C124_U.
Theorem C124_box : forall link uw roots N1 N2 B1 B2 H D r o alpha l bc, sr_exact_roots 8 (2 / 100) (roots 8%nat (2 / 100)) -> (1 <= N1)%nat -> (1 <= N2)%nat -> 0 < H -> 0 <= D -> 0 < r ->
  6 * r <= B1 -> 6 * r <= B2 -> 0 < alpha -> later_times l -> bc = "UBWT" \/ bc = "UHTR" ->
  exists f g, box_field N1 N2 B1 B2 H D r 0 o = Some f /\ evaluate_g_function link uw roots f alpha (VArr l) "detailed" bc None = Some (G1 g) /\ List.length g = List.length l.
Proof.
  intros link uw roots N1 N2 B1 B2 H D r o alpha l bc Ro P1 P2 PH PD Pr L1 L2 Pa Lt Hb.
  destruct (lattice_spread _ _ _ _ _ _ _ _ _ (C15_box N1 N2 B1 B2 H D r 0 o P1 P2) ltac:(lia) PH PD Pr L1 L2) as (f & E & _ & Sp).
  destruct (C124_field link uw roots 8 f alpha l bc Ro ltac:(lia) Sp Pa Lt Hb) as (g & Eg & Lg). exists f, g. auto.
Qed.
Print Assumptions C124_box.
Theorem C124_staggered : forall link uw roots N1 N2 B1 B2 H D r last o alpha l bc, sr_exact_roots 8 (2 / 100) (roots 8%nat (2 / 100)) -> (2 <= N1)%nat -> (2 <= N2)%nat -> 0 < H -> 0 <= D -> 0 < r ->
  6 * r <= B1 -> 3 * r <= B2 -> (6 * r) ^ 2 <= (B1 / 2) ^ 2 + B2 ^ 2 -> 0 < alpha -> later_times l -> bc = "UBWT" \/ bc = "UHTR" ->
  exists f g, staggered_field N1 N2 B1 B2 H D r last 0 o = Some f /\ evaluate_g_function link uw roots f alpha (VArr l) "detailed" bc None = Some (G1 g) /\ List.length g = List.length l.
Proof.
  intros link uw roots N1 N2 B1 B2 H D r last o alpha l bc Ro P1 P2 PH PD Pr L1 L2 L3 Pa Lt Hb.
  assert (Pc : (1 <= staggered_count N1 N2 last)%nat).
  { unfold staggered_count. destruct last; [nia|]. pose proof (Nat.div_le_upper_bound N2 2 N2 ltac:(lia) ltac:(lia)) as Q. assert (2 * N2 <= N1 * N2)%nat by nia. lia. }
  destruct (staggered_spread _ _ _ _ _ _ _ _ _ (C16_staggered N1 N2 B1 B2 H D r last 0 o P1 P2) Pc PH PD Pr L1 L2 L3) as (f & E & _ & Sp).
  destruct (C124_field link uw roots 8 f alpha l bc Ro ltac:(lia) Sp Pa Lt Hb) as (g & Eg & Lg). exists f, g. auto.
Qed.
Print Assumptions C124_staggered.
Theorem C124_dense : forall link uw roots N1 N2 B H D r last o alpha l bc, sr_exact_roots 8 (2 / 100) (roots 8%nat (2 / 100)) -> (1 <= N1)%nat -> (1 <= N2)%nat -> 0 < H -> 0 <= D -> 0 < r ->
  6 * r <= B -> 0 < alpha -> later_times l -> bc = "UBWT" \/ bc = "UHTR" ->
  exists f g, dense_field N1 N2 B H D r last 0 o = Some f /\ evaluate_g_function link uw roots f alpha (VArr l) "detailed" bc None = Some (G1 g) /\ List.length g = List.length l.
Proof.
  intros link uw roots N1 N2 B H D r last o alpha l bc Ro P1 P2 PH PD Pr L1 Pa Lt Hb.
  destruct (dense_spread N1 N2 B H D r last o P1 P2 PH PD Pr L1) as (f & E & Sp).
  destruct (C124_field link uw roots 8 f alpha l bc Ro ltac:(lia) Sp Pa Lt Hb) as (g & Eg & Lg). exists f, g. auto.
Qed.
Print Assumptions C124_dense.
Theorem C124_circle : forall link uw roots N Rad H D r o alpha l bc, sr_exact_roots 8 (2 / 100) (roots 8%nat (2 / 100)) -> (1 <= N)%nat -> 0 < Rad -> 0 < H -> 0 <= D -> 0 < r ->
  N = 1%nat \/ 6 * r <= 2 * Rad * sin (PI / INR N) -> 0 < alpha -> later_times l -> bc = "UBWT" \/ bc = "UHTR" ->
  exists f g, circle_field N Rad H D r 0 o = Some f /\ evaluate_g_function link uw roots f alpha (VArr l) "detailed" bc None = Some (G1 g) /\ List.length g = List.length l.
Proof.
  intros link uw roots N Rad H D r o alpha l bc Ro PN PR PH PD Pr L1 Pa Lt Hb.
  destruct (circle_spread N Rad H D r o PN PR PH PD Pr L1) as (f & E & _ & Sp).
  destruct (C124_field link uw roots 8 f alpha l bc Ro ltac:(lia) Sp Pa Lt Hb) as (g & Eg & Lg). exists f, g. auto.
Qed.
Print Assumptions C124_circle.

(** Exact roots of the polynomial of eight segments: 1 and a second one *)
Lemma ex_roots : exists roots, sr_exact_roots 8 (2 / 100) (roots 8%nat (2 / 100)).
Proof.
  assert (I : exists y, 2 <= y <= 3 /\ y ^ 3 + y ^ 2 + y + 1 = 25).
  { destruct (IVT_cor (fun y => y ^ 3 + y ^ 2 + y - 24) 2 3) as (y & Hy & E); [|lra|lra|exists y; split; [exact Hy|lra]].
    intros x. reg. }
  destruct I as (y & Hy & Ey). exists (fun _ _ => [1; y]). intros x. change (Nat.even 8) with true. change (8 / 2)%nat with 4%nat. cbv iota. unfold sr_poly_even. cbn [In].
  assert (F : 1 - 2 * (2 / 100) - x + 2 * (2 / 100) * x ^ 4 = (1 / 25) * (x - 1) * (x ^ 3 + x ^ 2 + x + 1 - 25)) by field. rewrite F. clear F. split.
  - intros [<-|[<-|[]]]; [ring|rewrite Ey; ring].
  - intros E. apply Rmult_integral in E. destruct E as [E|E]; [left; lra|]. right. left.
    assert (Z : (x - y) * (x ^ 2 + x * y + y ^ 2 + x + y + 1) = 0) by (rewrite <- Ey in E; rewrite <- E; ring).
    apply Rmult_integral in Z. destruct Z as [Z|Z]; [lra|]. pose proof (pow2_ge_0 (x + (y + 1) / 2)). nra.
Qed.
Example C124_ex : exists roots, sr_exact_roots 8 (2 / 100) (roots 8%nat (2 / 100)) /\ 6 * (75 / 1000) <= 5 /\ later_times [3600; 7200; 36000].
Proof.
  destruct ex_roots as [roots Ro]. exists roots. split; auto. split; [lra|]. split; [discriminate|]. split; repeat constructor; lra.
Qed.
