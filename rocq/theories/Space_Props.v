(** The space between boreholes and the depth of a field: C128. *)
From Coq Require Import String Reals Lra Lia List Sorted.
From Verif Require Import Base LinAlg FLS_Model.
From Verif Require Import Bore_Model Bore_Spec Field_Model Field_Spec Field_Props TimeGrid_Model Net_Model Solve_Model Detailed_Model Detailed_Spec
  Sim_Model Eq_Model GFun_Model GFun_Spec GFun_Props Def_Spec Def_Props Whole_Model Whole_Spec Whole_Proofs Whole_Field_Proofs Whole_Props Sym_Spec Unit_Spec Space_Spec Space_Proofs Space_Top_Proofs.
Import ListNotations.
Local Open Scope R_scope.
Local Open Scope string_scope.

(** * C128 *)

(** With uniform heat extraction rates, a field whose boreholes are further apart has
    lower g-functions. *)
Theorem C128_spacing : forall link uw c bs bs' l g g', c_source c = GFun_Model.Field bs -> c_bc c = Some "UHTR" -> c_method c = "detailed" -> 0 < c_alpha c -> positive_threshold (c_options c) ->
  segmented bs (segments_of c) (ratios_of c) -> good_ratios (ratios_of c) -> upright bs -> upright bs' -> further bs bs' ->
  gfunction link uw (with_time c (VArr l)) = Some (G1 g) -> gfunction link uw (with_time (with_boreholes c bs') (VArr l)) = Some (G1 g') ->
  forall k, (k < List.length l)%nat -> nth k g' 0 <= nth k g 0 /\ (some_further bs bs' -> 0 < nth k l 0 -> nth k g' 0 < nth k g 0).
Proof. exact further_gfunction. Qed.
Print Assumptions C128_spacing.

(** A field that is deeper in the ground has higher g-functions. *)
Theorem C128_depth : forall link uw c bs d l g g', c_source c = GFun_Model.Field bs -> c_bc c = Some "UHTR" -> c_method c = "detailed" -> 0 < c_alpha c -> positive_threshold (c_options c) ->
  segmented bs (segments_of c) (ratios_of c) -> good_ratios (ratios_of c) -> upright bs -> 0 < d ->
  gfunction link uw (with_time c (VArr l)) = Some (G1 g) -> gfunction link uw (with_time (with_boreholes c (map (deeper d) bs)) (VArr l)) = Some (G1 g') ->
  forall k, (k < List.length l)%nat -> nth k g 0 <= nth k g' 0 /\ (0 < nth k l 0 -> nth k g 0 < nth k g' 0).
Proof. exact deeper_gfunction. Qed.
Print Assumptions C128_depth.

(** The same of finite line sources: a pair of sources responds more strongly when both
    are deeper. *)
Theorem C128_deeper_sources : forall time alpha dis H1 D1 H2 D2 d, 0 < alpha -> 0 < time -> dis <> 0 -> 0 < H1 -> 0 < H2 -> 0 <= D1 -> 0 <= D2 -> 0 < d ->
  fls time alpha dis H1 D1 H2 D2 true true < fls time alpha dis H1 (D1 + d) H2 (D2 + d) true true.
Proof. exact fls_deeper. Qed.
Print Assumptions C128_deeper_sources.

(** Rectangular fields of the library with wider spacings. *)
Theorem C128_rectangle : forall link uw roots N1 N2 B1 B2 B1' B2' H D r o o' alpha l, sr_exact_roots 8 (2 / 100) (roots 8%nat (2 / 100)) -> (1 <= N1)%nat -> (1 <= N2)%nat -> 0 < H -> 0 <= D -> 0 < r ->
  6 * r <= B1 -> 6 * r <= B2 -> B1 <= B1' -> B2 <= B2' -> 0 < alpha -> later_times l ->
  exists f f' g g', rectangle_field N1 N2 B1 B2 H D r 0 o = Some f /\ rectangle_field N1 N2 B1' B2' H D r 0 o' = Some f' /\
    evaluate_g_function link uw roots f alpha (VArr l) "detailed" "UHTR" None = Some (G1 g) /\
    evaluate_g_function link uw roots f' alpha (VArr l) "detailed" "UHTR" None = Some (G1 g') /\
    List.length g = List.length l /\ List.length g' = List.length l /\
    forall k, (k < List.length l)%nat -> nth k g' 0 <= nth k g 0 /\
      ((B1 < B1' /\ (2 <= N1)%nat) \/ (B2 < B2' /\ (2 <= N2)%nat) -> nth k g' 0 < nth k g 0).
Proof.
  intros link uw roots N1 N2 B1 B2 B1' B2' H D r o o' alpha l Ro P1 P2 PH PD Pr L1 L2 G1' G2' Pa Lt.
  destruct (lattice_spread _ _ _ _ _ _ _ _ _ (C14_rectangle N1 N2 B1 B2 H D r 0 o) ltac:(nia) PH PD Pr L1 L2) as (f & E & Lf & Sp).
  destruct (lattice_spread _ _ _ _ _ _ _ _ _ (C14_rectangle N1 N2 B1' B2' H D r 0 o') ltac:(nia) PH PD Pr ltac:(lra) ltac:(lra)) as (f' & E' & Lf' & Sp').
  destruct (C124_field link uw roots 8 f alpha l "UHTR" Ro ltac:(lia) Sp Pa Lt ltac:(auto)) as (g & Eg & Lg).
  destruct (C124_field link uw roots 8 f' alpha l "UHTR" Ro ltac:(lia) Sp' Pa Lt ltac:(auto)) as (g' & Eg' & Lg').
  exists f, f', g, g'. repeat (split; [assumption|]).
  assert (Pos : forall k, (k < N1 * N2)%nat -> exists i j, (i < N1)%nat /\ (j < N2)%nat /\ k = (j * N1 + i)%nat).
  { intros k Hk. exists (k mod N1)%nat, (k / N1)%nat. split; [apply Nat.mod_upper_bound; lia|]. split; [apply Nat.div_lt_upper_bound; lia|]. rewrite Nat.mul_comm. apply Nat.div_mod. lia. }
  set (bs := to_boreholes f) in *. set (bs' := to_boreholes f') in *.
  assert (X : forall i j, (i < N1)%nat -> (j < N2)%nat -> bx (nth (j * N1 + i) bs no_bore) = INR i * B1 /\ by_ (nth (j * N1 + i) bs no_bore) = INR j * B2).
  { intros i j Hi Hj. pose proof (C14_row_order _ _ _ _ _ _ _ _ _ _ i j E Hi Hj) as Q. unfold position, lattice in Q. injection Q as Qx Qy. auto. }
  assert (X' : forall i j, (i < N1)%nat -> (j < N2)%nat -> bx (nth (j * N1 + i) bs' no_bore) = INR i * B1' /\ by_ (nth (j * N1 + i) bs' no_bore) = INR j * B2').
  { intros i j Hi Hj. pose proof (C14_row_order _ _ _ _ _ _ _ _ _ _ i j E' Hi Hj) as Q. unfold position, lattice in Q. injection Q as Qx Qy. auto. }
  assert (F : further bs bs').
  { split; [congruence|]. split.
    - intros i Hi. assert (Hi' : (i < List.length bs')%nat) by (rewrite Lf', <- Lf; auto).
      pose proof (C14_rectangle N1 N2 B1 B2 H D r 0 o) as (f1 & E1 & _ & _ & _ & S1). pose proof (C14_rectangle N1 N2 B1' B2' H D r 0 o') as (f2 & E2 & _ & _ & _ & S2).
      assert (f1 = f) by congruence. assert (f2 = f') by congruence. subst f1 f2.
      destruct (S1 _ (nth_In _ no_bore Hi)) as (-> & -> & -> & _), (S2 _ (nth_In _ no_bore Hi')) as (-> & -> & -> & _). auto.
    - intros a b Ha Hb N. rewrite Lf in Ha, Hb. destruct (Pos a Ha) as (i & j & Hi & Hj & ->), (Pos b Hb) as (i1 & j1 & Hi1 & Hj1 & ->).
      unfold planar. destruct (X i j Hi Hj) as [-> ->], (X i1 j1 Hi1 Hj1) as [-> ->], (X' i j Hi Hj) as [-> ->], (X' i1 j1 Hi1 Hj1) as [-> ->].
      apply sqrt_le_1_alt. replace (INR i * B1 - INR i1 * B1) with ((INR i - INR i1) * B1) by ring. replace (INR i * B1' - INR i1 * B1') with ((INR i - INR i1) * B1') by ring.
      replace (INR j * B2 - INR j1 * B2) with ((INR j - INR j1) * B2) by ring. replace (INR j * B2' - INR j1 * B2') with ((INR j - INR j1) * B2') by ring.
      rewrite !Rpow_mult_distr. apply Rplus_le_compat; apply Rmult_le_compat_l; try apply pow2_ge_0; apply pow_incr; lra. }
  assert (U : upright bs) by exact (proj1 (proj2 Sp)). assert (U' : upright bs') by exact (proj1 (proj2 Sp')).
  set (c := whole_call roots 8 bs alpha "detailed" (Some "UHTR") (VArr l)).
  destruct (whole_segmented roots 8 Ro ltac:(lia) bs alpha "detailed" (Some "UHTR") (VArr l)) as [Sg Gr]. fold c in Sg, Gr.
  intros k Hk. destruct (C128_spacing link uw c bs bs' l g g' eq_refl eq_refl eq_refl Pa I Sg Gr U U' F Eg Eg' k Hk) as [A B]. split; auto.
  intros S. apply B. 2: { destruct Lt as (_ & P & _). rewrite Forall_forall in P. apply P, nth_In. auto. }
  destruct S as [[S1 S2]|[S1 S2]].
  - exists 0%nat, 1%nat. rewrite Lf. split; [nia|]. split; [nia|]. split; [lia|]. unfold planar.
    destruct (X 0 0 ltac:(lia) ltac:(lia))%nat as [Q1 Q2], (X' 0 0 ltac:(lia) ltac:(lia))%nat as [Q1' Q2'], (X 1 0 ltac:(lia) ltac:(lia))%nat as [Q3 Q4], (X' 1 0 ltac:(lia) ltac:(lia))%nat as [Q3' Q4']. cbn [Nat.mul Nat.add INR] in *.
    rewrite Q1, Q2, Q3, Q4, Q1', Q2', Q3', Q4'. apply sqrt_lt_1_alt. nra.
  - exists 0%nat, N1. rewrite Lf. split; [nia|]. split; [nia|]. split; [lia|]. unfold planar.
    destruct (X 0 0 ltac:(lia) ltac:(lia))%nat as [Q1 Q2], (X' 0 0 ltac:(lia) ltac:(lia))%nat as [Q1' Q2'], (X 0 1 ltac:(lia) ltac:(lia))%nat as [Q3 Q4], (X' 0 1 ltac:(lia) ltac:(lia))%nat as [Q3' Q4']. cbn [Nat.mul Nat.add INR] in *. rewrite !Nat.add_0_r in *.
    rewrite Q1, Q2, Q3, Q4, Q1', Q2', Q3', Q4'. apply sqrt_lt_1_alt. nra.
Qed.
Print Assumptions C128_rectangle.

(** Two boreholes 5 and 7 metres apart *)
Example C128_ex : let b x := Bore 100 4 (75 / 1000) x 0 0 0 in
  further [b 0; b 5] [b 0; b 7] /\ some_further [b 0; b 5] [b 0; b 7] /\ upright [b 0; b 5] /\ upright [b 0; b 7] /\
  map (deeper 1) [b 0; b 5] = [Bore 100 (4 + 1) (75 / 1000) 0 0 0 0; Bore 100 (4 + 1) (75 / 1000) 5 0 0 0].
Proof.
  intros b. split; [|split; [|split; [|split]]]; auto.
  - split; auto. split.
    + intros i Hi. cbn in Hi. destruct i as [|[|i]]; [| |lia]; cbn; auto.
    + intros i j Hi Hj N. cbn in Hi, Hj. destruct i as [|[|i]]; [| |lia]; (destruct j as [|[|j]]; [| |lia]); try congruence; cbn; unfold planar; cbn [bx by_]; apply sqrt_le_1_alt; unfold b; cbn; lra.
  - exists 0%nat, 1%nat. cbn. split; [lia|]. split; [lia|]. split; [lia|]. unfold planar. cbn [bx by_ b]. apply sqrt_lt_1_alt. lra.
  - intros x [<-|[<-|[]]]; cbn; repeat split; lra.
  - intros x [<-|[<-|[]]]; cbn; repeat split; lra.
Qed.
