(** Symmetries of the g-functions: C125. *)
From Coq Require Import String Reals Lra Lia List Permutation.
From Verif Require Import Base LinAlg FLS_Model.
From Verif Require Import Bore_Model Bore_Spec Field_Model Field_Spec Field_Props Whole_Model Net_Model Solve_Model Detailed_Model Detailed_Spec Sim_Model Sim_Spec Eq_Model Eq_Spec
  Eq_Mix_Proofs GFun_Model GFun_Spec GFun_Pair_Proofs GFun_Props Prof_Trio_Proofs Prof_Props Sym_Spec Sym_Move_Proofs Sym_Order_Proofs.
Import ListNotations.
Local Open Scope R_scope.
Local Open Scope string_scope.

(** * C125: the place of the field and the direction of the axes do not count *)

(** Any motion of any field of vertical or inclined boreholes, with or without pipes, at
    any boundary condition, with method "detailed". *)
Theorem C125_detailed : forall m link uw c, lower (c_method c) = "detailed" -> plain_tilts (boreholes_of c) -> gfunction link uw (moved_call m c) = gfunction link uw c.
Proof. intros m link uw c Dt P. apply moved_gfunction; auto. intros K. contradiction. Qed.
Print Assumptions C125_detailed.

(** Displacements, with any method. *)
Theorem C125_displacement : forall x y link uw c, plain_tilts (boreholes_of c) -> gfunction link uw (moved_call (mkmotion false 0 x y) c) = gfunction link uw c.
Proof. intros x y link uw c P. apply moved_gfunction; auto. intros _. left. split; reflexivity. Qed.
Print Assumptions C125_displacement.

(** Any motion of a vertical field, with any method. *)
Theorem C125_vertical : forall m link uw c, all_vertical (boreholes_of c) -> gfunction link uw (moved_call m c) = gfunction link uw c.
Proof. intros m link uw c V. apply moved_gfunction; [intros b Hb; left; apply V; auto|]. intros _. right. left. auto. Qed.
Print Assumptions C125_vertical.

(** Any motion of an inclined field whose segments are clearly above each other or
    clearly apart, with any method. *)
Theorem C125_inclined : forall m link uw c, plain_tilts (boreholes_of c) -> clear_plan (o_disTol (c_options c)) (boreholes_of c) (segments_of c) (ratios_of c) ->
  gfunction link uw (moved_call m c) = gfunction link uw c.
Proof. intros m link uw c P K. apply moved_gfunction; auto. intros _. right. right. auto. Qed.
Print Assumptions C125_inclined.

(** A quarter turn of an inclined borehole, and of a vertical pair, which then lies along
    the other axis. *)
Definition quarter : motion := mkmotion false (PI / 2) 3 (-7).
Example C125_ex : plain_tilts (boreholes_of lean_call) /\ all_vertical (boreholes_of (pair_call "equivalent")) /\
  clear_plan (o_disTol (c_options lean_call)) (boreholes_of lean_call) (segments_of lean_call) (ratios_of lean_call) /\
  (exists g, gfunction plain_link [] (moved_call quarter lean_call) = Some (G1 g)) /\ (exists g, gfunction plain_link [] (moved_call quarter (pair_call "detailed")) = Some (G1 g)) /\
  map bx (boreholes_of (moved_call quarter (pair_call "detailed"))) = [3; 3] /\ map by_ (boreholes_of (moved_call quarter (pair_call "detailed"))) = [-7; -2].
Proof.
  assert (Pl : plain_tilts (boreholes_of lean_call)).
  { intros b [<-|[]]. right. unfold tilted, lean. cbn [btilt]. apply Rltb_true. pose proof PI_RGT_0. pose proof PI_4. rewrite Rabs_right by lra.
    assert (3 < PI) by (pose proof PI2_3_2; unfold PI2 in *; lra). apply Rlt_trans with (1 / 2); [|lra]. unfold Rdiv. rewrite Rmult_1_l. apply Rinv_lt_contravar; [|]; lra. }
  assert (V : forall m, all_vertical (boreholes_of (pair_call m))). { intros m b [<-|[<-|[]]]; reflexivity. }
  split; [exact Pl|]. split; [apply V|]. split; [|split; [|split]].
  - change (clear_plan (1 / 100) [lean] [1]%nat [[1]]). split; [lra|]. split; [intros b [<-|[]]; cbn; lra|].
    intros i j e r Hi Hj He Hr. cbn [length] in Hi, Hj. replace i with 0%nat in He by lia. replace j with 0%nat in Hr by lia.
    cbn [nth] in He, Hr. unfold segments in He, Hr. cbn in He, Hr. destruct He as [<-|[]], Hr as [<-|[]].
    left. unfold planar. cbn. match goal with |- sqrt ?x = 0 => replace x with 0 by ring end. apply sqrt_0.
  - rewrite C125_detailed; auto. apply lean_solved.
  - rewrite C125_vertical by apply V. apply pair_12.
  - cbn. unfold mixb, moved, mk_bore. cbn. rewrite cos_PI2, sin_PI2. split; repeat f_equal; ring.
Qed.

(** * C126: the order of the boreholes does not count *)

(** Vertical boreholes in any order, each with its own segments. *)
Theorem C126_order : forall link uw c c', reordered c c' -> lower (c_method c) = "detailed" ->
  segmented (boreholes_of c) (segments_of c) (ratios_of c) -> segmented (boreholes_of c') (segments_of c') (ratios_of c') -> good_ratios (ratios_of c) -> upright (boreholes_of c) ->
  gfunction link uw c' = gfunction link uw c.
Proof. exact reordered_gfunction. Qed.
Print Assumptions C126_order.

(** The same number of segments and the same ratios for all of them. *)
Theorem C126_field : forall link uw c bs bs' n, c_source c = GFun_Model.Field bs -> Permutation bs bs' -> lower (c_method c) = "detailed" ->
  same_segments (c_options c) n -> good_ratios (ratios_of c) -> upright bs -> gfunction link uw (with_boreholes c bs') = gfunction link uw c.
Proof.
  intros link uw c bs bs' n Es P Dt Ss G U. destruct (same_reordered c bs bs' n Es P Ss) as (R1 & R2 & R3).
  apply C126_order; auto. unfold boreholes_of. rewrite Es. auto.
Qed.
Print Assumptions C126_field.

(** With method "similarities", for fields that the tolerances do not confuse in either
    order. *)
Theorem C126_similarities : forall link uw c c' u M u' M', reordered c c' -> sharp c u M -> sharp c' u' M' ->
  gfunction link uw (with_method c' "similarities") = gfunction link uw (with_method c "similarities").
Proof.
  intros link uw c c' u M u' M' Re Sh Sh'. rewrite (C89_similarities link uw c u M Sh), (C89_similarities link uw c' u' M' Sh').
  destruct Sh as (A1 & A2 & A3 & _), Sh' as (B1 & _). apply C126_order; auto; [|exact (proj1 A2)].
  destruct c, c'. destruct Re as (R1 & R2 & R3 & R4 & R5 & R6 & R7). cbn in *. repeat split; try apply R7; auto.
Qed.
Print Assumptions C126_similarities.

(** The deprecated builder of box-shaped fields lists the boreholes in another order than
    the builder of Borefield; the g-functions are the same. *)
Theorem C126_box : forall link uw roots N1 N2 B1 B2 H D r o f alpha time n ratios tol disTol, (1 <= N1)%nat -> (1 <= N2)%nat -> box_field N1 N2 B1 B2 H D r 0 o = Some f ->
  (forall b, In b (to_boreholes f) -> off_circle r (center N1 N2 B1 B2 o) (position b)) ->
  0 < H -> 0 <= D -> 0 < r -> same_segments (mkoptions (SInt n) ratios None tol disTol 1) n -> good_ratios (format_ratios (List.length (to_boreholes f)) (repeat n (List.length (to_boreholes f))) ratios) ->
  uniform_temperature link uw (legacy_box N1 N2 B1 B2 H D r 0 o) time alpha (SInt n) ratios false disTol tol
  = evaluate_g_function link uw roots f alpha time "detailed" "UBWT" (Some (mkoptions (SInt n) ratios None tol disTol 1)).
Proof.
  intros link uw roots N1 N2 B1 B2 H D r o f alpha time n ratios tol disTol P1 P2 Ef Oc PH PD Pr Ss Gr.
  pose proof (C61_box N1 N2 B1 B2 H D r 0 o f P2 Ef Oc) as P.
  apply (C126_field link uw (mkcall (GFun_Model.Field (to_boreholes f)) alpha time "detailed" (Some "UBWT") VNone VNone VNone (mkoptions (SInt n) ratios None tol disTol 1)) (to_boreholes f) _ n eq_refl (Permutation_sym P) eq_refl Ss Gr).
  intros b Ib. destruct (C15_box N1 N2 B1 B2 H D r 0 o P1 P2) as (f' & E & _ & _ & _ & S). rewrite Ef in E. injection E as <-.
  destruct (S b Ib) as (E1 & E2 & E3 & T1 & T2). rewrite E1, E2, E3. split; [|auto]. set (c := center N1 N2 B1 B2 o) in *.
  destruct (Rlt_le_dec (sqrt ((bx b - fst c) ^ 2 + (by_ b - snd c) ^ 2)) r) as [K|K]; [apply (T1 K)|apply (T2 K)].
Qed.
Print Assumptions C126_box.

Definition reversed_pair : call := with_boreholes (pair_call "detailed") (rev pair_field).
Example C126_ex : Permutation pair_field (rev pair_field) /\ pair_field <> rev pair_field /\ same_segments (c_options (pair_call "detailed")) 1%nat /\ good_ratios (ratios_of (pair_call "detailed")) /\ upright pair_field /\ exists g, gfunction plain_link [] reversed_pair = Some (G1 g).
Proof.
  assert (Ss : same_segments (c_options (pair_call "detailed")) 1%nat) by (split; reflexivity).
  assert (Gr : good_ratios (ratios_of (pair_call "detailed"))).
  { intros r Hr. cbn in Hr. assert (E : r = [1]) by (destruct Hr as [<-|[<-|[]]]; reflexivity). subst r. split; [cbn; ring|]. intros x [<-|[]]. lra. }
  assert (U : upright pair_field). { exact (proj1 pair_vertical). }
  split; [apply Permutation_rev|]. split; [cbn; intros E; injection E as E1 E2; lra|]. split; [exact Ss|]. split; [exact Gr|]. split; [exact U|].
  unfold reversed_pair. rewrite (C126_field plain_link [] (pair_call "detailed") pair_field (rev pair_field) 1 eq_refl (Permutation_rev _) eq_refl Ss Gr U). apply pair_12.
Qed.
Example C126_box_ex : exists f, box_field 2 2 5 6 100 4 (1 / 10) 0 (Some (0, 0)) = Some f /\ (forall b, In b (to_boreholes f) -> off_circle (1 / 10) (center 2 2 5 6 (Some (0, 0))) (position b)).
Proof.
  destruct (C15_box 2 2 5 6 100 4 (1 / 10) 0 (Some (0, 0)) ltac:(lia) ltac:(lia)) as (f & E & _ & _ & La & _). exists f. split; auto.
  intros b Ib. destruct La as (pts & Ep & _ & Ip). assert (K : In (position b) (map (fun p => lattice 5 6 (fst p) (snd p)) pts)) by (rewrite <- Ep; apply in_map; auto).
  apply in_map_iff in K as ((i & j) & <- & Hp). apply Ip in Hp as [[Hi Hj] _]. unfold off_circle, lattice, center. cbn [fst snd].
  assert (Ei : i = 0%nat \/ i = 1%nat) by lia. assert (Ej : j = 0%nat \/ j = 1%nat) by lia.
  intros Q. apply (f_equal (fun x => x * x)) in Q. rewrite sqrt_sqrt in Q by (apply Rplus_le_le_0_compat; apply pow2_ge_0).
  destruct Ei as [-> | ->], Ej as [-> | ->]; cbn in Q; lra.
Qed.
