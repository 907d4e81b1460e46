(** C145: the first value of the g-function of one borehole grows with the time. *)
From Coq Require Import String Reals Lra Lia List Sorted.
From Verif Require Import Base LinAlg FLS_Model.
From Verif Require Import Bore_Model Bore_Spec Field_Model Field_Spec TimeGrid_Model Net_Model Solve_Model Detailed_Model Detailed_Spec Sim_Model Eq_Model GFun_Model GFun_Spec GFun_Props
  Def_Spec Def_Props Whole_Model Whole_Spec Whole_Proofs Refine_Spec Refine_Field_Proofs Rise_Proofs.
Import ListNotations.
Local Open Scope R_scope.
Local Open Scope string_scope.

(** Two calls for one vertical borehole, any segments: the first value at a uniform wall
    temperature is larger if the first time is later. *)
Theorem C145_detailed : forall link uw c thr b l1 l2 g1 g2, 0 < c_alpha c -> boreholes_of c = [b] -> threshold_of c thr -> 0 < thr -> c_method c = "detailed" ->
  segmented (boreholes_of c) (segments_of c) (ratios_of c) -> vertical_field (boreholes_of c) -> good_ratios (ratios_of c) ->
  construct (with_time (with_bc c (Some "UBWT")) (VArr [])) <> None ->
  0 < nth 0 l1 0 -> nth 0 l1 0 <= nth 0 l2 0 ->
  gfunction link uw (with_time (with_bc c (Some "UBWT")) (VArr l1)) = Some (G1 g1) ->
  gfunction link uw (with_time (with_bc c (Some "UBWT")) (VArr l2)) = Some (G1 g2) ->
  0 < nth 0 g1 0 <= nth 0 g2 0.
Proof.
  intros link uw c thr b l1 l2 g1 g2 Pa Bs Th Tp Me Sg Vf Gr Co P1 L12 E1 E2.
  assert (Ws : well_spaced (boreholes_of c)) by (rewrite Bs; apply one_spaced).
  pose proof (proj1 (C123_first link uw c thr l1 g1 Pa Th Tp Me Sg Vf Gr Ws P1 E1)) as Pg. split; [exact Pg|].
  exact (start_rises link uw c thr b Pa Bs Th Tp Me Sg Vf Gr Co l1 l2 g1 g2 P1 L12 E1 E2 Pg).
Qed.
Print Assumptions C145_detailed.

(** Borefield.evaluate_g_function for one vertical borehole and any segments: the value at a
    single time is positive and grows with the time. *)
Theorem C145_field : forall link uw roots f b alpha o t1 t2, to_boreholes f = [b] -> btilt b = 0 -> 0 < bH b -> 0 <= bD b -> 0 < br b -> 0 < alpha -> fit_options [b] o ->
  0 < t1 -> t1 <= t2 ->
  exists v1 v2, evaluate_g_function link uw roots f alpha (VArr [t1]) "detailed" "UBWT" (Some o) = Some (G1 [v1]) /\
    evaluate_g_function link uw roots f alpha (VArr [t2]) "detailed" "UBWT" (Some o) = Some (G1 [v2]) /\ 0 < v1 <= v2.
Proof.
  intros link uw roots f b alpha o t1 t2 Ef Tb Hb Db Rb Pa Fo P1 L12.
  assert (Sp : spread [b]).
  { split; [discriminate|]. split; [intros x [<-|[]]; auto|]. intros i j k Hi Hj Hk N. cbn [List.length] in *. lia. }
  set (c := opt_call [b] alpha o "detailed" (Some "UBWT") (VArr [])).
  destruct (opt_threshold [b] alpha o Sp Pa Fo "detailed" (Some "UBWT") (VArr [])) as (thr & Th & Tp & _). fold c in Th.
  pose proof (opt_constructed [b] alpha o Sp Fo "detailed" "UBWT" ltac:(cbn; auto) ltac:(auto)) as Co.
  pose proof (proj1 Fo) as Sg. pose proof (proj1 (proj2 Fo)) as Gr. pose proof (spread_vertical _ Sp) as Vf. pose proof (spread_spaced _ Sp) as Ws.
  assert (Ex : forall t, 0 < t -> exists v, gfunction link uw (with_time (with_bc c (Some "UBWT")) (VArr [t])) = Some (G1 [v])).
  { intros t Pt. assert (Lt : later_times [t]) by (split; [discriminate|]; split; repeat constructor; exact Pt). destruct (later_ok [t] thr Lt) as [Ti Nr].
    destruct (C122_detailed link uw c thr [t] Pa Th Tp eq_refl Sg Vf Gr Ws Co Ti Nr) as (g & E & L). destruct g as [|v [|? ?]]; try (cbn in L; lia). exists v. exact E. }
  destruct (Ex t1 P1) as [v1 E1]. destruct (Ex t2 ltac:(lra)) as [v2 E2]. exists v1, v2. unfold evaluate_g_function. rewrite Ef.
  split; [exact E1|]. split; [exact E2|].
  exact (C145_detailed link uw c thr b [t1] [t2] [v1] [v2] Pa eq_refl Th Tp eq_refl Sg Vf Gr Co P1 L12 E1 E2).
Qed.
Print Assumptions C145_field.

(** A borehole of 100 m, twelve equal segments. *)
Example C145_ex : exists f b, from_boreholes [b] = Some f /\ to_boreholes f = [b] /\ btilt b = 0 /\ 0 < bH b /\ 0 <= bD b /\ 0 < br b /\ fit_options [b] (even_options 12).
Proof.
  exists (Field_Model.Field [100] [2] [75 / 1000] [0] [0] [0] [0]), (Bore 100 2 (75 / 1000) 0 0 0 0).
  assert (T : tilted 0 = false). { unfold tilted. apply Bool.not_true_is_false. intros E. apply Rltb_true in E. rewrite Rabs_R0 in E. pose proof (Rinv_0_lt_compat (10 ^ 6) ltac:(lra)). lra. }
  split; [|split; [|split; [|split; [|split; [|split]]]]]; cbn [btilt bH bD br]; try lra.
  - unfold from_boreholes, field_init. cbn -[tilted]. rewrite T. cbn. reflexivity.
  - unfold to_boreholes. cbn -[tilted mk_bore getitem]. unfold getitem. cbn -[tilted mk_bore]. unfold mk_bore. rewrite T. reflexivity.
  - apply even_fit. lia.
Qed.
