(** C146: boreholes added to a field. *)
From Coq Require Import String Reals Lra Lia List Sorted.
From Verif Require Import Base LinAlg FLS_Model.
From Verif Require Import Bore_Model Bore_Spec Field_Model Field_Spec Field_Props TimeGrid_Model Net_Model Solve_Model Detailed_Model Detailed_Spec Sim_Model Eq_Model GFun_Model GFun_Spec GFun_Props
  Def_Spec Def_Props Whole_Model Whole_Spec Whole_Proofs Whole_Field_Proofs Refine_Spec Refine_Field_Proofs Add_Spec Add_Proofs Add_Field_Proofs.
Import ListNotations.
Local Open Scope R_scope.
Local Open Scope string_scope.
Local Open Scope list_scope.

(** Two calls, the boreholes of the second are those of the first and others.  Uniform wall
    temperature: for the same heat extraction rate of the whole field, the wall of the larger
    field changes its temperature by no more at the first time (the change is the value of
    the g-function times the heat extraction rate divided by 2 pi k_s and by the total
    length). *)
Theorem C146_detailed : forall link link' uw uw' c c' thr xs ms qs l l' g g', 0 < c_alpha c -> c_alpha c' = c_alpha c ->
  boreholes_of c' = boreholes_of c ++ xs -> segments_of c' = segments_of c ++ ms -> ratios_of c' = ratios_of c ++ qs ->
  threshold_of c thr -> threshold_of c' thr -> 0 < thr -> c_method c = "detailed" -> c_method c' = "detailed" ->
  segmented (boreholes_of c) (segments_of c) (ratios_of c) -> segmented (boreholes_of c') (segments_of c') (ratios_of c') ->
  vertical_field (boreholes_of c') -> good_ratios (ratios_of c') -> well_spaced (boreholes_of c') ->
  construct (with_time (with_bc c (Some "UBWT")) (VArr [])) <> None -> construct (with_time (with_bc c' (Some "UBWT")) (VArr [])) <> None ->
  0 < nth 0 l 0 -> nth 0 l' 0 = nth 0 l 0 ->
  gfunction link uw (with_time (with_bc c (Some "UBWT")) (VArr l)) = Some (G1 g) ->
  gfunction link' uw' (with_time (with_bc c' (Some "UBWT")) (VArr l')) = Some (G1 g') ->
  nth 0 g' 0 / total_length (boreholes_of c') <= nth 0 g 0 / total_length (boreholes_of c).
Proof.
  intros link link' uw uw' c c' thr xs ms qs l l' g g' Pa Ea Bs Ns Rs Th Th' Tp Me Me' Sg Sg' Vf Gr Sp Co Co'.
  exact (added_start link link' uw uw' c c' thr xs ms qs Pa Ea Bs Ns Rs Th Th' Tp Me Me' Sg Sg' Vf Gr Sp Co Co' l l' g g').
Qed.
Print Assumptions C146_detailed.

(** Borefield.evaluate_g_function for two fields: both have values. *)
Theorem C146_field : forall link uw roots f f' xs alpha l o, to_boreholes f <> [] -> to_boreholes f' = to_boreholes f ++ xs -> spread (to_boreholes f') ->
  no_wider xs (to_boreholes f) -> 0 < alpha -> later_times l -> shared_options o -> fit_options (to_boreholes f') o ->
  exists g g', evaluate_g_function link uw roots f alpha (VArr l) "detailed" "UBWT" (Some o) = Some (G1 g) /\
    evaluate_g_function link uw roots f' alpha (VArr l) "detailed" "UBWT" (Some o) = Some (G1 g') /\
    0 < nth 0 g' 0 / total_length (to_boreholes f') <= nth 0 g 0 / total_length (to_boreholes f).
Proof.
  intros link uw roots f f' xs alpha l o Ne Ef Sp' Nw Pa Lt So Fo'. set (bs := to_boreholes f) in *. set (bs' := to_boreholes f') in *.
  assert (Sp : spread bs) by (rewrite Ef in Sp'; exact (part_spread _ _ Sp' Ne)).
  assert (Fo : fit_options bs o) by (rewrite Ef in Fo'; exact (part_fit _ _ _ So Fo')).
  set (c := opt_call bs alpha o "detailed" (Some "UBWT") (VArr l)). set (c' := opt_call bs' alpha o "detailed" (Some "UBWT") (VArr l)).
  destruct (opt_threshold bs alpha o Sp Pa Fo "detailed" (Some "UBWT") (VArr l)) as (thr & Th & Tp & Et). fold c in Th.
  destruct (opt_threshold bs' alpha o Sp' Pa Fo' "detailed" (Some "UBWT") (VArr l)) as (thr' & Th' & Tp' & Et'). fold c' in Th'.
  assert (Q : thr' = thr). { destruct (spread_radius bs Sp) as (r & Er & _). rewrite (Et r Er), (Et' r). reflexivity. rewrite Ef. exact (part_radius _ _ _ Nw Er). } subst thr'.
  destruct (later_ok l thr Lt) as [Ti Nr].
  assert (P0 : 0 < nth 0 l 0) by (destruct Lt as (N & P & _); rewrite Forall_forall in P; apply P, nth_In; destruct l; [contradiction|cbn; lia]).
  pose proof (opt_constructed bs alpha o Sp Fo "detailed" "UBWT" ltac:(cbn; auto) ltac:(auto)) as Co.
  pose proof (opt_constructed bs' alpha o Sp' Fo' "detailed" "UBWT" ltac:(cbn; auto) ltac:(auto)) as Co'.
  pose proof (proj1 Fo) as Sg. pose proof (proj1 Fo') as Sg'. pose proof (proj1 (proj2 Fo)) as Gr. pose proof (proj1 (proj2 Fo')) as Gr'.
  pose proof (spread_vertical _ Sp) as Vf. pose proof (spread_spaced _ Sp) as Ws. pose proof (spread_vertical _ Sp') as Vf'. pose proof (spread_spaced _ Sp') as Ws'.
  destruct (C122_detailed link uw c thr l Pa Th Tp eq_refl Sg Vf Gr Ws Co Ti Nr) as (g & E & L).
  destruct (C122_detailed link uw c' thr l Pa Th' Tp eq_refl Sg' Vf' Gr' Ws' Co' Ti Nr) as (g' & E' & L').
  exists g, g'. split; [exact E|]. split; [exact E'|]. split.
  - apply Rdiv_lt_0_compat; [exact (proj1 (C123_first link uw c' thr l g' Pa Th' Tp eq_refl Sg' Vf' Gr' Ws' P0 E'))|].
    apply Detailed_Sol_Proofs.field_length; [rewrite Ef; intros Z; apply app_eq_nil in Z; tauto|]. intros b Hb. apply (proj1 Vf' b Hb).
  - assert (Ns : segments_of c' = segments_of c ++ format_segments (List.length xs) (o_n o)).
    { unfold segments_of. cbn [c c' opt_call c_options boreholes_of c_source]. rewrite Ef, app_length. apply shared_segments; auto. }
    assert (Rs : ratios_of c' = ratios_of c ++ format_ratios (List.length xs) (format_segments (List.length xs) (o_n o)) (o_r o)).
    { unfold ratios_of, segments_of. cbn [c c' opt_call c_options boreholes_of c_source]. rewrite Ef, app_length. apply shared_ratios; auto. }
    exact (C146_detailed link link uw uw c c' thr xs _ _ l l g g' Pa eq_refl Ef Ns Rs Th Th' Tp eq_refl eq_refl Sg Sg' Vf' Gr' Ws' Co Co' P0 eq_refl E E').
Qed.
Print Assumptions C146_field.

(** Uniform heat extraction rates: the boreholes of two fields together have a larger value,
    at each of the times, than the mean of the values of the two fields, each of them
    counted with the length of its boreholes. *)
Theorem C146_uhtr : forall link uw roots f f1 f2 r alpha l o, to_boreholes f1 <> [] -> to_boreholes f2 <> [] -> to_boreholes f = to_boreholes f1 ++ to_boreholes f2 ->
  spread (to_boreholes f) -> (forall b, In b (to_boreholes f) -> br b = r) -> 0 < alpha -> later_times l -> shared_options o -> fit_options (to_boreholes f) o ->
  let ev f := evaluate_g_function link uw roots f alpha (VArr l) "detailed" "UHTR" (Some o) in
  exists g g1 g2, ev f = Some (G1 g) /\ ev f1 = Some (G1 g1) /\ ev f2 = Some (G1 g2) /\ forall k, (k < List.length l)%nat ->
    total_length (to_boreholes f1) * nth k g1 0 + total_length (to_boreholes f2) * nth k g2 0 < total_length (to_boreholes f) * nth k g 0.
Proof.
  intros link uw roots f f1 f2 r alpha l o N1 N2 Ef Sp Rd Pa Lt So Fo. cbv zeta. set (bs := to_boreholes f) in *. set (us := to_boreholes f1) in *. set (vs := to_boreholes f2) in *.
  assert (Sp1 : spread us) by (rewrite Ef in Sp; exact (part_spread _ _ Sp N1)). assert (Sp2 : spread vs) by (rewrite Ef in Sp; exact (rest_spread _ _ Sp N2)).
  assert (Fo1 : fit_options us o) by (rewrite Ef in Fo; exact (part_fit _ _ _ So Fo)). assert (Fo2 : fit_options vs o) by (rewrite Ef in Fo; exact (rest_fit _ _ _ So Fo)).
  set (thr := r ^ 2 / (25 * alpha)).
  assert (Z : forall ws, spread ws -> fit_options ws o -> (forall b, In b ws -> br b = r) -> 0 < thr /\ exists g,
    gfunction link uw (opt_call ws alpha o "detailed" (Some "UHTR") (VArr l)) = Some (G1 g) /\ forall k, (k < List.length l)%nat -> nth k g 0 = started (fun t => field_mean alpha t ws) thr (nth k l 0)).
  { intros ws Sw Fw Rw. destruct (opt_threshold ws alpha o Sw Pa Fw "detailed" (Some "UHTR") (VArr l)) as (q & Th & Tp & Et).
    assert (Q : q = thr).
    { destruct (spread_radius ws Sw) as (r' & Er & _). pose proof (proj1 (Bore_Proofs.lmax_radius ws r') Er) as ((b & Ib & Eb) & _). rewrite (Rw b Ib) in Eb. subst r'. exact (Et r Er). }
    subst q. split; [exact Tp|].
    destruct (later_ok l thr Lt) as [Ti Nr].
    destruct (C90_detailed link uw (opt_call ws alpha o "detailed" (Some "UHTR") (VArr l)) thr l Pa Th Tp eq_refl (opt_constructed ws alpha o Sw Fw "detailed" "UHTR" ltac:(cbn; auto) ltac:(auto)) Ti (proj1 Fw) (spread_vertical _ Sw) (proj1 (proj2 Fw))) as (g & E & _ & K).
    exists g. split; [exact E|exact K]. }
  destruct (Z bs Sp Fo Rd) as (Tp & g & E & K). destruct (Z us Sp1 Fo1 ltac:(intros b Hb; apply Rd; rewrite Ef; apply in_or_app; auto)) as (_ & g1 & E1 & K1).
  destruct (Z vs Sp2 Fo2 ltac:(intros b Hb; apply Rd; rewrite Ef; apply in_or_app; auto)) as (_ & g2 & E2 & K2).
  exists g, g1, g2. split; [exact E|]. split; [exact E1|]. split; [exact E2|]. intros k Lk.
  assert (Pk : 0 < nth k l 0) by (destruct Lt as (_ & P & _); rewrite Forall_forall in P; apply P, nth_In; auto).
  rewrite (K k Lk), (K1 k Lk), (K2 k Lk). unfold started.
  assert (S : forall t, 0 < t -> total_length us * field_mean alpha t us + total_length vs * field_mean alpha t vs < total_length bs * field_mean alpha t bs).
  { intros t Pt. rewrite Ef. apply mean_superadditive; auto. intros b Hb. apply (proj1 (proj2 Sp)). rewrite Ef. exact Hb. }
  destruct (Rleb (nth k l 0) thr); [|exact (S _ Pk)]. rewrite Rmax_left by lra. pose proof (S thr Tp) as S0.
  assert (Pq : 0 < nth k l 0 / thr) by (apply Rdiv_lt_0_compat; auto). apply (Rmult_lt_compat_r _ _ _ Pq) in S0. unfold Rdiv in *. lra.
Qed.
Print Assumptions C146_uhtr.

(** Two of the boreholes of a field of three, and the third. *)
Definition three : list bore := [Bore 100 2 (75 / 1000) 0 0 0 0; Bore 100 2 (75 / 1000) 5 0 0 0; Bore 150 4 (75 / 1000) 0 5 0 0].
Example C146_ex : exists f f1 f2, from_boreholes three = Some f /\ to_boreholes f = three /\ to_boreholes f1 = firstn 2 three /\ to_boreholes f2 = skipn 2 three /\
  spread three /\ no_wider (skipn 2 three) (firstn 2 three) /\ (forall b, In b three -> br b = 75 / 1000) /\
  shared_options (even_options 12) /\ fit_options three (even_options 12) /\ total_length three = 350.
Proof.
  assert (T : tilted 0 = false). { unfold tilted. apply Bool.not_true_is_false. intros E. apply Rltb_true in E. rewrite Rabs_R0 in E. pose proof (Rinv_0_lt_compat (10 ^ 6) ltac:(lra)). lra. }
  exists (Field_Model.Field [100; 100; 150] [2; 2; 4] [75 / 1000; 75 / 1000; 75 / 1000] [0; 5; 0] [0; 0; 5] [0; 0; 0] [0; 0; 0]),
    (Field_Model.Field [100; 100] [2; 2] [75 / 1000; 75 / 1000] [0; 5] [0; 0] [0; 0] [0; 0]), (Field_Model.Field [150] [4] [75 / 1000] [0] [5] [0] [0]).
  split; [unfold from_boreholes, field_init, three; cbn -[tilted]; rewrite T; cbn; reflexivity|].
  split; [unfold to_boreholes; cbn -[tilted mk_bore getitem]; unfold getitem; cbn -[tilted mk_bore]; unfold mk_bore; try change (Pos.to_nat 2) with 2%nat; try change (Pos.to_nat 1) with 1%nat; cbv beta iota; rewrite T; reflexivity|].
  split; [unfold to_boreholes; cbn -[tilted mk_bore getitem]; unfold getitem; cbn -[tilted mk_bore]; unfold mk_bore; try change (Pos.to_nat 2) with 2%nat; try change (Pos.to_nat 1) with 1%nat; cbv beta iota; rewrite T; reflexivity|].
  split; [unfold to_boreholes; cbn -[tilted mk_bore getitem]; unfold getitem; cbn -[tilted mk_bore]; unfold mk_bore; try change (Pos.to_nat 2) with 2%nat; try change (Pos.to_nat 1) with 1%nat; cbv beta iota; rewrite T; reflexivity|].
  assert (Rd : forall b, In b three -> br b = 75 / 1000) by (intros b Hb; cbn [three In] in Hb; repeat (destruct Hb as [<-|Hb]; [reflexivity|]); contradiction).
  split; [|split; [|split; [exact Rd|split; [|split; [apply even_fit; lia|unfold total_length, three; cbn; lra]]]]].
  - split; [discriminate|]. split.
    + intros b Hb. cbn [three In] in Hb. repeat (destruct Hb as [<-|Hb]; [cbn [btilt bH bD br]; lra|]). contradiction.
    + intros a b c La Lb Ic N. rewrite (Rd c Ic). cbn [three List.length] in La, Lb.
      assert (D : forall x y, 25 <= x ^ 2 + y ^ 2 -> 6 * (75 / 1000) <= sqrt (x ^ 2 + y ^ 2)).
      { intros x y Hxy. apply Rle_trans with (sqrt (5 ^ 2)); [rewrite sqrt_pow2 by lra; lra|]. apply sqrt_le_1_alt. lra. }
      unfold plane_dist. destruct a as [|[|[|a]]]; destruct b as [|[|[|b]]]; try lia; cbn [three nth bx by_]; apply D; lra.
  - intros b Hb. cbn [three skipn In] in Hb. destruct Hb as [<-|[]]. exists (Bore 100 2 (75 / 1000) 0 0 0 0). split; [left; reflexivity|cbn [br]; lra].
  - split; [exists 12%nat; reflexivity|]. intros l. discriminate.
Qed.
