(** C144: shorter segments lower the first value of the g-function at a uniform wall
    temperature. *)
From Coq Require Import String Reals Lra Lia List Sorted.
From Coquelicot Require Import Rcomplements Rbar Lim_seq.
From Verif Require Import Base LinAlg FLS_Model.
From Verif Require Import Bore_Model Bore_Spec Field_Model Field_Spec Field_Props TimeGrid_Model Net_Model Solve_Model Detailed_Model Detailed_Spec Sim_Model Eq_Model GFun_Model GFun_Spec GFun_Props
  Def_Spec Def_Props Whole_Model Whole_Spec Whole_Proofs Whole_Field_Proofs Refine_Spec Refine_Proofs Refine_Field_Proofs.
Import ListNotations.
Local Open Scope R_scope.
Local Open Scope string_scope.

(** Two calls for the same boreholes: the segments of the second come from those of the
    first by cutting them into parts. *)
Theorem C144_detailed : forall link link' uw uw' c c' thr l l' g g', 0 < c_alpha c -> c_alpha c' = c_alpha c -> boreholes_of c' = boreholes_of c ->
  threshold_of c thr -> threshold_of c' thr -> 0 < thr -> c_method c = "detailed" -> c_method c' = "detailed" ->
  segmented (boreholes_of c) (segments_of c) (ratios_of c) -> segmented (boreholes_of c) (segments_of c') (ratios_of c') ->
  vertical_field (boreholes_of c) -> good_ratios (ratios_of c) -> good_ratios (ratios_of c') -> well_spaced (boreholes_of c) ->
  Forall2 refines (ratios_of c) (ratios_of c') ->
  construct (with_time (with_bc c (Some "UBWT")) (VArr [])) <> None -> construct (with_time (with_bc c' (Some "UBWT")) (VArr [])) <> None ->
  0 < nth 0 l 0 -> nth 0 l' 0 = nth 0 l 0 ->
  gfunction link uw (with_time (with_bc c (Some "UBWT")) (VArr l)) = Some (G1 g) ->
  gfunction link' uw' (with_time (with_bc c' (Some "UBWT")) (VArr l')) = Some (G1 g') ->
  nth 0 g' 0 <= nth 0 g 0.
Proof.
  intros link link' uw uw' c c' thr l l' g g' Pa Ea Eb Th Th' Tp Me Me' Sg Sg' Vf Gr Gr' Sp Rf Co Co'.
  exact (refined_start link link' uw uw' c c' thr Pa Ea Eb Th Th' Tp Me Me' Sg Sg' Vf Gr Gr' Sp Rf Co Co' l l' g g').
Qed.
Print Assumptions C144_detailed.

(** The same for the method of similarities, whose values are those of the detailed method
    when the similarities are sharp. *)
Theorem C144_similarities : forall link link' uw uw' c c' thr u M u' M' l l' g g', 0 < c_alpha c -> c_alpha c' = c_alpha c -> boreholes_of c' = boreholes_of c ->
  threshold_of c thr -> threshold_of c' thr -> 0 < thr ->
  segmented (boreholes_of c) (segments_of c) (ratios_of c) -> segmented (boreholes_of c) (segments_of c') (ratios_of c') ->
  vertical_field (boreholes_of c) -> good_ratios (ratios_of c) -> good_ratios (ratios_of c') -> well_spaced (boreholes_of c) ->
  Forall2 refines (ratios_of c) (ratios_of c') ->
  let call c l := with_time (with_bc c (Some "UBWT")) (VArr l) in
  construct (with_method (call c []) "detailed") <> None -> construct (with_method (call c' []) "detailed") <> None ->
  sharp (call c l) u M -> sharp (call c' l') u' M' ->
  0 < nth 0 l 0 -> nth 0 l' 0 = nth 0 l 0 ->
  gfunction link uw (with_method (call c l) "similarities") = Some (G1 g) ->
  gfunction link' uw' (with_method (call c' l') "similarities") = Some (G1 g') ->
  nth 0 g' 0 <= nth 0 g 0.
Proof.
  intros link link' uw uw' c c' thr u M u' M' l l' g g' Pa Ea Eb Th Th' Tp Sg Sg' Vf Gr Gr' Sp Rf call Co Co' Sh Sh' P0 El E E'.
  rewrite (C89_similarities link uw (call c l) u M Sh) in E. rewrite (C89_similarities link' uw' (call c' l') u' M' Sh') in E'.
  exact (C144_detailed link link' uw uw' (with_method c "detailed") (with_method c' "detailed") thr l l' g g' Pa Ea Eb Th Th' Tp eq_refl eq_refl Sg Sg' Vf Gr Gr' Sp Rf Co Co' P0 El E E').
Qed.
Print Assumptions C144_similarities.

(** Borefield.evaluate_g_function for a field of vertical boreholes with two choices of the
    options: both give values, and the first of the finer choice is positive and at most
    that of the other. *)
Theorem C144_field : forall link uw roots f alpha l o o', spread (to_boreholes f) -> 0 < alpha -> later_times l ->
  fit_options (to_boreholes f) o -> fit_options (to_boreholes f) o' -> Forall2 refines (option_ratios (to_boreholes f) o) (option_ratios (to_boreholes f) o') ->
  exists g g', evaluate_g_function link uw roots f alpha (VArr l) "detailed" "UBWT" (Some o) = Some (G1 g) /\
    evaluate_g_function link uw roots f alpha (VArr l) "detailed" "UBWT" (Some o') = Some (G1 g') /\
    List.length g = List.length l /\ List.length g' = List.length l /\ 0 < nth 0 g' 0 <= nth 0 g 0.
Proof.
  intros link uw roots f alpha l o o' Sp Pa Lt Fo Fo' Rf. set (bs := to_boreholes f) in *.
  set (c := opt_call bs alpha o "detailed" (Some "UBWT") (VArr l)). set (c' := opt_call bs alpha o' "detailed" (Some "UBWT") (VArr l)).
  destruct (opt_threshold bs alpha o Sp Pa Fo "detailed" (Some "UBWT") (VArr l)) as (thr & Th & Tp & Et). fold c in Th.
  destruct (opt_threshold bs alpha o' Sp Pa Fo' "detailed" (Some "UBWT") (VArr l)) as (thr' & Th' & Tp' & Et'). fold c' in Th'.
  assert (Q : thr' = thr). { destruct (spread_radius bs Sp) as (r & Er & _). rewrite (Et r Er), (Et' r Er). reflexivity. } subst thr'.
  destruct (later_ok l thr Lt) as [Ti Nr].
  assert (P0 : 0 < nth 0 l 0) by (destruct Lt as (N & P & _); rewrite Forall_forall in P; apply P, nth_In; destruct l; [contradiction|cbn; lia]).
  pose proof (opt_constructed bs alpha o Sp Fo "detailed" "UBWT" ltac:(cbn; auto) ltac:(auto)) as Co.
  pose proof (opt_constructed bs alpha o' Sp Fo' "detailed" "UBWT" ltac:(cbn; auto) ltac:(auto)) as Co'.
  pose proof (proj1 Fo) as Sg. pose proof (proj1 Fo') as Sg'. pose proof (proj1 (proj2 Fo)) as Gr. pose proof (proj1 (proj2 Fo')) as Gr'.
  pose proof (spread_vertical _ Sp) as Vf. pose proof (spread_spaced _ Sp) as Ws.
  destruct (C122_detailed link uw c thr l Pa Th Tp eq_refl Sg Vf Gr Ws Co Ti Nr) as (g & E & L).
  destruct (C122_detailed link uw c' thr l Pa Th' Tp eq_refl Sg' Vf Gr' Ws Co' Ti Nr) as (g' & E' & L').
  exists g, g'. split; [exact E|]. split; [exact E'|]. split; [exact L|]. split; [exact L'|]. split.
  - exact (proj1 (C123_first link uw c' thr l g' Pa Th' Tp eq_refl Sg' Vf Gr' Ws P0 E')).
  - exact (C144_detailed link link uw uw c c' thr l l g g' Pa eq_refl eq_refl Th Th' Tp eq_refl eq_refl Sg Sg' Vf Gr Gr' Ws Rf Co Co' P0 eq_refl E E').
Qed.
Print Assumptions C144_field.

(** k n segments of the same length instead of n *)
Theorem C144_even : forall link uw roots f alpha l n k, spread (to_boreholes f) -> 0 < alpha -> later_times l -> (1 <= n)%nat -> (1 <= k)%nat ->
  exists g g', evaluate_g_function link uw roots f alpha (VArr l) "detailed" "UBWT" (Some (even_options n)) = Some (G1 g) /\
    evaluate_g_function link uw roots f alpha (VArr l) "detailed" "UBWT" (Some (even_options (k * n))) = Some (G1 g') /\
    0 < nth 0 g' 0 <= nth 0 g 0.
Proof.
  intros link uw roots f alpha l n k Sp Pa Lt Pn Pk.
  destruct (C144_field link uw roots f alpha l (even_options n) (even_options (k * n)) Sp Pa Lt) as (g & g' & E & E' & _ & _ & B);
    [apply even_fit; auto|apply even_fit; nia|apply even_refined; auto|].
  exists g, g'. auto.
Qed.
Print Assumptions C144_even.

(** Any segments of the boreholes: the first value is at most that of one segment for each
    of the boreholes. *)
Theorem C144_one : forall link uw roots f alpha l o, spread (to_boreholes f) -> 0 < alpha -> later_times l -> fit_options (to_boreholes f) o ->
  exists g g', evaluate_g_function link uw roots f alpha (VArr l) "detailed" "UBWT" (Some (even_options 1)) = Some (G1 g) /\
    evaluate_g_function link uw roots f alpha (VArr l) "detailed" "UBWT" (Some o) = Some (G1 g') /\
    0 < nth 0 g' 0 <= nth 0 g 0.
Proof.
  intros link uw roots f alpha l o Sp Pa Lt Fo.
  destruct (C144_field link uw roots f alpha l (even_options 1) o Sp Pa Lt) as (g & g' & E & E' & _ & _ & B);
    [apply even_fit; auto|exact Fo| |exists g, g'; auto].
  rewrite even_ratios. destruct Fo as ((_ & L & _) & Gr & _). fold (option_ratios (to_boreholes f) o) in L, Gr. rewrite <- L. clear - Gr.
  induction (option_ratios (to_boreholes f) o) as [|r rs IH]; cbn [repeat List.length]; constructor.
  - exists [r]. cbn [concat]. rewrite app_nil_r. split; [reflexivity|]. constructor; [|constructor].
    rewrite (proj1 (Gr r (or_introl eq_refl))). change (INR 1) with 1. field.
  - apply IH. intros x Hx. apply Gr. right. exact Hx.
Qed.
Print Assumptions C144_one.

(** Doubling the number of segments again and again: the first values decrease and have a
    limit, which is at least zero. *)
Theorem C144_limit : forall link uw roots f alpha l n, spread (to_boreholes f) -> 0 < alpha -> later_times l -> (1 <= n)%nat ->
  exists v : nat -> R, (forall j, exists g, evaluate_g_function link uw roots f alpha (VArr l) "detailed" "UBWT" (Some (even_options (2 ^ j * n))) = Some (G1 g) /\ nth 0 g 0 = v j) /\
    (forall j, 0 < v (S j) <= v j) /\ exists w : R, is_lim_seq v w /\ 0 <= w /\ forall j, w <= v j.
Proof.
  intros link uw roots f alpha l n Sp Pa Lt Pn.
  set (ev := fun m => evaluate_g_function link uw roots f alpha (VArr l) "detailed" "UBWT" (Some (even_options m))).
  set (v := fun j => match ev (2 ^ j * n)%nat with Some (G1 g) => nth 0 g 0 | _ => 0 end).
  assert (Pj : forall j, (1 <= 2 ^ j * n)%nat) by (intros j; pose proof (Nat.pow_nonzero 2 j ltac:(lia)); nia).
  assert (Mo : forall j, 0 < v (S j) <= v j).
  { intros j. destruct (C144_even link uw roots f alpha l (2 ^ j * n) 2 Sp Pa Lt (Pj j) ltac:(lia)) as (g & g' & E & E' & B).
    unfold v, ev. rewrite E. replace (2 ^ S j * n)%nat with (2 * (2 ^ j * n))%nat by (cbn [Nat.pow]; lia). rewrite E'. exact B. }
  exists v. split; [|split; [exact Mo|]].
  - intros j. destruct (C144_even link uw roots f alpha l (2 ^ j * n) 1 Sp Pa Lt (Pj j) ltac:(lia)) as (g & _ & E & _). exists g. split; [exact E|]. unfold v, ev. now rewrite E.
  - assert (P : forall j, 0 <= v j) by (intros j; pose proof (Mo j); lra).
    destruct (ex_finite_lim_seq_decr v 0 (fun j => proj2 (Mo j)) P) as [w W]. exists w. split; [exact W|]. split.
    + exact (is_lim_seq_le (fun _ => 0) v 0 w P (is_lim_seq_const 0) W).
    + intros j. exact (is_lim_seq_decr_compare v w W (fun j => proj2 (Mo j)) j).
Qed.
Print Assumptions C144_limit.

(** A field of 2 x 3 boreholes, and the ratios 1/4, 3/4 that refine 1 and are refined by
    1/8, 1/8, 3/4. *)
Example C144_ex : exists f, rectangle_field 2 3 5 5 100 2 (75 / 1000) 0 None = Some f /\ List.length (to_boreholes f) = 6%nat /\ spread (to_boreholes f) /\ later_times [3600; 7200].
Proof.
  destruct (lattice_spread _ _ _ _ _ _ _ _ _ (C14_rectangle 2 3 5 5 100 2 (75 / 1000) 0 None) ltac:(lia) ltac:(lra) ltac:(lra) ltac:(lra) ltac:(lra) ltac:(lra)) as (f & E & L & Sp).
  exists f. split; [exact E|]. split; [exact L|]. split; [exact Sp|]. split; [discriminate|]. split; repeat constructor; lra.
Qed.

Example C144_refines_ex : refines [1 / 4; 3 / 4] [1 / 8; 1 / 8; 3 / 4] /\ forall f, fit_options (to_boreholes f) (cut_options [1 / 4; 3 / 4]) /\ fit_options (to_boreholes f) (cut_options [1 / 8; 1 / 8; 3 / 4]).
Proof.
  split.
  - exists [[1 / 8; 1 / 8]; [3 / 4]]. split; [reflexivity|]. constructor; [cbv; lra|]. constructor; [cbv; lra|constructor].
  - assert (Z : forall bs r, Rsum r = 1 -> (forall x, In x r -> 0 < x) -> fit_options bs (cut_options r)).
    { intros bs r S P. unfold fit_options. cbn [cut_options o_n o_r o_thr o_tol o_disTol format_segments format_ratios]. cbv zeta.
      split; [|split; [|split; [reflexivity|lra]]].
      - split; [apply repeat_length|]. split; [apply repeat_length|]. intros b Lb.
        rewrite (repeat_spec (List.length bs) (List.length r) _ (nth_In _ O ltac:(rewrite repeat_length; exact Lb))).
        rewrite (repeat_spec (List.length bs) r _ (nth_In _ [] ltac:(rewrite repeat_length; exact Lb))). reflexivity.
      - intros q Hq. apply repeat_spec in Hq. subst q. split; [exact S|exact P]. }
    intros f. split; apply Z; try (cbv; lra); intros x Hx; cbn [In] in Hx; repeat (destruct Hx as [<-|Hx]; [lra|]); contradiction.
Qed.
