(** The order of the boundary conditions: C149, C150. *)
From Coq Require Import String Reals Lra Lia List.
From Verif Require Import Base LinAlg FLS_Model Net_Extra_Proofs Eq_Mix_Proofs.
From Verif Require Import Bore_Model Field_Model Net_Model Net_Spec Solve_Model Solve_Spec Detailed_Model Detailed_Spec Sim_Model Eq_Model GFun_Model GFun_Spec GFun_Pair_Proofs GFun_Two_Proofs GFun_Mift_Proofs GFun_Props
  Passive_Spec Passive_Props Def_Spec Def_Props Refine_Proofs Def_Object_Proofs Order_Spec Order_Proofs Order_Object_Proofs Order_Net_Proofs Order_Field_Proofs Order_Pair_Proofs Order_Series_Proofs.
From Verif Require Pipe_Model Pipe_Spec Pipe_Props Recip_Props Flow_Proofs Flow_Props Passive_Pipe_Proofs.
Import ListNotations.
Local Open Scope R_scope.
Local Open Scope string_scope.

(** Boreholes in parallel: the first value at the mixed inlet temperature is not below the
    one at a uniform wall temperature. *)
Theorem C149_parallel : forall link link' uw uw' c w x thr mb mn row f l l' g g', c_source c = Piped w -> c_bc c = Some "MIFT" -> c_method c = "detailed" -> 0 < c_alpha c -> threshold_of c thr -> 0 < thr ->
  in_parallel w -> segmented (w_b w) (segments_of c) (ratios_of c) -> vertical_field (w_b w) -> good_ratios (ratios_of c) -> well_spaced (w_b w) -> 0 < nth 0 (w_ks w) 0 ->
  (mb = VNone <-> mn <> VNone) -> solver_flows mb mn = Some (0%nat, [row]) -> construct (with_time (with_bc c (Some "UBWT")) (VArr [])) <> None ->
  0 < x -> format_inputs (w_c w) (flow_call x (segments_of c) (ratios_of c) row) = Some f -> every_pipe balanced_legs (w_c w) (w_p w) f -> 0 < total_flow (w_c w) f ->
  0 < nth 0 l 0 -> nth 0 l' 0 = nth 0 l 0 ->
  gfunction link uw (with_time (with_flow c mb mn (VFloat x)) (VArr l)) = Some (G1 g) ->
  gfunction link' uw' (with_time (with_bc c (Some "UBWT")) (VArr l')) = Some (G1 g') ->
  nth 0 g' 0 <= nth 0 g 0.
Proof.
  intros link link' uw uw' c w x thr mb mn row f l l' g g' Es Eb Me Al Th Tp Pw Sg Vf Gr Sp Ks Xo SF Co Xp Ef Le Tf P0 El E E'.
  destruct (field_flow w (segments_of c) (ratios_of c) x row f Pw (proj1 Sg) (proj1 (proj2 Sg)) Ef Xp Le Tf) as (F & EF & Pa & _ & _ & Rf).
  rewrite <- (sources_sum _ _ _ Sg) in Pa, Rf.
  exact (mift_above link uw c w x thr Es Eb Me Al Th Tp Sg Vf Gr Sp Ks mb mn row F Xo SF EF Rf Pa link' uw' l l' g g' Co P0 El E E').
Qed.
Print Assumptions C149_parallel.

(** Boreholes alike in parallel, one segment each: it is not above the value at uniform heat
    extraction rates. *)
Theorem C150_alike : forall link link' uw uw' c w x thr mb mn row f l g, c_source c = Piped w -> c_bc c = Some "MIFT" -> c_method c = "detailed" -> 0 < c_alpha c -> threshold_of c thr -> 0 < thr ->
  in_parallel w -> segmented (w_b w) (segments_of c) (ratios_of c) -> vertical_field (w_b w) -> good_ratios (ratios_of c) -> well_spaced (w_b w) -> 0 < nth 0 (w_ks w) 0 ->
  (mb = VNone <-> mn <> VNone) -> solver_flows mb mn = Some (0%nat, [row]) -> construct (with_time (with_bc c (Some "UHTR")) (VArr [])) <> None ->
  0 < x -> format_inputs (w_c w) (flow_call x (segments_of c) (ratios_of c) row) = Some f -> every_pipe library_pipe (w_c w) (w_p w) f -> 0 < total_flow (w_c w) f ->
  alike w (segments_of c) f -> 0 < nth 0 l 0 -> times (VArr l) <> None ->
  gfunction link uw (with_time (with_flow c mb mn (VFloat x)) (VArr l)) = Some (G1 g) ->
  exists g', gfunction link' uw' (with_time (with_bc c (Some "UHTR")) (VArr l)) = Some (G1 g') /\ nth 0 g 0 <= nth 0 g' 0.
Proof.
  intros link link' uw uw' c w x thr mb mn row f l g Es Eb Me Al Th Tp Pw Sg Vf Gr Sp Ks Xo SF Co Xp Ef Lp Tf Ak P0 Ti E.
  assert (Le : every_pipe balanced_legs (w_c w) (w_p w) f).
  { intros i p Hp. split; [exact (Lp i p Hp)|]. left. exact (one_segment w (segments_of c) (ratios_of c) x row f Pw (proj1 Sg) (proj1 (proj2 Sg)) Ef (proj1 Ak) i p Hp). }
  destruct (field_flow w (segments_of c) (ratios_of c) x row f Pw (proj1 Sg) (proj1 (proj2 Sg)) Ef Xp Le Tf) as (F & EF & Pa & _ & _ & Rf).
  pose proof (alike_even w (segments_of c) (ratios_of c) x row f Pw (proj1 Sg) (proj1 (proj2 Sg)) Ef Le Tf F EF Sg Vf Gr Ak Rf) as Ev.
  rewrite <- (sources_sum _ _ _ Sg) in Pa, Rf, Ev.
  assert (Bs : boreholes_of c = w_b w) by (unfold boreholes_of; rewrite Es; reflexivity).
  destruct (C90_detailed link' uw' c thr l Al Th Tp Me Co Ti ltac:(rewrite Bs; exact Sg) ltac:(rewrite Bs; exact Vf) Gr) as (g' & E' & _ & V).
  exists g'. split; [exact E'|]. destruct l as [|t r]; [cbn in P0; lra|]. rewrite (V O ltac:(cbn; lia)), Bs.
  exact (mift_below link uw c w x thr Es Eb Me Al Th Tp Sg Vf Gr Sp Ks mb mn row F Xo SF EF Rf Pa (t :: r) g Ev P0 E).
Qed.
Print Assumptions C150_alike.

Lemma piped_constructed w b : w_b w = pair_field -> w_m w = VNone -> b = "UHTR" \/ b = "UBWT" ->
  construct (with_time (with_bc (mkcall (Piped w) 1 (VArr [1]) "detailed" (Some "MIFT") VNone VNone VNone pair_options) (Some b)) (VArr [])) <> None.
Proof.
  intros Ew Em Hb. pose proof pair_unique as U. pose proof pair_checks as C.
  unfold construct, resolve. cbn [with_time with_bc c_source c_bc c_mb c_mn c_cp c_method c_options is_none andb]. rewrite Ew, Em.
  assert (N : String.eqb b "MIFT" = false) by (destruct Hb as [-> | ->]; auto). rewrite N. cbn [andb]. cbv zeta.
  unfold check, make_solver. cbn [q_bs q_net q_method q_bc q_mb q_mn q_cp]. rewrite U. unfold check_flows, solver_flows, equivalent_network. cbn [q_bs q_net q_method q_bc q_mb q_mn q_cp with_time with_bc c_time c_options]. rewrite N.
  cbn [List.length pair_field Nat.eqb negb andb pair_options o_n o_r o_tol o_disTol format_segments format_ratios repeat]. fold pair_field. rewrite C.
  destruct Hb as [-> | ->]; discriminate.
Qed.

(** Two boreholes with a U-tube each, at the same flow. *)
Lemma ex_pair_legs : every_pipe library_pipe two [ex_pipe; ex_pipe] (two_format 1 1 1 (Some [1])).
Proof.
  intros [|[|[|i]]] p Hp; cbn [nth_error] in Hp; try discriminate; injection Hp as <-; exact (ex_library O ex_pipe eq_refl).
Qed.
Lemma ex_pair_call (c := pair_mift ex_pipe ex_pipe "detailed" VNone VNone VNone VNone VNone) (w := pair_piped ex_pipe ex_pipe VNone VNone) :
  c_source c = Piped w /\ threshold_of c ((3 / 40) ^ 2 / 25) /\ in_parallel w /\ segmented (w_b w) (segments_of c) (ratios_of c) /\ vertical_field (w_b w) /\ good_ratios (ratios_of c) /\ well_spaced (w_b w) /\
  construct (with_time (with_flow c (VArr [1; 1]) VNone (VFloat 1)) (VArr [])) <> None /\
  construct (with_time (with_bc c (Some "UBWT")) (VArr [])) <> None /\ construct (with_time (with_bc c (Some "UHTR")) (VArr [])) <> None /\
  format_inputs (w_c w) (flow_call 1 (segments_of c) (ratios_of c) [1; 1]) = Some (two_format 1 1 1 (Some [1])) /\ 0 < total_flow (w_c w) (two_format 1 1 1 (Some [1])).
Proof.
  pose proof C94_field_ex as X. cbv zeta in X. destruct X as (X1 & _ & _ & X4 & _).
  split; [reflexivity|]. split; [exact (pair_threshold "detailed")|]. split; [split; [apply two_build|reflexivity]|].
  split; [split; [reflexivity|split; [reflexivity|]]; intros [|[|b]] Hb; try reflexivity; cbn in Hb; lia|]. split; [exact pair_vertical|].
  split; [intros r [<-|[<-|[]]]; split; try (cbn; lra); intros y [<-|[]]; lra|]. split; [exact pair_spaced|].
  split; [|split; [|split; [|split; [exact X4|unfold total_flow; cbn; rewrite Rabs_R1; lra]]]].
  - assert (N : construct (with_time (pair_mift ex_pipe ex_pipe "detailed" VNone VNone (VArr [1; 1]) VNone (VFloat 1)) (VArr [])) <> None).
    { rewrite (pair_mift_constructed ex_pipe ex_pipe "detailed" VNone VNone (VArr [1; 1]) VNone (VFloat 1) 0 [[1; 1]]); try discriminate; auto; [left; auto|right; repeat split; discriminate]. }
    exact N.
  - apply piped_constructed; auto.
  - apply piped_constructed; auto.
Qed.

Example C149_ex : let c := pair_mift ex_pipe ex_pipe "detailed" VNone VNone VNone VNone VNone in let w := pair_piped ex_pipe ex_pipe VNone VNone in
  in_parallel w /\ well_spaced (w_b w) /\ every_pipe balanced_legs (w_c w) (w_p w) (two_format 1 1 1 (Some [1])) /\
  balanced_legs (Pipe_Model.net_pipe (Pipe_Props.ex_tube true)) (- (3/10)) 4000 3 None /\
  exists g g', gfunction plain_link [] (with_time (with_flow c (VArr [1; 1]) VNone (VFloat 1)) (VArr [1])) = Some (G1 g) /\
    gfunction plain_link [] (with_time (with_bc c (Some "UBWT")) (VArr [1])) = Some (G1 g') /\ nth 0 g' 0 <= nth 0 g 0.
Proof.
  cbv zeta. destruct ex_pair_call as (Es & Th & Pw & Sg & Vf & Gr & Sp & Cm & Cu & Ch & Ef & Tf).
  set (c := pair_mift ex_pipe ex_pipe "detailed" VNone VNone VNone VNone VNone) in *. set (w := pair_piped ex_pipe ex_pipe VNone VNone) in *.
  assert (Le : every_pipe balanced_legs (w_c w) (w_p w) (two_format 1 1 1 (Some [1]))).
  { intros i p Hp. split; [exact (ex_pair_legs i p Hp)|]. left. destruct i as [|[|i]]; try reflexivity. destruct i; discriminate Hp. }
  split; [exact Pw|]. split; [exact Sp|]. split; [exact Le|]. split.
  { destruct (Recip_Props.C148_example) as [G E]. split.
    - left. exists (Pipe_Props.ex_tube true), 1%nat, 0%nat. split; [reflexivity|]. split; [exact G|right; reflexivity].
    - right. exists (Pipe_Props.ex_tube true), 1%nat, 0%nat. split; [reflexivity|]. split; [exact G|]. split; [right; reflexivity|exact E]. }
  assert (Nr : no_repeats ((3 / 40) ^ 2 / 25) [1]) by (intros k Hk; cbn in Hk; lia).
  assert (Ti : times (VArr [1]) <> None) by (unfold times; cbn; discriminate).
  destruct (C94_field plain_link [] c w 1 _ (VArr [1; 1]) VNone [1; 1] _ [1] Es eq_refl eq_refl ltac:(cbn; lra) Th ltac:(lra) (conj eq_refl (ex_intro _ None two_build)) Sg Vf Gr Sp ltac:(cbn; lra) ltac:(split; intros; congruence) eq_refl Cm ltac:(lra) Ef ex_pair_legs Tf Ti Nr) as (g & Eg & _).
  destruct (C122_detailed plain_link [] c _ [1] ltac:(cbn; lra) Th ltac:(lra) eq_refl Sg Vf Gr Sp Cu Ti Nr) as (g' & Eg' & _).
  exists g, g'. split; [exact Eg|]. split; [exact Eg'|].
  apply (C149_parallel plain_link plain_link [] [] c w 1 _ (VArr [1; 1]) VNone [1; 1] (two_format 1 1 1 (Some [1])) [1] [1] g g' Es eq_refl eq_refl ltac:(cbn; lra) Th ltac:(lra) Pw Sg Vf Gr Sp ltac:(cbn; lra) ltac:(split; intros; congruence) eq_refl Cu ltac:(lra) Ef Le Tf); auto; cbn; lra.
Qed.

Example C150_ex : let c := pair_mift ex_pipe ex_pipe "detailed" VNone VNone VNone VNone VNone in let w := pair_piped ex_pipe ex_pipe VNone VNone in
  alike w (segments_of c) (two_format 1 1 1 (Some [1])) /\ every_pipe library_pipe (w_c w) (w_p w) (two_format 1 1 1 (Some [1])) /\
  exists g g', gfunction plain_link [] (with_time (with_flow c (VArr [1; 1]) VNone (VFloat 1)) (VArr [1])) = Some (G1 g) /\
    gfunction plain_link [] (with_time (with_bc c (Some "UHTR")) (VArr [1])) = Some (G1 g') /\ nth 0 g 0 <= nth 0 g' 0.
Proof.
  cbv zeta. destruct ex_pair_call as (Es & Th & Pw & Sg & Vf & Gr & Sp & Cm & Cu & Ch & Ef & Tf).
  set (c := pair_mift ex_pipe ex_pipe "detailed" VNone VNone VNone VNone VNone) in *. set (w := pair_piped ex_pipe ex_pipe VNone VNone) in *.
  assert (Ak : alike w (segments_of c) (two_format 1 1 1 (Some [1]))).
  { split; [intros k [<-|[<-|[]]]; reflexivity|]. exists 100, ex_pipe, 1. split; [intros b [<-|[<-|[]]]; reflexivity|]. split; [intros q [<-|[<-|[]]]; reflexivity|]. intros y [<-|[<-|[]]]; reflexivity. }
  split; [exact Ak|]. split; [exact ex_pair_legs|].
  assert (Nr : no_repeats ((3 / 40) ^ 2 / 25) [1]) by (intros k Hk; cbn in Hk; lia).
  assert (Ti : times (VArr [1]) <> None) by (unfold times; cbn; discriminate).
  destruct (C94_field plain_link [] c w 1 _ (VArr [1; 1]) VNone [1; 1] _ [1] Es eq_refl eq_refl ltac:(cbn; lra) Th ltac:(lra) (conj eq_refl (ex_intro _ None two_build)) Sg Vf Gr Sp ltac:(cbn; lra) ltac:(split; intros; congruence) eq_refl Cm ltac:(lra) Ef ex_pair_legs Tf Ti Nr) as (g & Eg & _).
  exists g.
  destruct (C150_alike plain_link plain_link [] [] c w 1 _ (VArr [1; 1]) VNone [1; 1] (two_format 1 1 1 (Some [1])) [1] g Es eq_refl eq_refl ltac:(cbn; lra) Th ltac:(lra) Pw Sg Vf Gr Sp ltac:(cbn; lra) ltac:(split; intros; congruence) eq_refl Ch ltac:(lra) Ef ex_pair_legs Tf Ak ltac:(cbn; lra) Ti Eg) as (g' & Eg' & L).
  exists g'. auto.
Qed.

(** * Boreholes fed unequally *)

Lemma ex_tube_flow m : 0 < m -> Pipe_Spec.good_flow (Pipe_Props.ex_tube true) m 1 1 (Some [1]) 0 1.
Proof.
  intros Pm. split; [left; repeat split; left; lra|]. split; [intros i j q; cbn; destruct (Nat.eqb i j); intros Q; injection Q as <-; lra|].
  split; [unfold Pipe_Spec.conducting, Pipe_Spec.cond; cbn; lra|]. split; [lra|]. split; [cbn; lra|]. split; [reflexivity|]. split; [constructor; [lra|constructor]|cbn; lra].
Qed.
Lemma ex_pipe_library m : 0 < m -> library_pipe ex_pipe m 1 1 (Some [1]).
Proof. intros Pm. left. exists (Pipe_Props.ex_tube true), 0%nat, 1%nat. split; [reflexivity|]. split; [apply ex_tube_flow; exact Pm|left; exact Pm]. Qed.

Lemma ex_pipe_heat m : 0 < m -> fst (p_qb ex_pipe m 1 1 (Some [1])) O = - (m * (1 - fst (p_out ex_pipe m 1 1 (Some [1])))) /\
  snd (p_qb ex_pipe m 1 1 (Some [1])) O O = m * (1 - fst (p_out ex_pipe m 1 1 (Some [1]))) /\ -1 < fst (p_out ex_pipe m 1 1 (Some [1])) < 1 /\
  snd (p_out ex_pipe m 1 1 (Some [1])) O = 1 - fst (p_out ex_pipe m 1 1 (Some [1])).
Proof.
  intros Pm. pose proof (ex_pipe_library m Pm) as L. destruct (Passive_Pipe_Proofs.library_sound _ _ _ _ _ L) as ([B1 B2] & _ & Ct).
  destruct (library_neutral _ _ _ _ _ L) as [Ne1 Ne2]. unfold pipe_contracts in Ct. apply Rabs_def2 in Ct. specialize (Ne2 O ltac:(lia)).
  unfold p_qf in B1. destruct (p_out ex_pipe m 1 1 (Some [1])) as [bi bb]. cbn [fst snd sumn] in B1, Ne1, Ne2, Ct |- *. rewrite Rabs_pos_eq in B1 by lra.
  set (h := fst (p_qb ex_pipe m 1 1 (Some [1])) O) in *. assert (Eh : h = - (m * (1 - bi))) by lra. repeat split; lra.
Qed.

(** The conductance grows with the flow. *)
Lemma ex_pipe_grows m1 m2 : 0 < m1 -> m1 < m2 -> m1 * (1 - fst (p_out ex_pipe m1 1 1 (Some [1]))) < m2 * (1 - fst (p_out ex_pipe m2 1 1 (Some [1]))).
Proof.
  intros P1 L. assert (P2 : 0 < m2) by lra.
  destruct (Flow_Props.C138_flow (Pipe_Props.ex_tube true) m1 m2 1 1 1 (Some [1]) 0 1 1 0 (ex_tube_flow m1 P1) (ex_tube_flow m2 P2) (or_introl P1) (or_introl P2) ltac:(lra) ltac:(rewrite !Rabs_pos_eq by lra; lra)) as [X _].
  unfold Pipe_Model.get_fluid_heat, Pipe_Model.fluid_heat, Pipe_Model.fluid_from in X. cbn [fst snd sumn] in X.
  destruct (ex_pipe_heat m1 P1) as (_ & _ & A1 & _). destruct (ex_pipe_heat m2 P2) as (_ & _ & A2 & _).
  change (fst (p_out ex_pipe m1 1 1 (Some [1]))) with (fst (Pipe_Model.outlet (Pipe_Props.ex_tube true) m1 1 1 (Some [1]))) in *.
  change (fst (p_out ex_pipe m2 1 1 (Some [1]))) with (fst (Pipe_Model.outlet (Pipe_Props.ex_tube true) m2 1 1 (Some [1]))) in *.
  set (a1 := fst (Pipe_Model.outlet _ m1 _ _ _)) in *. set (a2 := fst (Pipe_Model.outlet _ m2 _ _ _)) in *.
  rewrite (Rabs_pos_eq m1), (Rabs_pos_eq m2) in X by lra. rewrite !Rmult_0_r, !Rplus_0_r, !Rmult_1_r in X.
  rewrite (Rabs_left (- m1 + m1 * a1)), (Rabs_left (- m2 + m2 * a2)) in X by nra. lra.
Qed.

(** Two boreholes alike, one of them with twice the flow of the other: the value at the mixed
    inlet temperature is above the one at uniform heat extraction rates. *)
Theorem C150_uneven_refuted : exists c w x row f g g', c_source c = Piped w /\ c_bc c = Some "MIFT" /\ c_method c = "detailed" /\ in_parallel w /\ well_spaced (w_b w) /\ vertical_field (w_b w) /\
  format_inputs (w_c w) (flow_call x (segments_of c) (ratios_of c) row) = Some f /\ every_pipe library_pipe (w_c w) (w_p w) f /\
  (forall b b', In b (w_b w) -> In b' (w_b w) -> bH b = bH b') /\ (forall p p', In p (w_p w) -> In p' (w_p w) -> p = p') /\ row = [1; 2] /\
  gfunction plain_link [] (with_time (with_flow c (VArr row) VNone (VFloat x)) (VArr [1])) = Some (G1 [g]) /\
  gfunction plain_link [] (with_time (with_bc c (Some "UHTR")) (VArr [1])) = Some (G1 [g']) /\ g' < g.
Proof.
  destruct ex_pair_call as (Es & Th & Pw & Sg & Vf & Gr & Sp & _ & _ & Ch & _ & _).
  set (c := pair_mift ex_pipe ex_pipe "detailed" VNone VNone VNone VNone VNone) in *. set (w := pair_piped ex_pipe ex_pipe VNone VNone) in *.
  assert (Ef : format_inputs (w_c w) (flow_call 1 (segments_of c) (ratios_of c) [1; 2]) = Some (two_format 1 2 1 (Some [1]))).
  { unfold format_inputs, flow_call. cbn [g_m g_cp g_n g_r].
    assert (D : format_dir [1; 2] = Some false) by (unfold format_dir; cbn [forallb]; rewrite (proj2 (Rleb_true 0 1)), (proj2 (Rleb_true 0 2)) by lra; reflexivity).
    rewrite D. reflexivity. }
  assert (Lp : every_pipe library_pipe (w_c w) (w_p w) (two_format 1 2 1 (Some [1]))).
  { intros [|[|[|i]]] p Hp; cbn [nth_error w_p w pair_piped] in Hp; try discriminate; injection Hp as <-; cbn [two_format f_mb f_cpb f_seg f_rat nth]; apply ex_pipe_library; lra. }
  assert (Le : every_pipe balanced_legs (w_c w) (w_p w) (two_format 1 2 1 (Some [1]))).
  { intros i p Hp. split; [exact (Lp i p Hp)|]. left. destruct i as [|[|i]]; try reflexivity. destruct i; discriminate Hp. }
  assert (Tf : 0 < total_flow (w_c w) (two_format 1 2 1 (Some [1]))) by (unfold total_flow; cbn; rewrite !Rabs_pos_eq by lra; lra).
  assert (Cm : construct (with_time (with_flow c (VArr [1; 2]) VNone (VFloat 1)) (VArr [])) <> None).
  { assert (N : construct (with_time (pair_mift ex_pipe ex_pipe "detailed" VNone VNone (VArr [1; 2]) VNone (VFloat 1)) (VArr [])) <> None).
    { rewrite (pair_mift_constructed ex_pipe ex_pipe "detailed" VNone VNone (VArr [1; 2]) VNone (VFloat 1) 0 [[1; 2]]); try discriminate; auto; [left; auto|right; repeat split; discriminate]. }
    exact N. }
  assert (Nr : no_repeats ((3 / 40) ^ 2 / 25) [1]) by (intros k Hk; cbn in Hk; lia).
  assert (Ti : times (VArr [1]) <> None) by (unfold times; cbn; discriminate).
  destruct (C94_field plain_link [] c w 1 _ (VArr [1; 2]) VNone [1; 2] _ [1] Es eq_refl eq_refl ltac:(cbn; lra) Th ltac:(lra) (conj eq_refl (ex_intro _ None two_build)) Sg Vf Gr Sp ltac:(cbn; lra) ltac:(split; intros; congruence) eq_refl Cm ltac:(lra) Ef Lp Tf Ti Nr) as (g & Eg & Lg).
  destruct (C90_detailed plain_link [] c _ [1] ltac:(cbn; lra) Th ltac:(lra) eq_refl Ch Ti Sg Vf Gr) as (g' & Eg' & Lg' & V').
  destruct g as [|v [|]]; try discriminate Lg. destruct g' as [|v' [|]]; try discriminate Lg'. specialize (V' O ltac:(cbn; lia)). cbn [nth] in V'.
  exists c, w, 1, [1; 2], (two_format 1 2 1 (Some [1])), v, v'.
  split; [exact Es|]. split; [reflexivity|]. split; [reflexivity|]. split; [exact Pw|]. split; [exact Sp|]. split; [exact Vf|]. split; [exact Ef|]. split; [exact Lp|].
  split; [intros b b' [<-|[<-|[]]] [<-|[<-|[]]]; reflexivity|]. split; [intros p p' [<-|[<-|[]]] [<-|[<-|[]]]; reflexivity|]. split; [reflexivity|]. split; [exact Eg|]. split; [exact Eg'|].
  destruct (field_flow w (segments_of c) (ratios_of c) 1 [1; 2] _ Pw (proj1 Sg) (proj1 (proj2 Sg)) Ef ltac:(lra) Le Tf) as (F & EF & Pa & _ & _ & Rf).
  assert (O1 : forall k, In k (segments_of c) -> k = 1%nat) by (intros k [<-|[<-|[]]]; reflexivity).
  assert (R1 : forall r, In r (ratios_of c) -> r = [1]) by (intros k [<-|[<-|[]]]; reflexivity).
  pose proof (single_flow w (segments_of c) (ratios_of c) 1 [1; 2] _ Pw (proj1 Sg) (proj1 (proj2 Sg)) Ef Le Tf F EF O1 R1) as SF.
  destruct (SF 0%nat ltac:(cbn; lia)) as [I0 B0]. destruct (SF 1%nat ltac:(cbn; lia)) as [I1 B1]. cbn [nth w_p w pair_piped two_format f_mb] in I0, B0, I1, B1.
  destruct (ex_pipe_heat 1 ltac:(lra)) as (H1 & H2 & A1 & _). destruct (ex_pipe_heat 2 ltac:(lra)) as (H3 & H4 & A2 & _).
  pose proof (ex_pipe_grows 1 2 ltac:(lra) ltac:(lra)) as Gw.
  set (k0 := 1 * (1 - fst (p_out ex_pipe 1 1 1 (Some [1])))) in *. set (k1 := 2 * (1 - fst (p_out ex_pipe 2 1 1 (Some [1])))) in *.
  assert (P0 : 0 < k0) by (unfold k0; lra).
  pose proof (sources_sum _ _ _ Sg) as NS. rewrite <- NS in Rf, Pa.
  destruct (first_loads plain_link [] c w 1 _ Es eq_refl eq_refl Th ltac:(lra) Sg Vf Gr ltac:(cbn; lra) (VArr [1; 2]) VNone [1; 2] F ltac:(split; intros; congruence) eq_refl EF Rf [1] [v] ltac:(cbn; lra) Eg) as (Hn & q & tin & Q1 & Q2 & Q3).
  pose proof (mean_rows [] c w ltac:(cbn; lra) Sg Vf Gr (Rmax (nth 0 [1] 0) ((3 / 40) ^ 2 / 25)) ltac:(apply Rlt_le_trans with (nth 0 [1] 0); [cbn; lra|apply Rmax_l]) Hn) as MR.
  rewrite NS in Q1, Q2, Q3, MR. change (list_sum (segments_of c)) with 2%nat in Q1, Q2, Q3, MR. cbn [nth] in Q1, Q3, MR. rewrite (Rmax_left 1) in Q1, MR by lra. rewrite (Rmin_right 1) in Q3 by lra.
  change (w_b w) with pair_field in Q1, Q2, Q3, MR. change (segments_of c) with [1; 1]%nat in Q1, Q2, Q3, MR. change (ratios_of c) with [[1]; [1]] in Q1, Q2, Q3, MR. change (c_alpha c) with 1 in Q1, MR. change (nth 0 (w_ks w) 0) with 1 in Q1, Q3.
  pose proof (pair_length 0 ltac:(lia)) as L0. pose proof (pair_length 1 ltac:(lia)) as L1.
  pose proof (Q1 0%nat ltac:(lia)) as Y0. pose proof (Q1 1%nat ltac:(lia)) as Y1. unfold form in Q3. cbn [sumn] in Y0, Y1, Q2, Q3, MR.
  rewrite !pair_matrix in Y0, Y1, MR by lia. cbn [Nat.eqb] in Y0, Y1, MR. rewrite !L0, !L1 in *.
  assert (B0' : forall j, (j < 2)%nat -> f_b F 0%nat j = if Nat.eqb 0 j then k0 else 0) by (intros j Hj; rewrite (B0 j Hj); destruct (Nat.eqb 0 j); [exact H2|reflexivity]).
  assert (B1' : forall j, (j < 2)%nat -> f_b F 1%nat j = if Nat.eqb 1 j then k1 else 0) by (intros j Hj; rewrite (B1 j Hj); destruct (Nat.eqb 1 j); [exact H4|reflexivity]).
  rewrite (B0' 0%nat), (B0' 1%nat) in Y0, Q3 by lia. rewrite (B1' 0%nat), (B1' 1%nat) in Y1, Q3 by lia. cbn [Nat.eqb] in Y0, Y1, Q3.
  destruct (pair_order 1 ltac:(lra)) as [_ Po].
  rewrite V'. unfold started. change (boreholes_of c) with pair_field. change (c_alpha c) with 1.
  replace (Rleb 1 ((3 / 40) ^ 2 / 25)) with false by (symmetry; apply Rleb_false; lra). rewrite <- MR, Q3.
  pose proof PI_RGT_0 as Pi.
  pose proof (parallel_pair (2 * PI * 1 * 100) k0 k1 (pair_self 1) (pair_cross 1) tin (q 0%nat) (q 1%nat) ltac:(lra) P0 ltac:(lra) Po ltac:(apply Rlt_not_eq; exact Gw)) as X.
  match type of X with _ -> _ -> _ -> ?g => assert (XX : g) end.
  { apply X; [rewrite Y0; ring|rewrite Y1; ring|lra]. }
  replace ((3 / 40) ^ 2 / 25 / ((3 / 40) ^ 2 / 25)) with 1 by (field; lra). rewrite Rmult_1_r.
  match goal with |- ?a < _ => replace a with (pair_self 1 + pair_cross 1) by field end.
  match type of XX with _ < ?a => match goal with |- _ < ?b => replace b with a; [exact XX|] end end.
  f_equal. unfold Rdiv. f_equal; [ring|]. f_equal. ring.
Qed.
Print Assumptions C150_uneven_refuted.

(** * Boreholes in series *)

Definition chain_piped : network := mknetwork pair_field [ex_pipe; ex_pipe] [1; 1] [[1]; [1]] chain VNone VNone.
Definition chain_call : call := mkcall (Piped chain_piped) 1 (VArr [1]) "detailed" (Some "MIFT") VNone VNone VNone pair_options.

Lemma chain_constructed : construct (with_time (with_flow chain_call VNone (VFloat 1) (VFloat 1)) (VArr [])) <> None.
Proof.
  unfold construct. assert (E : resolve (with_time (with_flow chain_call VNone (VFloat 1) (VFloat 1)) (VArr [])) = Some (mkrequest pair_field (Some chain_piped) "detailed" "MIFT" VNone (VFloat 1) (VFloat 1))) by reflexivity.
  rewrite E. assert (Ck : check (with_time (with_flow chain_call VNone (VFloat 1) (VFloat 1)) (VArr [])) (mkrequest pair_field (Some chain_piped) "detailed" "MIFT" VNone (VFloat 1) (VFloat 1)) = true).
  { unfold check. cbn [q_bs q_net q_method q_bc q_mb q_mn q_cp c_time with_time]. rewrite pair_unique. reflexivity. }
  rewrite Ck. unfold make_solver. cbn [q_bs q_net q_method q_bc q_mb q_mn q_cp]. change (solver_flows VNone (VFloat 1)) with (Some (0%nat, [[1]])).
  change (format_segments (List.length pair_field) (o_n (c_options (with_time (with_flow chain_call VNone (VFloat 1) (VFloat 1)) (VArr []))))) with [1; 1]%nat.
  change (format_ratios (List.length pair_field) [1; 1]%nat (o_r (c_options (with_time (with_flow chain_call VNone (VFloat 1) (VFloat 1)) (VArr []))))) with [[1]; [1]].
  rewrite pair_checks. discriminate.
Qed.

Lemma ex_pipe_share : 0 <= fst (p_out ex_pipe 1 1 1 (Some [1])) < 1.
Proof.
  assert (G : Pipe_Spec.good_flow (Pipe_Props.ex_tube true) 1 1 1 None 0 1).
  { destruct (ex_tube_flow 1 ltac:(lra)) as (G1 & G2 & G3 & G4 & G5 & _). split; [exact G1|]. split; [exact G2|]. split; [exact G3|]. split; [exact G4|]. split; [exact G5|]. cbn. repeat split; auto; lra. }
  destruct (Flow_Proofs.between 0 1 1 0 (Pipe_Props.ex_tube true) 1 1 _ G (or_introl Rlt_0_1) ltac:(unfold Pipe_Spec.cond; cbn; lra) eq_refl) as (l & L1 & L2 & _).
  unfold Pipe_Model.get_outlet_temperature in L2. cbn [sumn] in L2.
  rewrite (library_inlet _ _ _ _ _ 1%nat None (ex_pipe_library 1 ltac:(lra))). change (fst (p_out ex_pipe 1 1 1 None)) with (fst (Pipe_Model.outlet (Pipe_Props.ex_tube true) 1 1 1 None)). lra.
Qed.

(** Two boreholes alike, the second fed by the first: the value at the mixed inlet
    temperature is below the one at a uniform wall temperature. *)
Theorem C149_series_refuted : exists c w x row f g g', c_source c = Piped w /\ c_bc c = Some "MIFT" /\ c_method c = "detailed" /\ connected w /\ nInlets (w_c w) = 1%nat /\ well_spaced (w_b w) /\ vertical_field (w_b w) /\
  format_inputs (w_c w) (flow_call x (segments_of c) (ratios_of c) row) = Some f /\ every_pipe balanced_legs (w_c w) (w_p w) f /\ 0 < total_flow (w_c w) f /\
  gfunction plain_link [] (with_time (with_flow c VNone (VFloat 1) (VFloat x)) (VArr [1])) = Some (G1 [g]) /\ row = [1] /\
  gfunction plain_link [] (with_time (with_bc c (Some "UBWT")) (VArr [1])) = Some (G1 [g']) /\ g < g'.
Proof.
  destruct ex_pair_call as (_ & Th & _ & Sg & Vf & Gr & Sp & _).
  set (c := chain_call). set (w := chain_piped).
  change (segmented (w_b w) (segments_of c) (ratios_of c)) in Sg. change (threshold_of c ((3 / 40) ^ 2 / 25)) in Th. change (vertical_field (w_b w)) in Vf. change (good_ratios (ratios_of c)) in Gr. change (well_spaced (w_b w)) in Sp.
  assert (Es : c_source c = Piped w) by reflexivity.
  assert (Ef : format_inputs (w_c w) (flow_call 1 (segments_of c) (ratios_of c) [1]) = Some chain_format) by exact chain_inputs.
  assert (Lp : every_pipe library_pipe (w_c w) (w_p w) chain_format).
  { intros [|[|[|i]]] p Hp; cbn [nth_error w_p w chain_piped] in Hp; try discriminate; injection Hp as <-; cbn [chain_format f_mb f_cpb f_seg f_rat nth]; apply ex_pipe_library; lra. }
  assert (Le : every_pipe balanced_legs (w_c w) (w_p w) chain_format).
  { intros i p Hp. split; [exact (Lp i p Hp)|]. left. destruct i as [|[|i]]; try reflexivity. destruct i; discriminate Hp. }
  assert (Tf : 0 < total_flow (w_c w) chain_format) by (unfold total_flow; cbn; rewrite Rabs_R1; lra).
  assert (Cw : connected w) by (split; [reflexivity|exists (Some [-1; 0]%Z); exact chain_build]).
  assert (Cu : construct (with_time (with_bc c (Some "UBWT")) (VArr [])) <> None) by (apply piped_constructed; auto).
  assert (Nr : no_repeats ((3 / 40) ^ 2 / 25) [1]) by (intros k Hk; cbn in Hk; lia).
  assert (Ti : times (VArr [1]) <> None) by (unfold times; cbn; discriminate).
  assert (Xor : VNone = VNone <-> VFloat 1 <> VNone) by (split; [discriminate|reflexivity]).
  destruct (C94_field plain_link [] c w 1 _ VNone (VFloat 1) [1] _ [1] Es eq_refl eq_refl ltac:(cbn; lra) Th ltac:(lra) Cw Sg Vf Gr Sp ltac:(cbn; lra) Xor eq_refl chain_constructed ltac:(lra) Ef Lp Tf Ti Nr) as (g & Eg & Lg).
  destruct (C122_detailed plain_link [] c _ [1] ltac:(cbn; lra) Th ltac:(lra) eq_refl Sg Vf Gr Sp Cu Ti Nr) as (g' & Eg' & Lg').
  destruct g as [|v [|]]; try discriminate Lg. destruct g' as [|v' [|]]; try discriminate Lg'.
  exists c, w, 1, [1], chain_format, v, v'.
  split; [exact Es|]. split; [reflexivity|]. split; [reflexivity|]. split; [exact Cw|]. split; [reflexivity|]. split; [exact Sp|]. split; [exact Vf|]. split; [exact Ef|]. split; [exact Le|]. split; [exact Tf|]. split; [exact Eg|]. split; [reflexivity|]. split; [exact Eg'|].
  pose proof ex_pipe_share as As. destruct (ex_pipe_heat 1 ltac:(lra)) as (H1 & H2 & _ & H4). set (a := fst (p_out ex_pipe 1 1 1 (Some [1]))) in *. rewrite Rmult_1_l in H1, H2.
  destruct (chain_flow ex_pipe a w eq_refl eq_refl As) as (F & EF & I0 & B00 & B01 & I1 & B10 & B11 & Em & Er); auto.
  destruct (mift_one plain_link [] c w 1 _ Es eq_refl eq_refl Th ltac:(lra) Sg Vf Gr ltac:(cbn; lra) VNone (VFloat 1) [1] F 1 v Xor eq_refl EF ltac:(lra) Eg) as (_ & q & tin & Q1 & Q2 & Q3).
  destruct (ubwt_one plain_link [] c _ Th ltac:(lra) eq_refl Cu 1 v' ltac:(lra) Eg') as [Q EQ].
  pose proof (sources_sum _ _ _ Sg) as NS. change (list_sum (segments_of c)) with 2%nat in NS.
  assert (Hn : (0 < n_sources (boreholes_of c) (segments_of c) (ratios_of c))%nat) by (change (boreholes_of c) with (w_b w); rewrite NS; lia).
  destruct (ubwt_loads _ _ _ _ _ _ Hn Rlt_0_1 EQ) as (y & Y1 & Y2).
  unfold fresp in Y1. change (boreholes_of c) with (w_b w) in Y1, Y2. rewrite NS in Q1, Q2, Q3, Y1, Y2.
  rewrite Rmax_left in Q1 by lra. rewrite Rmin_right in Q3 by lra.
  change (w_b w) with pair_field in Q1, Q2, Q3, Y1, Y2, Er. change (segments_of c) with [1; 1]%nat in Q1, Q2, Q3, Y1, Y2. change (ratios_of c) with [[1]; [1]] in Q1, Q2, Q3, Y1, Y2. change (c_alpha c) with 1 in Q1, Y1. change (nth 0 (w_ks w) 0) with 1 in Q1, Q3.
  pose proof (pair_length 0 ltac:(lia)) as L0. pose proof (pair_length 1 ltac:(lia)) as L1.
  pose proof (Q1 0%nat ltac:(lia)) as X0. pose proof (Q1 1%nat ltac:(lia)) as X1. pose proof (Y1 0%nat ltac:(lia)) as Z0. pose proof (Y1 1%nat ltac:(lia)) as Z1.
  unfold effective, H_total in Q3. cbn [sumn nth] in X0, X1, Q2, Q3, Z0, Z1, Y2. rewrite !L0, !L1 in *.
  rewrite !(pair_matrix [] 1 0 0), !(pair_matrix [] 1 0 1), !(pair_matrix [] 1 1 0), !(pair_matrix [] 1 1 1) in X0, X1 by lia. rewrite !pair_matrix in Z0 by lia. rewrite !pair_matrix in Z1 by lia. cbn [Nat.eqb] in X0, X1, Z0, Z1.
  rewrite I0, B00, B01 in X0. rewrite I1, B10, B11 in X1. rewrite Em, Er in Q3.
  destruct (pair_order 1 ltac:(lra)) as [Pc Po]. set (s := pair_self 1) in *. set (k := pair_cross 1) in *. pose proof PI_RGT_0 as Pi.
  assert (Ey : v' = s + k) by nra.
  replace (Rsum (map bH pair_field)) with 200 in Q3 by (cbn; ring).
  pose proof (series_pair (2 * PI * 1 * 100) 1 a s k tin (q 0%nat) (q 1%nat) ltac:(lra) ltac:(lra) ltac:(lra) Po ltac:(rewrite X0; ring) ltac:(rewrite X1; ring) ltac:(lra)) as X.
  rewrite Ey. replace v with (tin - 2 * PI * 1 * 100 * 2 / (1 * (1 - a ^ 2))); [exact X|].
  rewrite Q3. replace ((3 / 40) ^ 2 / 25 / ((3 / 40) ^ 2 / 25)) with 1 by (field; lra). field. apply Rgt_not_eq; nra.
Qed.
Print Assumptions C149_series_refuted.
