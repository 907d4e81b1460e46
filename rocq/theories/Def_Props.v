(** Fields of vertical boreholes that are far apart: stable ground responses (C121),
    g-functions at a uniform wall temperature (C122), their first value (C123) and the
    g-functions of networks (C94). *)
From Coq Require Import String Reals Lra Lia List.
From Verif Require Import Base LinAlg FLS_Model.
From Verif Require Import Bore_Model Net_Model Net_Spec Solve_Model Solve_Spec Detailed_Model Detailed_Spec Detailed_Proofs Detailed_Sol_Proofs Detailed_Props Sim_Model Sim_Spec Eq_Model Eq_Spec Eq_Mix_Proofs
  GFun_Model GFun_Spec GFun_Causal_Proofs GFun_Eval_Proofs GFun_Pair_Proofs GFun_Two_Proofs GFun_Mift_Proofs GFun_Props Passive_Spec Passive_Props
  Net_Proofs Net_Coef_Proofs Net_Heat_Proofs Net_Cache_Proofs Net_More_Proofs Net_Extra_Proofs Net_Props Def_Spec Def_Field_Proofs Def_Object_Proofs.
Import ListNotations.
Local Open Scope R_scope.
Local Open Scope string_scope.

(** * C121 *)

(** Heat extracted in any pattern over the segments of a field of vertical boreholes lowers
    the wall temperatures on the whole: the sum of the heat extraction rates of the segments
    times their temperature drops is positive.  Any number of boreholes and segments, any
    time. *)
Theorem C121_stable : forall bs ns rs alpha t uw q, segmented bs ns rs -> vertical_field bs -> good_ratios rs -> well_spaced bs -> 0 < alpha -> 0 < t ->
  (exists i, (i < list_sum ns)%nat /\ q i <> 0) ->
  let drop i := sumn (list_sum ns) (fun j => detailed_matrix (line_kernel alpha t uw) bs ns rs i j * q j) in
  0 < sumn (list_sum ns) (fun i => segment_length bs ns rs i * q i * drop i).
Proof.
  intros bs ns rs alpha t uw q W V G Sp Pa Pt Nz. cbv zeta.
  pose proof (field_definite bs ns rs W V G Sp alpha t uw Pa Pt q) as D.
  assert (En : n_sources bs ns rs = list_sum ns) by (unfold n_sources, bore_segments; now destruct (segments_all _ _ _ W)). rewrite En in D. exact (D Nz).
Qed.
Print Assumptions C121_stable.
(** A single borehole needs no distance. *)
Theorem C121_single : forall b n r alpha t uw q, btilt b = 0 -> 0 < bH b -> 0 <= bD b -> 0 < br b -> List.length r = n -> Rsum r = 1 -> (forall x, In x r -> 0 < x) -> 0 < alpha -> 0 < t ->
  (exists i, (i < n)%nat /\ q i <> 0) ->
  0 < sumn n (fun i => segment_length [b] [n] [r] i * q i * sumn n (fun j => detailed_matrix (line_kernel alpha t uw) [b] [n] [r] i j * q j)).
Proof.
  intros b n r alpha t uw q T H D Rb Lr Sr Pr Pa Pt Nz. pose proof (C121_stable [b] [n] [r] alpha t uw q) as K.
  replace (list_sum [n]) with n in K by (cbn; lia). cbv zeta in K. apply K; auto.
  - split; [auto|]. split; [auto|]. intros [|k] Hk; cbn in *; [auto|lia].
  - split; [intros x [<-|[]]; auto|]. intros [|i] [|j] Hi Hj N; cbn in *; lia.
  - intros x [<-|[]]; auto.
  - intros [|i] [|j] k Hi Hj Hk N; cbn in *; lia.
Qed.
Print Assumptions C121_single.

(** Boreholes that are only one radius apart, which are accepted: extracting heat from one
    and injecting it into the other has no effect. *)
Definition touching : list bore := [Bore 100 4 1 0 0 0 0; Bore 100 4 1 1 0 0 0].
Theorem C121_touching_refuted : exists bs ns rs q, segmented bs ns rs /\ vertical_field bs /\ good_ratios rs /\ (exists i, (i < list_sum ns)%nat /\ q i <> 0) /\
  forall alpha t uw i, (i < list_sum ns)%nat -> sumn (list_sum ns) (fun j => detailed_matrix (line_kernel alpha t uw) bs ns rs i j * q j) = 0.
Proof.
  exists touching, [1; 1]%nat, [[1]; [1]], (fun k => match k with O => 1 | _ => - 1 end).
  assert (Sg : segmented touching [1; 1]%nat [[1]; [1]]) by (split; [auto|]; split; [auto|]; intros [|[|k]] Hk; cbn in *; auto; lia).
  assert (Pl : planar (nth 0 touching no_bore) (nth 1 touching no_bore) = 1 /\ planar (nth 1 touching no_bore) (nth 0 touching no_bore) = 1).
  { unfold planar, touching. cbn [nth bx by_]. split; match goal with |- sqrt ?x = _ => replace x with (1 * 1) by ring end; apply sqrt_square; lra. }
  assert (Vf : vertical_field touching).
  { split; [intros b [<-|[<-|[]]]; cbn; lra|]. destruct Pl as [P1 P2].
    intros [|[|a]] [|[|b]] Ha Hb N; cbn [List.length touching] in Ha, Hb; try lia; [rewrite P1|rewrite P2]; cbn; lra. }
  assert (Gr : good_ratios [[1]; [1]]) by (intros r [<-|[<-|[]]]; cbn; (split; [lra|]; intros x [<-|[]]; lra)).
  split; [exact Sg|]. split; [exact Vf|]. split; [exact Gr|]. split; [exists O; cbn; split; [lia|lra]|].
  intros alpha t uw i Hi. cbn in Hi.
  assert (E : forall j, (j < 2)%nat -> detailed_matrix (line_kernel alpha t uw) touching [1; 1]%nat [[1]; [1]] i j = fls t alpha 1 100 4 100 4 true true).
  { intros j Hj. rewrite (matrix_response _ _ _ Sg Vf Gr) by (cbn; lia). unfold response.
    assert (B : forall k, (k < 2)%nat -> bH (nth k (bore_segments touching [1; 1]%nat [[1]; [1]]) no_bore) = 100 /\ bD (nth k (bore_segments touching [1; 1]%nat [[1]; [1]]) no_bore) = 4
       /\ Detailed_Sol_Proofs.place (nth k (bore_segments touching [1; 1]%nat [[1]; [1]]) no_bore) (nth k touching no_bore)).
    { intros k Hk. destruct (seg_depth touching [1; 1]%nat [[1]; [1]] Sg Vf k 0) as [A1 A2]; [cbn; lia|destruct k as [|[|k]]; cbn; lia|].
      assert (first [1; 1]%nat k + 0 = k)%nat as Ek by (destruct k as [|[|k]]; cbn; lia). rewrite Ek in *.
      split; [rewrite A1; destruct k as [|[|k]]; cbn; try lia; lra|]. split; [rewrite A2; destruct k as [|[|k]]; cbn; try lia; lra|].
      apply (seg_place _ _ _ Sg Vf); [cbn; lia|]. unfold owns. destruct k as [|[|k]]; cbn; lia. }
    destruct (B i Hi) as (Hi1 & Di1 & Pi). destruct (B j Hj) as (Hj1 & Dj1 & Pj). rewrite Hi1, Di1, Hj1, Dj1. rewrite (place_distance _ _ _ _ Pj Pi).
    f_equal. destruct Pl as [P1 P2]. destruct i as [|[|i]], j as [|[|j]]; try lia; try (rewrite P1 || rewrite P2; cbn; apply Rmax_left; lra);
      unfold planar; cbn [nth touching bx by_ br]; match goal with |- Rmax (sqrt ?x) _ = _ => replace x with 0 by ring end; rewrite sqrt_0; apply Rmax_right; lra. }
  change (list_sum [1; 1]%nat) with 2%nat. cbn [sumn]. rewrite !E by lia. ring.
Qed.
Print Assumptions C121_touching_refuted.

Lemma ex_spaced : well_spaced ex_bs.
Proof.
  intros a b c Ha Hb Hc N. cbn [List.length ex_bs] in *.
  assert (P : planar (nth a ex_bs no_bore) (nth b ex_bs no_bore) = 5).
  { unfold planar. destruct a as [|[|a]], b as [|[|b]]; try lia; cbn [nth ex_bs bx by_]; match goal with |- sqrt ?x = _ => replace x with (5 * 5) by ring end; apply sqrt_square; lra. }
  rewrite P. destruct c as [|[|c]]; try lia; cbn [nth ex_bs br]; lra.
Qed.
Example C121_ex : segmented ex_bs ex_ns ex_rs /\ vertical_field ex_bs /\ good_ratios ex_rs /\ well_spaced ex_bs /\ list_sum ex_ns = 5%nat.
Proof. split; [exact ex_segmented|]. split; [exact ex_field|]. split; [exact ex_ratios|]. split; [exact ex_spaced|reflexivity]. Qed.

(** * C122 *)

(** A field of vertical boreholes that are far apart has a g-function at a uniform wall
    temperature, at any times. *)
Theorem C122_detailed : forall link uw c thr l, 0 < c_alpha c -> threshold_of c thr -> 0 < thr -> c_method c = "detailed" ->
  segmented (boreholes_of c) (segments_of c) (ratios_of c) -> vertical_field (boreholes_of c) -> good_ratios (ratios_of c) -> well_spaced (boreholes_of c) ->
  construct (with_time (with_bc c (Some "UBWT")) (VArr [])) <> None -> times (VArr l) <> None -> no_repeats thr l ->
  exists g, gfunction link uw (with_time (with_bc c (Some "UBWT")) (VArr l)) = Some (G1 g) /\ List.length g = List.length l.
Proof. intros link uw c thr l A Th Tp Me Sg Vf Gr Sp Co. apply (ubwt_exists link uw c thr A Th Tp Me Sg Vf Gr Sp Co). Qed.
Print Assumptions C122_detailed.
(** The method of the similarities, for a field that its tolerances do not confuse *)
Theorem C122_similarities : forall link uw c thr u M l, 0 < c_alpha c -> threshold_of c thr -> 0 < thr -> sharp c u M -> well_spaced (boreholes_of c) ->
  construct (with_time (with_bc (with_method c "detailed") (Some "UBWT")) (VArr [])) <> None -> times (VArr l) <> None -> no_repeats thr l ->
  exists g, gfunction link uw (with_time (with_bc (with_method c "similarities") (Some "UBWT")) (VArr l)) = Some (G1 g) /\ List.length g = List.length l.
Proof.
  intros link uw c thr u M l A Th Tp Sh Sp Co Nt Nr. pose proof Sh as (Sg & Vf & Gr & _).
  destruct (C122_detailed link uw (with_method c "detailed") thr l A Th Tp eq_refl Sg Vf Gr Sp Co Nt Nr) as (g & E & L).
  exists g. split; auto. rewrite <- E.
  exact (C89_similarities link uw (with_time (with_bc c (Some "UBWT")) (VArr l)) u M Sh).
Qed.
Print Assumptions C122_similarities.
(** The equivalent boreholes of a field with an equitable clustering *)
Theorem C122_equivalent : forall link uw c thr u M n r l, 0 < c_alpha c -> threshold_of c thr -> 0 < thr -> agglomerative link ->
  sharp_equivalent c u M n r -> equitable_field link c -> segmented (boreholes_of c) (segments_of c) (ratios_of c) -> vertical_field (boreholes_of c) -> good_ratios (ratios_of c) -> well_spaced (boreholes_of c) ->
  construct (with_time (with_method (with_bc c (Some "UBWT")) "equivalent") (VArr [])) <> None -> construct (with_time (with_bc (with_method c "detailed") (Some "UBWT")) (VArr [])) <> None ->
  times (VArr l) <> None -> no_repeats thr l ->
  exists g, gfunction link uw (with_time (with_method (with_bc c (Some "UBWT")) "equivalent") (VArr l)) = Some (G1 g) /\ List.length g = List.length l.
Proof.
  intros link uw c thr u M n r l A Th Tp Ag Sh Ef Sg Vf Gr Sp Co Cd Nt Nr.
  destruct (C122_detailed link uw (with_method c "detailed") thr l A Th Tp eq_refl Sg Vf Gr Sp Cd Nt Nr) as (g & E & L).
  exists g. split; auto. apply (C89_equivalent link uw c thr u M n r l g A Th Tp Ag Sh Ef Co Nr). exact E.
Qed.
Print Assumptions C122_equivalent.

Lemma pair_spaced : well_spaced pair_field.
Proof.
  intros a b c Ha Hb Hc N. cbn [List.length pair_field] in *. rewrite pair_planar by auto. destruct (Nat.eqb_spec a b); [contradiction|].
  destruct c as [|[|c]]; try lia; cbn; lra.
Qed.
Example C122_ex : well_spaced (boreholes_of (pair_call "detailed")) /\ threshold_of (pair_call "detailed") ((3 / 40) ^ 2 / 25) /\ sharp (pair_call "detailed") 1 104 /\
  sharp_equivalent (pair_call "detailed") 1 104 1 [1] /\ equitable_field plain_link (pair_call "detailed") /\
  construct (with_time (with_bc (pair_call "detailed") (Some "UBWT")) (VArr [])) <> None /\ times (VArr [-1; / 10 ^ 4; 1; 2]) <> None /\ no_repeats ((3 / 40) ^ 2 / 25) [-1; / 10 ^ 4; 1; 2].
Proof.
  split; [exact pair_spaced|]. split; [apply pair_threshold|]. split; [apply pair_sharp|]. split; [apply pair_sharp_equivalent|].
  split; [apply pair_equitable_field, plain_ok|]. split; [apply (pair_constructed "detailed" (Some "UBWT")); cbn; auto|]. exact ex_times.
Qed.

(** * C123 *)

(** The first value at a uniform wall temperature is positive and at most that of uniform
    heat extraction rates. *)
Theorem C123_first : forall link uw c thr l g, 0 < c_alpha c -> threshold_of c thr -> 0 < thr -> c_method c = "detailed" ->
  segmented (boreholes_of c) (segments_of c) (ratios_of c) -> vertical_field (boreholes_of c) -> good_ratios (ratios_of c) -> well_spaced (boreholes_of c) ->
  0 < nth 0 l 0 -> gfunction link uw (with_time (with_bc c (Some "UBWT")) (VArr l)) = Some (G1 g) ->
  0 < nth 0 g 0 /\
  forall g', gfunction link uw (with_time (with_bc c (Some "UHTR")) (VArr l)) = Some (G1 g') -> nth 0 g 0 <= nth 0 g' 0.
Proof.
  intros link uw c thr l g A Th Tp Me Sg Vf Gr Sp Pl E.
  assert (Nl : l <> []) by (intros ->; cbn in Pl; lra).
  assert (Co : construct (with_time (with_bc c (Some "UBWT")) (VArr [])) <> None).
  { intros N. rewrite gfunction_arr, N in E. discriminate E. }
  destruct (ubwt_start link uw c thr A Th Tp Me Sg Vf Gr Sp Co l g Pl Nl E) as [P B]. split; auto.
  intros g' E'.
  assert (Co' : construct (with_time (with_bc c (Some "UHTR")) (VArr [])) <> None).
  { intros N. rewrite gfunction_arr, N in E'. discriminate E'. }
  assert (Nt : times (VArr l) <> None).
  { intros N. rewrite gfunction_arr in E'. destruct (construct (with_time (with_bc c (Some "UHTR")) (VArr []))) as [[q s]|]; [|discriminate E']. unfold evaluate in E'. rewrite N in E'. cbn in E'. discriminate E'. }
  destruct (C90_detailed link uw c thr l A Th Tp Me Co' Nt Sg Vf Gr) as (g2 & E2 & L2 & V2). rewrite E2 in E'. injection E' as <-.
  rewrite (V2 O) by (destruct l; [contradiction|cbn; lia]). exact B.
Qed.
Print Assumptions C123_first.
Example C123_ex : exists g g', gfunction plain_link [] (with_time (with_bc (pair_call "detailed") (Some "UBWT")) (VArr [/ 10 ^ 4; 1; 2])) = Some (G1 g) /\
  gfunction plain_link [] (with_time (with_bc (pair_call "detailed") (Some "UHTR")) (VArr [/ 10 ^ 4; 1; 2])) = Some (G1 g').
Proof.
  destruct C122_ex as (Sp & Th & Sh & _ & _ & Co & Nt & Nr). pose proof Sh as (Sg & Vf & Gr & _).
  assert (Nt' : times (VArr [/ 10 ^ 4; 1; 2]) <> None).
  { unfold times. cbn [numbers map]. assert (I : increasing [Rmax (/ 10 ^ 4) 0; Rmax 1 0; Rmax 2 0] = true).
    { cbn [increasing]. rewrite !Bool.andb_true_iff, !Rleb_true. unfold Rmax. repeat destruct (Rle_dec _ _); repeat split; lra. }
    rewrite I. discriminate. }
  assert (Nr' : no_repeats ((3 / 40) ^ 2 / 25) [/ 10 ^ 4; 1; 2]) by (intros k Hk L; exact (Nr (S k) ltac:(cbn in *; lia) L)).
  destruct (C122_detailed plain_link [] (pair_call "detailed") _ [/ 10 ^ 4; 1; 2] ltac:(cbn; lra) Th ltac:(lra) eq_refl Sg Vf Gr Sp Co Nt' Nr') as (g & E & _).
  destruct (C90_detailed plain_link [] (pair_call "detailed") _ [/ 10 ^ 4; 1; 2] ltac:(cbn; lra) Th ltac:(lra) eq_refl (pair_constructed "detailed" (Some "UHTR") ltac:(cbn; auto) ltac:(cbn; auto)) Nt' Sg Vf Gr) as (g' & E' & _).
  exists g, g'. auto.
Qed.

(** * C94 *)

(** A network of the pipes of the library has a g-function if its boreholes are vertical and
    far apart. *)
Theorem C94_field : forall link uw c w x thr mb mn row f l, c_source c = Piped w -> c_bc c = Some "MIFT" -> c_method c = "detailed" -> 0 < c_alpha c -> threshold_of c thr -> 0 < thr ->
  connected w -> segmented (w_b w) (segments_of c) (ratios_of c) -> vertical_field (w_b w) -> good_ratios (ratios_of c) -> well_spaced (w_b w) -> 0 < nth 0 (w_ks w) 0 ->
  (mb = VNone <-> mn <> VNone) -> solver_flows mb mn = Some (0%nat, [row]) -> construct (with_time (with_flow c mb mn (VFloat x)) (VArr [])) <> None ->
  0 < x -> format_inputs (w_c w) (flow_call x (segments_of c) (ratios_of c) row) = Some f -> every_pipe library_pipe (w_c w) (w_p w) f -> 0 < total_flow (w_c w) f ->
  times (VArr l) <> None -> no_repeats thr l ->
  exists g, gfunction link uw (with_time (with_flow c mb mn (VFloat x)) (VArr l)) = Some (G1 g) /\ List.length g = List.length l.
Proof.
  intros link uw c w x thr mb mn row f l Es Eb Me A Th Tp Cw Sg Vf Gr Sp Ks.
  apply (C94_library link uw c w x thr mb mn row f l Es Eb Me Th Tp Cw Sg Vf Gr Ks).
  intros t Pt. exact (field_definite _ _ _ Sg Vf Gr Sp (c_alpha c) t uw A Pt).
Qed.
Print Assumptions C94_field.
Example C94_field_ex : let c := pair_mift ex_pipe ex_pipes "detailed" VNone VNone VNone VNone VNone in
  well_spaced (boreholes_of c) /\ connected (pair_piped ex_pipe ex_pipes VNone VNone) /\
  construct (with_time (with_flow c (VArr [1; 1]) VNone (VFloat 1)) (VArr [])) <> None /\
  format_inputs (w_c (pair_piped ex_pipe ex_pipes VNone VNone)) (flow_call 1 (segments_of c) (ratios_of c) [1; 1]) = Some (two_format 1 1 1 (Some [1])) /\
  every_pipe library_pipe two [ex_pipe; ex_pipes] (two_format 1 1 1 (Some [1])).
Proof. cbv zeta. split; [exact pair_spaced|]. destruct C94_library_ex as (_ & C & K & F). split; [exact C|]. split; [exact K|]. split; [exact F|exact ex_library]. Qed.
