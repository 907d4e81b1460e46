(** g-functions of fields of vertical boreholes that are far apart: they exist. *)
From Coq Require Import String Reals Lra Lia List.
From Verif Require Import Base LinAlg FLS_Model FLS_Sol_Proofs.
From Verif Require Import Bore_Model Net_Model Solve_Model Solve_Spec Solve_Loop_Proofs Solve_Eq_Proofs Solve_Sol_Proofs Solve_Extra_Proofs
  Detailed_Model Detailed_Spec Detailed_Proofs Detailed_Sol_Proofs
  Sim_Model Sim_Spec Eq_Model Eq_Spec GFun_Model GFun_Spec GFun_Causal_Proofs GFun_Eval_Proofs GFun_Methods_Proofs GFun_Field_Proofs GFun_Uniform_Proofs GFun_Start_Proofs Def_Spec Def_Field_Proofs.
Import ListNotations.
Local Open Scope R_scope.

(** one step at a uniform temperature *)
Lemma ubwt_first n (H : vec) resp t Q g : (0 < n)%nat -> 0 < t -> solve_ubwt n H (Solve_Spec.on_grid resp) [t] 0 = Some (Q, g) ->
  definite n H (fun i j => resp i j t) -> 0 < sumn n H -> 0 < nth 0 g 0.
Proof.
  intros Hn Ht E D HH. assert (G : grid [t]) by (split; [discriminate|]; intros [|k] Hk; unfold at_time; cbn in *; [lra|lia]).
  set (x := nth 0 Q zero_vec).
  assert (W : forall i, (i < n)%nat -> sumn n (fun j => resp i j t * x j) = nth 0 g 0).
  { intros i Hi. pose proof (ubwt_superposed n H resp [t] Q g 0 i Hn G E ltac:(cbn; lia) Hi) as S.
    rewrite (superposed_constant n resp [t] Q 0 i _ x G (proj1 (ubwt_lengths _ _ _ _ _ _ _ E)) ltac:(cbn; lia)) with (2 := S).
    - apply sumn_ext. intros j Hj. unfold at_time. cbn [nth]. ring.
    - intros k j Hk Hj. replace k with O by lia. reflexivity. }
  pose proof (ubwt_normal _ _ _ _ _ _ _ 0 E ltac:(cbn; lia)) as N. fold x in N.
  assert (X : exists i, (i < n)%nat /\ x i <> 0).
  { destruct (List.Exists_dec (fun i => x i <> 0) (seq 0 n)) as [X|X].
    - intros i. destruct (Req_EM_T (x i) 0); [right|left]; auto.
    - apply List.Exists_exists in X. destruct X as [i [Hi Ei]]. apply in_seq in Hi. exists i. split; auto. lia.
    - exfalso. assert (Z : sumn n (fun i => H i * x i) = 0); [|lra]. apply sumn_zero. intros i Hi. assert (x i = 0) as ->; [|ring].
      destruct (Req_dec (x i) 0); auto. exfalso. apply X. apply List.Exists_exists. exists i. split; auto. apply in_seq. lia. }
  pose proof (D x X) as P. rewrite (sumn_ext n _ (fun i => (H i * x i) * nth 0 g 0)) in P by (intros i Hi; rewrite W by auto; ring).
  rewrite sumn_scal_r, N in P. nra.
Qed.

Section Field.
Variables (bs : list bore) (ns : list nat) (rs : list (list R)).
Hypothesis W : segmented bs ns rs.
Hypothesis V : vertical_field bs.
Hypothesis G : good_ratios rs.
Hypothesis Sp : well_spaced bs.
Local Notation seg k := (nth k (bore_segments bs ns rs) no_bore).

Lemma field_distance i j : (i < list_sum ns)%nat -> (j < list_sum ns)%nat -> Rmax (planar (seg i) (seg j)) (br (seg i)) = Rmax (planar (seg j) (seg i)) (br (seg j)).
Proof.
  intros Li Lj. rewrite (planar_sym (seg j)). destruct (own_lt bs ns rs W i Li) as [Lb Oi]. destruct (own_lt bs ns rs W j Lj) as [Lc Oj].
  destruct (seg_place bs ns rs W V _ i Lb Oi) as (R1 & X1 & Y1). destruct (seg_place bs ns rs W V _ j Lc Oj) as (R2 & X2 & Y2).
  rewrite R1, R2. destruct (Nat.eq_dec (owner ns i) (owner ns j)) as [E|N]; [rewrite E; auto|].
  unfold planar. rewrite X1, X2, Y1, Y2. fold (planar (nth (owner ns i) bs no_bore) (nth (owner ns j) bs no_bore)).
  pose proof (Sp (owner ns i) (owner ns j) (owner ns i) Lb Lc Lb N). pose proof (Sp (owner ns i) (owner ns j) (owner ns j) Lb Lc Lc N).
  pose proof (proj1 V _ (nth_In bs no_bore Lb)) as (_ & _ & _ & P1). pose proof (proj1 V _ (nth_In bs no_bore Lc)) as (_ & _ & _ & P2).
  rewrite !Rmax_left by lra. auto.
Qed.

Lemma field_reciprocal alpha t uw i j : (i < n_sources bs ns rs)%nat -> (j < n_sources bs ns rs)%nat ->
  segment_length bs ns rs i * detailed_matrix (line_kernel alpha t uw) bs ns rs i j = segment_length bs ns rs j * detailed_matrix (line_kernel alpha t uw) bs ns rs j i.
Proof.
  assert (En : n_sources bs ns rs = list_sum ns) by (unfold n_sources, bore_segments; now destruct (segments_all _ _ _ W)). rewrite En.
  intros Li Lj. rewrite !(matrix_response bs ns rs W V G) by auto. unfold response. rewrite (field_distance j i) by auto.
  apply recip_transient; [pose proof (seg_ok bs ns rs W V G j Lj)|pose proof (seg_ok bs ns rs W V G i Li)]; lra.
Qed.

Lemma lengths_pos : (0 < n_sources bs ns rs)%nat -> 0 < sumn (n_sources bs ns rs) (segment_length bs ns rs).
Proof.
  assert (En : n_sources bs ns rs = list_sum ns) by (unfold n_sources, bore_segments; now destruct (segments_all _ _ _ W)). rewrite En.
  intros P. destruct (list_sum ns) as [|k] eqn:E; [lia|]. cbn [sumn].
  assert (0 <= sumn k (segment_length bs ns rs)). { apply sumn_nonneg. intros i Li. left. apply (seg_ok bs ns rs W V G i). lia. }
  assert (0 < segment_length bs ns rs k) by (apply (seg_ok bs ns rs W V G k); lia). lra.
Qed.
End Field.

Section Object.
Variables (link : list R -> tree) (uw : list (R * R)) (c : call) (thr : R).
Hypothesis Alpha : 0 < c_alpha c.
Hypothesis Th : threshold_of c thr.
Hypothesis Tp : 0 < thr.
Hypothesis Me : c_method c = "detailed"%string.
Hypothesis Sg : segmented (boreholes_of c) (segments_of c) (ratios_of c).
Hypothesis Vf : vertical_field (boreholes_of c).
Hypothesis Gr : good_ratios (ratios_of c).
Hypothesis Sp : well_spaced (boreholes_of c).
Local Notation U l := (with_time (with_bc c (Some "UBWT"%string)) (VArr l)).
Hypothesis Co : construct (U []) <> None.
Local Notation ns := (n_sources (boreholes_of c) (segments_of c) (ratios_of c)).
Local Notation Hs := (segment_length (boreholes_of c) (segments_of c) (ratios_of c)).
Definition fresp : nat -> nat -> R -> R := fun i j t => detailed_matrix (line_kernel (c_alpha c) t uw) (boreholes_of c) (segments_of c) (ratios_of c) i j.

Lemma sources_pos : (0 < ns)%nat.
Proof.
  unfold n_sources, bore_segments. rewrite (proj1 (segments_all _ _ _ Sg)).
  destruct (construct (U [])) as [[q s]|] eqn:Ec; [|contradiction]. pose proof (construct_boreholes _ _ _ Ec) as Eb.
  destruct (make_segments _ _ _ Ec) as [En Er]. unfold construct in Ec.
  destruct (resolve (U [])) as [q0|] eqn:Eq; [|discriminate]. destruct (check (U []) q0); [|discriminate].
  destruct (make_solver (c_options (U [])) q0) as [s0|] eqn:Es; [|discriminate]. injection Ec as -> ->.
  unfold make_solver in Es. cbv zeta in Es. rewrite Eb in Es.
  change (c_options (U [])) with (c_options c) in Es. change (boreholes_of (U [])) with (boreholes_of c) in Es.
  fold (segments_of c) in Es. fold (ratios_of c) in Es.
  destruct (solver_flows _ _) as [[k rows]|]; [|discriminate Es].
  destruct (check_flows q rows && check_segments (boreholes_of c) (segments_of c) (ratios_of c)) eqn:Cf; [|discriminate Es].
  apply andb_true_iff in Cf. destruct Cf as [_ Cs]. clear Es.
  unfold check_segments in Cs. rewrite !andb_true_iff in Cs. destruct Cs as [[[_ C3] C4] _]. apply Nat.ltb_lt in C3. rewrite forallb_forall in C4.
  destruct (segments_of c) as [|a l]; [simpl in C3; lia|]. specialize (C4 a (or_introl eq_refl)). apply Nat.leb_le in C4. simpl. lia.
Qed.

Lemma fresp_definite t : 0 < t -> definite ns Hs (fun i j => fresp i j t).
Proof. intros P. exact (field_definite _ _ _ Sg Vf Gr Sp (c_alpha c) t uw Alpha P). Qed.

Lemma ubwt_evaluated l : times (VArr l) <> None ->
  gfunction link uw (U l) = option_map (fun r => G1 (snd r)) (solve_ubwt ns Hs (Solve_Spec.on_grid fresp) (map (fun x => Rmax x 0) l) thr).
Proof.
  intros Nt. rewrite gfunction_arr. destruct (construct (U [])) as [[q s]|] eqn:Ec; [|contradiction].
  assert (Rq : q_method q = c_method c /\ q_bs q = boreholes_of c /\ v_n s = segments_of c /\ v_r s = ratios_of c /\ q_bc q = "UBWT"%string).
  { pose proof (construct_boreholes _ _ _ Ec) as Eb. destruct (make_segments _ _ _ Ec) as [En Er]. unfold construct in Ec.
    destruct (resolve (U [])) as [q0|] eqn:Eq; [|discriminate]. destruct (check (U []) q0); [|discriminate]. destruct (make_solver _ q0); [|discriminate]. injection Ec as -> ->.
    unfold resolve in Eq. cbn [with_time with_bc c_source c_bc c_mb c_mn c_cp c_method] in Eq. cbv zeta in Eq. cbn [String.eqb Ascii.eqb Bool.eqb andb] in Eq. injection Eq as <-. auto. }
  destruct Rq as (Mq & Bq & Nq & Rq & Cq). rewrite Me in Mq. unfold evaluate. destruct (times (VArr l)) as [t|] eqn:Et; [|contradiction].
  destruct (times_some _ _ Et) as [Em [Nl [So Po]]]. destruct Th as [rm [Er Eth]]. rewrite Bq, Er.
  unfold make_system. rewrite Mq. change (String.eqb (lower "detailed") "detailed") with true. cbv iota.
  cbn [with_bc c_alpha c_options]. rewrite <- Eth. unfold solve. rewrite Cq. change (String.eqb "UBWT" "UHTR") with false. change (String.eqb "UBWT" "UBWT") with true. cbv iota.
  unfold detailed_system. cbn [y_n y_H y_h]. rewrite Bq, Nq, Rq. cbn [with_bc c_alpha].
  assert (D : forall h l, defined_at (fun t => Some (h t)) l = true) by (intros h l0; apply forallb_forall; auto). rewrite D. rewrite <- Em. reflexivity.
Qed.

Lemma ubwt_exists l : times (VArr l) <> None -> no_repeats thr l ->
  exists g, gfunction link uw (U l) = Some (G1 g) /\ List.length g = List.length l.
Proof.
  intros Nt Nr. rewrite ubwt_evaluated by auto. destruct (times (VArr l)) as [t|] eqn:Et; [|contradiction].
  destruct (times_some _ _ Et) as [Em [Nl [So Po]]]. rewrite <- Em.
  assert (Nr' : no_repeats thr t) by (rewrite Em; apply clamp_repeats; auto).
  assert (Ne : t <> []) by (rewrite Em; destruct l; [contradiction|discriminate]).
  pose proof (long_grid t thr Ne Tp So Nr') as Gt.
  destruct (ubwt_some ns Hs fresp (time_long t thr) sources_pos Gt) as [Q [g E]].
  { intros x Hx. apply fresp_definite. apply (long_positive t thr Tp So); auto. }
  rewrite ubwt_zero in E by (apply long_positive; auto).
  destruct (solve_ubwt ns Hs (Solve_Spec.on_grid fresp) t thr) as [[Q' g']|] eqn:E'.
  - eexists. split; [reflexivity|]. cbn [snd]. rewrite (ubwt_length _ _ _ _ _ _ _ E'), Em, map_length. auto.
  - exfalso. rewrite ubwt_run in E'. match type of E with ?x = _ => match type of E' with context [grun ?a ?b ?c ?d ?e ?f] => change (grun a b c d e f) with x in E' end end. rewrite E in E'. discriminate E'.
Qed.

(* the value at one time from the threshold on *)
Lemma ubwt_one t v : thr <= t -> gfunction link uw (U [t]) = Some (G1 [v]) -> exists Q, solve_ubwt ns Hs (Solve_Spec.on_grid fresp) [t] 0 = Some (Q, [v]).
Proof.
  intros L E. assert (Nt : times (VArr [t]) <> None).
  { intros N. rewrite gfunction_arr in E. destruct (construct _) as [[q s]|]; [|discriminate]. unfold evaluate in E. rewrite N in E. discriminate. }
  rewrite ubwt_evaluated in E by auto. cbn [map] in E. rewrite Rmax_left in E by lra.
  assert (P1 : positive [t]) by (intros x [<-|[]]; lra). rewrite ubwt_zero by auto. rewrite ubwt_run in E.
  assert (Tl : time_long [t] thr = [t]).
  { unfold time_long, p_long. pose proof (right_le [t] thr) as Rl. cbn [List.length] in Rl. destruct (Nat.ltb_spec 0 (searchsorted_right [t] thr)) as [Z|Z]; auto.
    pose proof (right_below [t] thr 0 Z) as B. cbn in B. replace (searchsorted_right [t] thr) with 1%nat by lia. cbn. f_equal. lra. }
  rewrite Tl in E. 
  match goal with |- exists Q, ?x = _ => match type of E with context [grun ?a ?b ?c ?d ?e ?f] => change (grun a b c d e f) with x in E; destruct x as [[a0 b0]|] eqn:Er end end; [|discriminate].
  exists a0. f_equal. f_equal. cbn [option_map snd] in E. injection E as E.
  assert (Lb : List.length b0 = 1%nat).
  { pose proof (ubwt_length ns Hs (Solve_Spec.on_grid fresp) [t] 0 a0 b0) as K. rewrite ubwt_zero in K by auto. apply K. auto. }
  destruct b0 as [|y [|]]; cbn in Lb; try lia. clear Lb.
  assert (Pz : p_zero [t] thr = O) by (unfold p_zero, p_long; pose proof (right_le [t] thr) as Rl; cbn [List.length] in Rl; lia).
  rewrite Pz in E. cbn [repeat app] in E. unfold linearise in E. destruct (Nat.ltb_spec 0 (p_long [t] thr)) as [Z|Z]; [|auto].
  cbn [List.length seq map] in E. rewrite Pz in E. destruct (Nat.ltb_spec 0 (p_long [t] thr)); [|lia]. cbn [nth] in E.
  pose proof (right_below [t] thr 0 Z) as B. cbn in B. assert (t = thr) by lra. subst t. rewrite <- E. f_equal. field. lra.
Qed.

Lemma ubwt_value t v : thr <= t -> gfunction link uw (U [t]) = Some (G1 [v]) -> 0 < v <= field_mean (c_alpha c) t (boreholes_of c).
Proof.
  intros L E. destruct (ubwt_one t v L E) as [Q Eq]. assert (Pt : 0 < t) by lra. pose proof sources_pos as Pn.
  pose proof (lengths_pos _ _ _ Sg Vf Gr Pn) as PH. split.
  - exact (ubwt_first ns Hs fresp t Q [v] Pn Pt Eq (fresp_definite t Pt) PH).
  - pose proof (ubwt_below ns Hs fresp t Q [v] Pn Pt Eq (fresp_definite t Pt)) as B. cbn [nth] in B.
    assert (Rc : forall i j, (i < ns)%nat -> (j < ns)%nat -> Hs i * fresp i j t = Hs j * fresp j i t).
    { intros i j Hi Hj. exact (field_reciprocal _ _ _ Sg Vf Gr Sp (c_alpha c) t uw i j Hi Hj). }
    eapply Rle_trans; [exact (B Rc PH)|]. right.
    exact (uhtr_field (boreholes_of c) (segments_of c) (ratios_of c) Sg Vf Gr (c_alpha c) uw [t] 0 Alpha (fun x Hx => match Hx with or_introl E => eq_ind _ (fun z => 0 < z) Pt _ E | or_intror F => match F with end end) (Nat.lt_0_succ 0)).
Qed.

Lemma ubwt_start l g : 0 < nth 0 l 0 -> l <> [] -> gfunction link uw (U l) = Some (G1 g) ->
  0 < nth 0 g 0 <= started (fun t => field_mean (c_alpha c) t (boreholes_of c)) thr (nth 0 l 0).
Proof.
  intros P0 Nl E. destruct l as [|t r]; [contradiction|]. cbn [nth] in *.
  assert (E1 : gfunction link uw (U [t]) = Some (G1 (firstn 1 g))).
  { apply (gfunction_causal link uw (with_bc c (Some "UBWT"%string)) [t] r g); [discriminate|exact E]. }
  assert (Lg : exists v, firstn 1 g = [v] /\ nth 0 g 0 = v).
  { pose proof (gfunction_length link uw (with_bc c (Some "UBWT"%string)) [t] _ E1) as K. destruct g as [|v g']; [cbn in K; lia|]. exists v. auto. }
  destruct Lg as (v & Ev & ->). rewrite Ev in E1. unfold started. destruct (Rleb t thr) eqn:El.
  - apply Rleb_true in El. destruct (gfunction_start link uw (with_bc c (Some "UBWT"%string)) [t] [v] thr E1 Th Tp El) as (v0 & E0 & K).
    specialize (K O ltac:(cbn; lia) El). cbn [nth] in K. rewrite Rmax_left in * by lra.
    destruct (ubwt_value thr v0 ltac:(lra) E0) as [A B]. rewrite K. split.
    + apply Rdiv_lt_0_compat; auto. nra.
    + unfold Rdiv. apply Rmult_le_compat_r; [left; apply Rinv_0_lt_compat; lra|]. apply Rmult_le_compat_r; lra.
  - apply Rleb_false in El. apply ubwt_value; auto. lra.
Qed.
End Object.
