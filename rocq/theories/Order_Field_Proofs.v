(* The order of the boundary conditions for the first value of a g-function. *)
From Coq Require Import String Reals Lra Lia List Bool Psatz.
From Verif Require Import Base LinAlg FLS_Model FLS_Spec FLS_Sol_Proofs.
From Verif Require Import Bore_Model Net_Model Net_Spec Solve_Model Solve_Spec Solve_Loop_Proofs Solve_Eq_Proofs Solve_Sol_Proofs Solve_Extra_Proofs
  Detailed_Model Detailed_Spec Detailed_Proofs Detailed_Sol_Proofs
  Sim_Model Sim_Spec Eq_Model Eq_Spec GFun_Model GFun_Spec GFun_Causal_Proofs GFun_Eval_Proofs GFun_Methods_Proofs GFun_Field_Proofs GFun_Uniform_Proofs GFun_Start_Proofs GFun_Rows_Proofs GFun_Total_Proofs
  Def_Spec Def_Field_Proofs Def_Object_Proofs Refine_Spec Refine_Proofs Add_Proofs Order_Spec Order_Proofs Order_Object_Proofs.
Import ListNotations.
Local Open Scope R_scope.

(* A passive field in terms of the differences to the inlet temperature *)
Lemma passive_form n Ht F (v : nat -> R) : reciprocal_field n Ht F -> passive n F -> 0 <= form n (f_b F) v v.
Proof.
  intros (_ & Ne & _) Pa. specialize (Pa 0 v). unfold form. rewrite (sumn_ext n _ (fun i => (v i - 0) * (f_in F i * 0 + sumn n (fun j => f_b F i j * v j)))); [exact Pa|].
  intros i Hi. ring.
Qed.

Lemma conductance_form n Ht F : reciprocal_field n Ht F -> form n (f_b F) (fun _ => 1) (fun _ => 1) = - sumn n (f_in F).
Proof.
  intros (_ & Ne & _). rewrite <- sumn_opp. unfold form. apply sumn_ext. intros i Hi. specialize (Ne i Hi).
  rewrite (sumn_ext n (fun j => f_b F i j * 1) (f_b F i)) by (intros; ring). lra.
Qed.

(* The effective temperature is the inlet temperature less the drop at a uniform wall temperature *)
Lemma effective_drop n (H : vec) ks F Ht tin : reciprocal_field n Ht F -> sumn n H = Ht ->
  effective n H ks F tin = tin - 2 * PI * ks * Ht / - sumn n (f_in F).
Proof.
  intros (_ & _ & Ng & Mp & Er) E. unfold effective, H_total. rewrite E, Er. field. split; lra.
Qed.

Section Object.
  Variables (link : list R -> tree) (uw : list (R * R)) (c : call) (w : network) (x thr : R).
  Hypothesis Es : c_source c = Piped w.
  Hypothesis Eb : c_bc c = Some "MIFT"%string.
  Hypothesis Me : c_method c = "detailed"%string.
  Hypothesis Al : 0 < c_alpha c.
  Hypothesis Th : threshold_of c thr.
  Hypothesis Tp : 0 < thr.
  Hypothesis Sg : segmented (w_b w) (segments_of c) (ratios_of c).
  Hypothesis Vf : vertical_field (w_b w).
  Hypothesis Gr : good_ratios (ratios_of c).
  Hypothesis Sp : well_spaced (w_b w).
  Hypothesis Ks : 0 < nth 0 (w_ks w) 0.
  Variables (mb mn : pyval) (row : list R) (F : flow).
  Hypothesis Xor : mb = VNone <-> mn <> VNone.
  Hypothesis SF : solver_flows mb mn = Some (0%nat, [row]).
  Hypothesis EF : network_flow w (segments_of c) (ratios_of c) [x] row = Some F.
  Local Notation n := (n_sources (w_b w) (segments_of c) (ratios_of c)).
  Local Notation H := (segment_length (w_b w) (segments_of c) (ratios_of c)).
  Local Notation A t := (detailed_matrix (line_kernel (c_alpha c) t uw) (w_b w) (segments_of c) (ratios_of c)).
  Local Notation K := (2 * PI * nth 0 (w_ks w) 0).
  Local Notation M l := (with_time (with_flow c mb mn (VFloat x)) (VArr l)).
  Local Notation U l := (with_time (with_bc c (Some "UBWT"%string)) (VArr l)).
  Hypothesis Rf : reciprocal_field n (Rsum (map bH (w_b w))) F.
  Hypothesis Pa : passive n F.

  Lemma mift_first l g : 0 < nth 0 l 0 -> gfunction link uw (M l) = Some (G1 g) ->
    exists v, gfunction link uw (M [nth 0 l 0]) = Some (G1 [v]) /\ nth 0 g 0 = v.
  Proof.
    intros P0 E. destruct l as [|t r]; [cbn in P0; lra|]. cbn [nth] in *.
    assert (E1 : gfunction link uw (M [t]) = Some (G1 (firstn 1 g))).
    { apply (gfunction_causal link uw (with_flow c mb mn (VFloat x)) [t] r g); [discriminate|exact E]. }
    pose proof (gfunction_length link uw (with_flow c mb mn (VFloat x)) [t] _ E1) as L. destruct g as [|v g']; [cbn in L; lia|]. exists v. auto.
  Qed.

  (* The first value is at least any uniform wall temperature with the same total load *)
  Lemma first_loads l g : 0 < nth 0 l 0 -> gfunction link uw (M l) = Some (G1 g) ->
    let t := Rmax (nth 0 l 0) thr in
    (0 < n)%nat /\ exists q tin, (forall i, (i < n)%nat -> K * H i * q i = sumn n (fun j => f_b F i j * (tin - sumn n (fun k => A t j k * q k)))) /\
      sumn n (fun i => H i * q i) = sumn n H /\ nth 0 g 0 = (tin - K * sumn n H / form n (f_b F) (fun _ => 1) (fun _ => 1)) * (Rmin (nth 0 l 0) thr / thr).
  Proof.
    intros P0 E t. destruct (mift_first l g P0 E) as (v & Ev & ->).
    destruct (mift_one link uw c w x thr Es Eb Me Th Tp Sg Vf Gr Ks mb mn row F (nth 0 l 0) v Xor SF EF P0 Ev) as (Hn & q & tin & Q1 & Q2 & Q3).
    split; [exact Hn|]. exists q, tin. pose proof (lengths_total _ _ _ Sg Vf Gr) as LT. split; [|split; [exact Q2|]].
    - intros i Hi. rewrite (Q1 i Hi). fold t. destruct Rf as (_ & Ne & _). specialize (Ne i Hi).
      rewrite (sumn_ext n (fun j => f_b F i j * (tin - _)) (fun j => tin * f_b F i j - f_b F i j * sumn n (fun k => A t j k * q k))) by (intros; ring).
      rewrite sumn_minus, sumn_scal. replace (f_in F i) with (- sumn n (f_b F i)) by lra. ring.
    - rewrite Q3. f_equal. rewrite (effective_drop n H _ F _ tin Rf LT), <- LT, (conductance_form n _ F Rf). reflexivity.
  Qed.

  Lemma definite_at t : 0 < t -> definite n H (A t).
  Proof. intros Pt. exact (field_definite _ _ _ Sg Vf Gr Sp (c_alpha c) t uw Al Pt). Qed.

  Lemma lengths_positive : (0 < n)%nat -> 0 < sumn n H.
  Proof. intros Hn. exact (lengths_pos _ _ _ Sg Vf Gr Hn). Qed.

  Lemma mift_above link' uw' l l' g g' : construct (U []) <> None -> 0 < nth 0 l 0 -> nth 0 l' 0 = nth 0 l 0 ->
    gfunction link uw (M l) = Some (G1 g) -> gfunction link' uw' (U l') = Some (G1 g') -> nth 0 g' 0 <= nth 0 g 0.
  Proof.
    intros Co P0 El E E'. destruct (first_loads l g P0 E) as (Hn & q & tin & Q1 & Q2 & Q3).
    destruct (first_alone thr Tp link' uw' c l' g') as (v' & V1 & V2); auto; [rewrite El; auto|intros ->; cbn in El; lra|].
    rewrite El in *. set (t := Rmax (nth 0 l 0) thr) in *. assert (Pt : 0 < t) by (unfold t; pose proof (Rmax_r (nth 0 l 0) thr); lra).
    rewrite V2, Q3. apply Rmult_le_compat_r. { apply Rmult_le_pos; [apply Rmin_glb; lra|left; apply Rinv_0_lt_compat; auto]. }
    destruct (ubwt_one link' uw' c thr Th Tp Me Co t v' (Rmax_r _ _) V1) as [Q Eq].
    assert (Bs : boreholes_of c = w_b w) by (unfold boreholes_of; rewrite Es; reflexivity). rewrite Bs in Eq.
    destruct (ubwt_loads _ _ _ t Q [v'] ltac:(first [rewrite Bs; exact Hn | exact Hn]) Pt Eq) as (y & Y1 & Y2). unfold fresp in Y1. rewrite Bs in *. cbn [nth] in Y1.
    apply (above_uniform n H (A t) (f_b F) K tin q) with (y := y); auto using definite_at, lengths_positive.
    - pose proof PI_RGT_0. nra.
    - intros i j Hi Hj. exact (field_reciprocal _ _ _ Sg Vf Gr Sp (c_alpha c) t uw i j Hi Hj).
    - apply Rf.
    - intros u. exact (passive_form n _ F u Rf Pa).
    - rewrite (conductance_form n _ F Rf). destruct Rf as (_ & _ & Ng & _). lra.
    - intros i Hi. rewrite <- (Y1 i Hi). apply sumn_ext. intros j Hj. rewrite !(matrix_response _ _ _ Sg Vf Gr) by (rewrite <- (sources_sum _ _ _ Sg); auto). reflexivity.
  Qed.

  Lemma mean_rows t : 0 < t -> (0 < n)%nat -> sumn n (fun i => H i * sumn n (fun j => A t i j)) / sumn n H = field_mean (c_alpha c) t (w_b w).
  Proof.
    intros Pt Hn. assert (P : positive [t]) by (intros y [<-|[]]; exact Pt).
    change (field_mean (c_alpha c) t (w_b w)) with (field_mean (c_alpha c) (nth 0 [t] 0) (w_b w)). rewrite <- (uhtr_field (w_b w) (segments_of c) (ratios_of c) Sg Vf Gr (c_alpha c) uw [t] 0 Al P (Nat.lt_0_succ 0)).
    pose proof (uhtr_values n H (detailed_trf (c_alpha c) uw (w_b w) (segments_of c) (ratios_of c)) [t] 0 P (Nat.lt_0_succ 0)) as V.
    destruct (solve_uhtr _ _ _ _ _) as [g T]. destruct V as [VT VG]. cbn [fst]. rewrite VG. f_equal. apply sumn_ext. intros i Hi. f_equal. rewrite VT. reflexivity.
  Qed.

  Lemma mift_below l g : evenly_fed n H F -> 0 < nth 0 l 0 -> gfunction link uw (M l) = Some (G1 g) ->
    nth 0 g 0 <= started (fun t => field_mean (c_alpha c) t (w_b w)) thr (nth 0 l 0).
  Proof.
    intros (beta & Bp & Ev) P0 E. destruct (first_loads l g P0 E) as (Hn & q & tin & Q1 & Q2 & Q3).
    set (t := Rmax (nth 0 l 0) thr) in *. assert (Pt : 0 < t) by (unfold t; pose proof (Rmax_r (nth 0 l 0) thr); lra).
    assert (B : tin - K * sumn n H / form n (f_b F) (fun _ => 1) (fun _ => 1) <= field_mean (c_alpha c) t (w_b w)).
    { rewrite <- (mean_rows t Pt Hn).
      apply (below_even n H (A t) (f_b F) K tin q) with (beta := beta); auto using definite_at, lengths_positive.
      - pose proof PI_RGT_0. nra.
      - intros i j Hi Hj. exact (field_reciprocal _ _ _ Sg Vf Gr Sp (c_alpha c) t uw i j Hi Hj).
      - apply Rf.
      - intros u. exact (passive_form n _ F u Rf Pa).
      - intros i Hi. destruct Rf as (_ & Ne & _). specialize (Ne i Hi). specialize (Ev i Hi). change (sumn n (f_b F i) = beta * H i). lra. }
    rewrite Q3. unfold started. rewrite (Rmax_left (nth 0 l 0) 0) by lra. destruct (Rleb (nth 0 l 0) thr) eqn:El.
    - apply Rleb_true in El. unfold t in B. rewrite Rmax_right in B by lra. rewrite Rmin_left by lra.
      unfold Rdiv at 2. rewrite <- !Rmult_assoc. unfold Rdiv. apply Rmult_le_compat_r; [left; apply Rinv_0_lt_compat; lra|]. apply Rmult_le_compat_r; [lra|exact B].
    - apply Rleb_false in El. unfold t in B. rewrite Rmax_left in B by lra. rewrite Rmin_right by lra. replace (thr / thr) with 1 by (field; lra). lra.
  Qed.
End Object.
