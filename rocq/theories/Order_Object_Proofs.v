(* The first value of the g-function of a network at a mixed inlet temperature, and the order of the
   boundary conditions. *)
From Coq Require Import String Reals Lra Lia List Bool Psatz.
From Verif Require Import Base LinAlg FLS_Model FLS_Spec FLS_Sol_Proofs.
From Verif Require Import Bore_Model Net_Model Solve_Model Solve_Spec Solve_Loop_Proofs Solve_Eq_Proofs Solve_Sol_Proofs Solve_Extra_Proofs
  Detailed_Model Detailed_Spec Detailed_Proofs Detailed_Sol_Proofs
  Sim_Model Sim_Spec Eq_Model Eq_Spec GFun_Model GFun_Spec GFun_Causal_Proofs GFun_Eval_Proofs GFun_Methods_Proofs GFun_Field_Proofs GFun_Uniform_Proofs GFun_Start_Proofs GFun_Rows_Proofs GFun_Total_Proofs
  Def_Spec Def_Field_Proofs Def_Object_Proofs Refine_Spec Refine_Proofs Order_Proofs.
Import ListNotations.
Local Open Scope R_scope.

(* One step of the solver *)
Lemma mift_loads n (H : vec) resp k_s (Hi : vec) F t g Q T : (0 < n)%nat -> 0 < t -> (forall i, (i < n)%nat -> 0 < Hi i) -> 0 < k_s ->
  solve_mift n H (Solve_Spec.on_grid resp) k_s Hi [F] [t] 0 = Some (g, Q, T) ->
  exists (x : nat -> R) Tin, (forall i, (i < n)%nat -> 2 * PI * k_s * Hi i * x i = - (f_in F i * Tin + sumn n (fun j => f_b F i j * sumn n (fun k => resp j k t * x k)))) /\
    sumn n (fun i => H i * x i) = sumn n H /\ g 0%nat 0%nat 0%nat = effective n H k_s F Tin.
Proof.
  intros Hn Ht Hp Kp E. assert (G : grid [t]) by (split; [discriminate|]; intros [|k] Hk; unfold at_time; cbn in *; [lra|lia]).
  destruct (mift_superposed n H resp k_s Hi [F] [t] g Q T 0 0 Hn G E ltac:(cbn; lia) ltac:(cbn; lia)) as [S [[Tin [Eg W]] _]].
  cbn [nth] in W, Eg. set (q := nth 0 (nth 0 Q []) zero_vec) in *. set (Tf := nth 0 (nth 0 T []) zero_vec) in *.
  exists q, Tin. split; [|split].
  - assert (L : length (nth 0 Q []) = length [t]).
    { rewrite mift_zero in E by (apply grid_positive; auto). destruct (runs_of n H (Solve_Spec.on_grid resp) k_s Hi [F] [t]) as [rs|] eqn:ER; [|discriminate]. cbv zeta in E. injection E as <- <- <-.
      destruct (runs_nth _ _ _ _ _ _ _ _ 0 ER ltac:(cbn; lia)) as [L R]. cbn [length] in L. rewrite !map_map. rewrite (nth_map _ _ 0 ([], []) []) by lia.
      destruct (zero_long [t] (proj1 (grid_positive [t] G))) as [Z1 [Z2 Z3]]. unfold pad. rewrite Z2. cbn [repeat app fst snd].
      destruct (nth 0 rs ([], [])) as [a b]. cbn [fst snd] in *. destruct (run_length _ _ _ _ _ _ (zero_vec, 0) R) as [La _]. exact La. }
    assert (ET : forall j, (j < n)%nat -> Tf j = sumn n (fun k => resp j k t * q k)).
    { intros j Hj. rewrite (superposed_constant n resp [t] (nth 0 Q []) 0 j _ q G L ltac:(cbn; lia)) with (2 := S j Hj).
      - apply sumn_ext. intros k Hk. unfold at_time. cbn [nth]. ring.
      - intros k i Hk Hi0. replace k with O by lia. reflexivity. }
    intros i Hi0. specialize (W i Hi0). set (c := 2 * PI * k_s * Hi i) in *.
    assert (Cp : 0 < c) by (unfold c; pose proof PI_RGT_0; pose proof (Hp i Hi0); apply Rmult_lt_0_compat; [apply Rmult_lt_0_compat; lra|auto]).
    rewrite (sumn_ext n (fun j => f_b F i j / c * Tf j) (fun j => / c * (f_b F i j * Tf j))) in W by (intros; field; lra). rewrite sumn_scal in W.
    rewrite <- (sumn_ext n (fun j => f_b F i j * Tf j)) by (intros j Hj; rewrite (ET j Hj); reflexivity).
    apply (Rmult_eq_reg_l (/ c)); [|apply Rinv_neq_0_compat; lra].
    replace (/ c * (c * q i)) with (q i) by (field; lra).
    replace (/ c * - (f_in F i * Tin + sumn n (fun j => f_b F i j * Tf j))) with (- (f_in F i / c * Tin + / c * sumn n (fun j => f_b F i j * Tf j))) by (field; lra).
    lra.
  - exact (mift_normal n H _ k_s Hi [F] [t] 0 g Q T 0 0 E ltac:(cbn; lia) ltac:(cbn; lia)).
  - exact Eg.
Qed.

Section Object.
  Variables (link : list R -> tree) (uw : list (R * R)) (c : call) (w : network) (x thr : R).
  Hypothesis Es : c_source c = Piped w.
  Hypothesis Eb : c_bc c = Some "MIFT"%string.
  Hypothesis Me : c_method c = "detailed"%string.
  Hypothesis Th : threshold_of c thr.
  Hypothesis Tp : 0 < thr.
  Hypothesis Sg : segmented (w_b w) (segments_of c) (ratios_of c).
  Hypothesis Vf : vertical_field (w_b w).
  Hypothesis Gr : good_ratios (ratios_of c).
  Hypothesis Ks : 0 < nth 0 (w_ks w) 0.
  Local Notation n := (n_sources (w_b w) (segments_of c) (ratios_of c)).
  Local Notation H := (segment_length (w_b w) (segments_of c) (ratios_of c)).
  Local Notation A t := (detailed_matrix (line_kernel (c_alpha c) t uw) (w_b w) (segments_of c) (ratios_of c)).
  Local Notation K := (2 * PI * nth 0 (w_ks w) 0).

  Lemma segments_positive i : (i < n)%nat -> 0 < H i.
  Proof. intros Hi. unfold segment_length. apply (seg_props (w_b w) (segments_of c) (ratios_of c) Vf Gr). apply nth_In. exact Hi. Qed.

  Lemma mift_one mb mn row F t v : (mb = VNone <-> mn <> VNone) -> solver_flows mb mn = Some (0%nat, [row]) ->
    network_flow w (segments_of c) (ratios_of c) [x] row = Some F -> 0 < t ->
    gfunction link uw (with_time (with_flow c mb mn (VFloat x)) (VArr [t])) = Some (G1 [v]) ->
    (0 < n)%nat /\
    exists (q : nat -> R) Tin, (forall i, (i < n)%nat -> K * H i * q i = - (f_in F i * Tin + sumn n (fun j => f_b F i j * sumn n (fun k => A (Rmax t thr) j k * q k)))) /\
      sumn n (fun i => H i * q i) = sumn n H /\ v = effective n H (nth 0 (w_ks w) 0) F Tin * (Rmin t thr / thr).
  Proof.
    intros N SF EF Pt E. pose proof (proj1 (segments_all _ _ _ Sg)) as NS. change (n = list_sum (segments_of c)) in NS.
    rewrite gfunction_arr in E. destruct (construct _) as [[q s]|] eqn:Ec; [|discriminate].
    destruct (rows_construct c w x Es Eb (or_introl Me) mb mn q s N Ec) as (-> & S1 & S2 & S3 & Cs). rewrite SF in S3. injection S3 as Sk Sr.
    unfold evaluate in E. cbn [q_bs q_net q_bc mift_request] in E. destruct (times (VArr [t])) as [ts|] eqn:Et; [|discriminate]. destruct Th as [rb [Erb ET]]. unfold boreholes_of in Erb. rewrite Es in Erb. rewrite Erb in E.
    cbn [c_alpha c_options with_flow] in E. rewrite <- ET in E.
    unfold make_system in E. cbn [q_method mift_request q_cp numbers] in E. rewrite Me in E. change (String.eqb (lower "detailed") "detailed") with true in E. cbv iota in E.
    unfold solve, detailed_system in E. cbn [y_n y_H y_h y_flow y_Hi q_bs q_net mift_request c_alpha with_flow] in E. rewrite S1, S2, <- Sr, <- Sk in E.
    assert (D : forall h l, defined_at (fun t => Some (h t)) l = true) by (intros h l0; apply forallb_forall; auto). rewrite D in E.
    change (String.eqb "MIFT" "UHTR") with false in E. change (String.eqb "MIFT" "UBWT") with false in E. cbv iota in E. cbn [map Net_Model.all_some] in E. rewrite EF in E.
    destruct (times_some _ _ Et) as [Em [Nl [So Po]]]. cbn [map] in Em. rewrite Rmax_left in Em by lra. subst ts.
    set (resp := fun i j t => detailed_matrix (line_kernel (c_alpha c) t uw) (w_b w) (segments_of c) (ratios_of c) i j).
    change (at_times (fun t => Some (detailed_matrix (line_kernel (c_alpha c) t uw) (w_b w) (segments_of c) (ratios_of c)))) with (Solve_Spec.on_grid resp) in E.
    assert (Hn : (0 < n)%nat).
    { rewrite NS. unfold check_segments in Cs. rewrite !andb_true_iff in Cs. destruct Cs as [[[_ C3] C4] _]. apply Nat.ltb_lt in C3. rewrite forallb_forall in C4. destruct (segments_of c) as [|a ns]; [simpl in C3; lia|].
      specialize (C4 a (or_introl eq_refl)). apply Nat.leb_le in C4. simpl. lia. }
    split; [exact Hn|].
    destruct (solve_mift _ _ _ _ _ _ _ _) as [[[g Q] T]|] eqn:Em; [|discriminate]. cbn [Nat.eqb List.length seq map] in E. injection E as E.
    pose proof (mift_linear n H (Solve_Spec.on_grid resp) (nth 0 (w_ks w) 0) H F [t] thr) as Lin.
    rewrite Em in Lin. specialize (Lin ltac:(intros i j Hij Hj; cbn in Hj; replace i with O by lia; replace j with O by lia; cbn; lra) ltac:(intros y [<-|[]]; lra) Tp).
    assert (Kt : kept [t] thr = [Rmax t thr]).
    { unfold kept. cbn [existsb filter]. destruct (Rleb t thr) eqn:Le.
      - apply Rleb_true in Le. cbn [orb]. rewrite Rmax_right by lra. destruct (Rltb thr t) eqn:Lt; [apply Rltb_true in Lt; lra|reflexivity].
      - apply Rleb_false in Le. cbn [orb]. rewrite Rmax_left by lra. reflexivity. }
    rewrite Kt in Lin. destruct (solve_mift n H (Solve_Spec.on_grid resp) (nth 0 (w_ks w) 0) H [F] [Rmax t thr] 0) as [[[g' Q'] T']|] eqn:E'; [|contradiction].
    destruct (mift_loads n H resp (nth 0 (w_ks w) 0) H F (Rmax t thr) g' Q' T' Hn ltac:(apply Rlt_le_trans with t; [lra|apply Rmax_l]) segments_positive Ks E') as (q & Tin & P1 & P2 & P3).
    exists q, Tin. split; [exact P1|]. split; [exact P2|].
    destruct Lin as [Lin _]. destruct (Lin O ltac:(cbn; lia)) as [L1 L2]. cbn [nth] in L1, L2. rewrite Kt in L2.
    rewrite <- E, <- P3. destruct (Rle_dec t thr) as [Q0|Q0].
    - rewrite (L1 Q0), Rmin_left by lra. field. lra.
    - destruct (L2 ltac:(lra)) as (j & Hj & Ej & L3). cbn [List.length] in Hj. replace j with O in * by lia. rewrite L3, Rmin_right by lra. field. lra.
  Qed.
End Object.
