(** g-functions of a network of two parallel boreholes. *)
From Coq Require Import String.
From Verif Require Import Base LinAlg FLS_Model.
From Verif Require Import Bore_Model Net_Model Net_Extra_Proofs Solve_Model Solve_Spec Solve_Loop_Proofs Solve_Rec_Proofs Solve_Eq_Proofs Solve_Sol_Proofs Solve_Extra_Proofs
  Detailed_Model Detailed_Spec Sim_Model Sim_Spec Eq_Model Eq_Spec GFun_Model GFun_Spec GFun_Causal_Proofs GFun_Eval_Proofs GFun_Field_Proofs GFun_Uniform_Proofs GFun_Pair_Proofs GFun_Two_Proofs GFun_Exist_Proofs.
Local Open Scope R_scope.

(** No linear start if all times are above the threshold *)
Lemma long_none time thr : (forall t, In t time -> thr < t) -> time_long time thr = time /\ p_zero time thr = O /\ p_long time thr = O.
Proof.
  intros A. assert (Z : p_long time thr = O).
  { unfold p_long. destruct time as [|t l]; auto. cbn [searchsorted_right]. specialize (A t (or_introl eq_refl)). destruct (Rleb t thr) eqn:E; auto. apply Rleb_true in E. lra. }
  unfold time_long, p_zero. rewrite Z. auto.
Qed.
Lemma mift_above n H trf k_s Hi Fs time thr : 0 <= thr -> (forall t, In t time -> thr < t) -> solve_mift n H trf k_s Hi Fs time thr = solve_mift n H trf k_s Hi Fs time 0.
Proof.
  intros T A. destruct (long_none time thr A) as [A1 [A2 A3]]. destruct (long_none time 0) as [B1 [B2 B3]]; [intros t Ht; specialize (A t Ht); lra|].
  rewrite !mift_all. rewrite A1, B1. destruct (runs_of n H trf k_s Hi Fs time) as [rs|]; auto. cbv zeta.
  unfold linearise_all, linearise_loads, linearise_vec, pad. rewrite A2, A3, B2, B3. reflexivity.
Qed.

Section Pair.
  Variables (p1 p2 : pipe) (cp : R).

  (** A network of two boreholes in parallel *)
  Definition pair_piped (wm wcp : pyval) : network := mknetwork pair_field [p1; p2] [1; 1] [[1]; [1]] two wm wcp.
  Definition pair_mift (method : string) (wm wcp mb mn c : pyval) : call := mkcall (Piped (pair_piped wm wcp)) 1 (VArr [1]) method (Some "MIFT"%string) mb mn c pair_options.

  (** The row of flows gives the conductances k1 and k2. *)
  Definition drives (row : list R) (k1 k2 : R) : Prop := exists m1 m2, 0 < m1 /\ 0 < m2 /\ 0 < k1 /\ 0 < k2 /\
    conducts p1 m1 cp k1 /\ conducts p2 m2 cp k2 /\ (row = [m1; m2] \/ (row = [2 * m1] /\ m1 = m2)).

  Hypothesis Cp : 0 < cp.
  Local Notation thr := ((3 / 40) ^ 2 / 25).
  Local Notation seg := (segment_length pair_field [1; 1]%nat [[1]; [1]]).
  Local Notation NF wm wcp := (network_flow (pair_piped wm wcp) [1; 1]%nat [[1]; [1]] [cp]).

  Lemma pair_flow wm wcp row k1 k2 : drives row k1 k2 -> exists F, NF wm wcp row = Some F /\ passive 2 F /\ circulates 2 F /\
    f_in F 0%nat = - k1 /\ f_in F 1%nat = - k2 /\ f_b F 0%nat 0%nat = k1 /\ f_b F 0%nat 1%nat = 0 /\ f_b F 1%nat 0%nat = 0 /\ f_b F 1%nat 1%nat = k2 /\
    exists mcp, 0 < mcp /\ f_mcp F = mcp /\ f_R F = 200 * (/ (k1 + k2) - / (2 * mcp)).
  Proof.
    intros (m1 & m2 & P1 & P2 & K1 & K2 & C1 & C2 & Row).
    destruct (two_network_flow p1 p2 m1 m2 cp k1 k2 row P1 P2 Cp K1 K2 C1 C2 Row (pair_piped wm wcp) eq_refl eq_refl) as (F & E & I & B & N & NB & M & Rf).
    exists F. split; auto. pose proof (I 0%nat ltac:(lia)) as I0. pose proof (I 1%nat ltac:(lia)) as I1.
    pose proof (B 0%nat 0%nat ltac:(lia) ltac:(lia)) as B00. pose proof (B 0%nat 1%nat ltac:(lia) ltac:(lia)) as B01.
    pose proof (B 1%nat 0%nat ltac:(lia) ltac:(lia)) as B10. pose proof (B 1%nat 1%nat ltac:(lia) ltac:(lia)) as B11.
    unfold cond in *. cbn [Nat.eqb] in *. split; [|split; [|repeat (split; [assumption|])]].
    - intros t T. cbn [sumn]. rewrite I0, I1, B00, B01, B10, B11.
      replace (0 + (T 0%nat - t) * (- k1 * t + (0 + k1 * T 0%nat + 0 * T 1%nat)) + (T 1%nat - t) * (- k2 * t + (0 + 0 * T 0%nat + k2 * T 1%nat)))
        with (k1 * (T 0%nat - t)² + k2 * (T 1%nat - t)²) by (unfold Rsqr; ring).
      pose proof (Rle_0_sqr (T 0%nat - t)). pose proof (Rle_0_sqr (T 1%nat - t)). apply Rplus_le_le_0_compat; apply Rmult_le_pos; lra.
    - exists O. split; [lia|]. rewrite I0. lra.
    - exists ((m1 + m2) * cp). split; [apply Rmult_lt_0_compat; lra|]. split; auto. rewrite Rf. f_equal. cbn. lra.
  Qed.

  Lemma pair_flows wm wcp rows : (forall row, In row rows -> exists k1 k2, drives row k1 k2) ->
    exists Fs, Net_Model.all_some (map (NF wm wcp) rows) = Some Fs /\ forall F, In F Fs -> passive 2 F /\ circulates 2 F.
  Proof.
    induction rows as [|row rows IH]; intros A; [exists []; split; auto; intros F []|].
    destruct IH as [Fs [E P]]; [intros; apply A; right; auto|]. destruct (A row (or_introl eq_refl)) as (k1 & k2 & D).
    destruct (pair_flow wm wcp row k1 k2 D) as (F & EF & PF & CF & _). exists (F :: Fs). cbn [map Net_Model.all_some]. rewrite EF, E. split; auto.
    intros G [<-|I]; auto.
  Qed.

  Section Evaluated.
    Variables (link : list R -> tree) (uw : list (R * R)) (c : call) (q : request) (s : solver) (wm wcp : pyval).
    Hypothesis Q1 : q_method q = "detailed"%string.
    Hypothesis Q2 : q_bs q = pair_field.
    Hypothesis Q3 : q_bc q = "MIFT"%string.
    Hypothesis Q4 : q_net q = Some (pair_piped wm wcp).
    Hypothesis Q5 : numbers (q_cp q) = Some [cp].
    Hypothesis S1 : v_n s = [1; 1]%nat.
    Hypothesis S2 : v_r s = [[1]; [1]].
    Hypothesis C1 : c_alpha c = 1.
    Hypothesis C2 : c_options c = pair_options.
    Hypothesis A : forall row, In row (v_rows s) -> exists k1 k2, drives row k1 k2.

    Definition pair_response : nat -> nat -> R -> R := fun i j t => detailed_matrix (line_kernel 1 t uw) pair_field [1; 1]%nat [[1]; [1]] i j.

    Lemma pair_response_definite t : 0 < t -> definite 2 seg (fun i j => pair_response i j t).
    Proof. intros Ht. exact (pair_definite uw t Ht). Qed.

    Lemma pair_evaluate l t : times (VArr l) = Some t -> evaluate link uw c (q, s) (VArr l) =
      match v_rows s, Net_Model.all_some (map (NF wm wcp) (v_rows s)) with
      | _ :: _, Some Fs =>
          match solve_mift 2 seg (Solve_Spec.on_grid pair_response) 1 seg Fs t thr with
          | Some (g, _, _) => Some (if Nat.eqb (v_k s) 0 then G1 (map (g O O) (seq 0 (List.length t))) else G3 (v_k s) g)
          | None => None
          end
      | _, _ => None
      end.
    Proof.
      intros Et. unfold evaluate. rewrite Et. destruct (pair_threshold "detailed") as [r [Er Eth]]. rewrite Q2. cbn [pair_call boreholes_of c_source] in Er. rewrite Er.
      unfold make_system. rewrite Q1. change (String.eqb (lower "detailed") "detailed") with true. cbv iota. rewrite C1, C2. cbn [pair_call c_alpha c_options] in Eth. rewrite <- Eth.
      unfold solve. rewrite Q3. unfold detailed_system. cbn [y_n y_H y_h y_flow y_Hi]. rewrite Q2, Q4, Q5, S1, S2, C1.
      assert (D : forall h l, defined_at (fun t => Some (h t)) l = true) by (intros h l0; apply forallb_forall; auto). rewrite D.
      change (String.eqb "MIFT" "UHTR") with false. change (String.eqb "MIFT" "UBWT") with false. cbv iota.
      destruct (v_rows s) as [|row rows]; [reflexivity|]. destruct (Net_Model.all_some _) as [Fs|]; [|reflexivity].
      change (n_sources pair_field [1; 1]%nat [[1]; [1]]) with 2%nat. change (nth 0 (w_ks (pair_piped wm wcp)) 0) with 1. reflexivity.
    Qed.

    Lemma pair_one l row : v_rows s = [row] -> v_k s = O -> times (VArr l) <> None -> no_repeats thr l ->
      exists g, evaluate link uw c (q, s) (VArr l) = Some (G1 g).
    Proof.
      intros Er Ek Nt Nr. destruct (times (VArr l)) as [t|] eqn:Et; [|contradiction]. rewrite (pair_evaluate l t Et).
      destruct (times_some _ _ Et) as [Em [Nl [So Po]]]. destruct (pair_flows wm wcp (v_rows s) A) as [Fs [EF PF]]. rewrite EF.
      assert (L : List.length Fs = 1%nat) by (rewrite (all_some_length _ _ EF), map_length, Er; auto). rewrite Er.
      destruct Fs as [|F [|? ?]]; try discriminate. destruct (PF F (or_introl eq_refl)) as [PP CC].
      assert (Tp : 0 < thr) by lra.
      assert (Nr' : no_repeats thr t) by (rewrite Em; apply clamp_repeats; auto).
      assert (Ne : t <> []) by (rewrite Em; destruct l; [contradiction|discriminate]).
      pose proof (long_grid t thr Ne Tp So Nr') as Gt.
      destruct (mift_run_some 2 seg 1 ltac:(lia) ltac:(intros; rewrite pair_length by auto; lra) ltac:(lra) pair_response F (time_long t thr) Gt) as [[a b] E]; auto.
      { intros x Hx. apply pair_response_definite. apply (long_positive t thr Tp So); auto. }
      destruct (mift_one_some 2 seg pair_response 1 seg F t thr a b E) as (g & Q & T & Es & _). rewrite Es, Ek. eexists. reflexivity.
    Qed.

    Lemma pair_many l : v_rows s <> [] -> v_k s <> O -> times (VArr l) <> None -> no_repeats thr l -> (forall t, In t l -> thr < t) ->
      exists g, evaluate link uw c (q, s) (VArr l) = Some (G3 (v_k s) g).
    Proof.
      intros Er Ek Nt Nr Ab. destruct (times (VArr l)) as [t|] eqn:Et; [|contradiction]. rewrite (pair_evaluate l t Et).
      destruct (times_some _ _ Et) as [Em [Nl [So Po]]]. destruct (pair_flows wm wcp (v_rows s) A) as [Fs [EF PF]]. rewrite EF.
      destruct (v_rows s) as [|row rows]; [contradiction|].
      assert (Tp : 0 < thr) by lra.
      assert (Nr' : no_repeats thr t) by (rewrite Em; apply clamp_repeats; auto).
      assert (Ne : t <> []) by (rewrite Em; destruct l; [contradiction|discriminate]).
      assert (Ab' : forall x, In x t -> thr < x).
      { rewrite Em. intros x Hx. apply in_map_iff in Hx. destruct Hx as [y [<- Hy]]. specialize (Ab y Hy). unfold Rmax. destruct (Rle_dec y 0); lra. }
      pose proof (long_grid t thr Ne Tp So Nr') as Gt. destruct (long_none t thr Ab') as [Lt _]. rewrite Lt in Gt.
      rewrite mift_above by (auto; lra).
      destruct (mift_exists 2 seg 1 ltac:(lia) ltac:(intros; rewrite pair_length by auto; lra) ltac:(lra) pair_response Fs t Gt) as [[[g Q] T] E]; auto.
      { intros x Hx. apply pair_response_definite. specialize (Ab' x Hx). lra. }
      rewrite E. destruct (Nat.eqb_spec (v_k s) 0); [contradiction|]. eexists. reflexivity.
    Qed.

    (** Value at a time above the threshold *)
    Definition pair_g (t k1 k2 : R) : R :=
      let d := pair_self t - pair_cross t in let C := 200 * PI in
      2 * pair_cross t + 2 * (d + C / k1) * (d + C / k2) / (2 * d + C / k1 + C / k2) - 2 * C / (k1 + k2).

    Lemma pair_value row k1 k2 t : v_rows s = [row] -> v_k s = O -> thr < t -> drives row k1 k2 ->
      evaluate link uw c (q, s) (VArr [t]) = Some (G1 [pair_g t k1 k2]).
    Proof.
      intros Er Ek Ab D. assert (Et : times (VArr [t]) = Some [t]).
      { unfold times. cbn [numbers map increasing]. unfold Rmax. destruct (Rle_dec t 0); auto. lra. }
      rewrite (pair_evaluate _ _ Et), Er. cbn [map Net_Model.all_some]. destruct (pair_flow wm wcp row k1 k2 D) as (F & EF & PF & CF & I0 & I1 & B00 & B01 & B10 & B11 & mcp & Pm & Em & ER).
      rewrite EF. assert (Gt : grid [t]).
      { split; [discriminate|]. intros k Hk. simpl in Hk. replace k with O by lia. unfold at_time. cbn. lra. }
      rewrite mift_above by (try lra; intros x [<-|[]]; auto).
      destruct (mift_exists 2 seg 1 ltac:(lia) ltac:(intros; rewrite pair_length by auto; lra) ltac:(lra) pair_response [F] [t] Gt) as [[[g Q] T] E].
      { intros x [<-|[]]. apply pair_response_definite. lra. }
      { intros G [<-|[]]. auto. }
      rewrite E, Ek. cbn [Nat.eqb List.length seq map]. do 3 f_equal.
      destruct (mift_superposed 2 seg pair_response 1 seg [F] [t] g Q T 0 0 ltac:(lia) Gt E ltac:(simpl; lia) ltac:(simpl; lia)) as (Sp & (Tin & EG & EQ) & _).
      pose proof (mift_normal 2 seg (Solve_Spec.on_grid pair_response) 1 seg [F] [t] 0 g Q T 0 0 E ltac:(simpl; lia) ltac:(simpl; lia)) as EN.
      assert (LQ : List.length (nth 0 Q []) = 1%nat).
      { pose proof E as E'. rewrite mift_zero in E' by (apply grid_positive; auto). destruct (runs_of _ _ _ _ _ _ _) as [rs|] eqn:Ers; [|discriminate]. cbv zeta in E'.
        injection E' as _ <- _. destruct (runs_nth _ _ _ _ _ _ _ _ O Ers ltac:(simpl; lia)) as [L Rn]. rewrite map_map.
        rewrite (nth_map _ _ 0%nat ([], []) []) by (rewrite L; simpl; lia). destruct (nth 0 rs ([], [])) as [a b]. unfold pad. cbn [fst snd].
        destruct (run_length _ _ _ _ _ _ (zero_vec, 0) Rn) as [La _]. destruct (zero_long [t]) as [_ [-> _]]; [apply grid_positive; auto|]. cbn [repeat app]. exact La. }
      assert (TE : forall i, (i < 2)%nat -> nth 0 (nth 0 T []) zero_vec i = sumn 2 (fun j => nth 0 (nth 0 Q []) zero_vec j * pair_response i j t)).
      { intros i Hi. specialize (Sp i Hi). apply (superposed_constant _ _ _ _ _ _ _ (fun j => nth 0 (nth 0 Q []) zero_vec j)) in Sp; auto.
        intros k j Hk Hj. replace k with O by lia. reflexivity. }
      cbn [nth] in *. rewrite EG. pose proof (TE 0%nat ltac:(lia)) as T0. pose proof (TE 1%nat ltac:(lia)) as T1.
      pose proof (EQ 0%nat ltac:(lia)) as Q0. pose proof (EQ 1%nat ltac:(lia)) as Qq. unfold pair_response in T0, T1. cbn [sumn] in T0, T1, Q0, Qq, EN.
      rewrite !pair_matrix in T0, T1 by lia. cbn [Nat.eqb] in T0, T1. rewrite !pair_length in * by lia. rewrite I0, B00, B01 in Q0. rewrite I1, B10, B11 in Qq.
      unfold effective. rewrite Em, ER. unfold H_total. cbn [sumn]. rewrite !pair_length by lia.
      set (q0 := nth 0 (nth 0 Q []) zero_vec 0%nat) in *. set (q1 := nth 0 (nth 0 Q []) zero_vec 1%nat) in *.
      set (t0 := nth 0 (nth 0 T []) zero_vec 0%nat) in *. set (t1 := nth 0 (nth 0 T []) zero_vec 1%nat) in *.
      unfold pair_g. destruct (pair_order t ltac:(lra)) as [Ob Os]. set (b := pair_cross t) in *. set (a := pair_self t) in *. clearbody q0 q1 t0 t1 a b.
      destruct D as (m1 & m2 & _ & _ & K1 & K2 & _). pose proof PI_RGT_0 as Pi.
      assert (E1 : q1 = 2 - q0) by lra. subst q1.
      assert (F0 : Tin = t0 + 200 * PI / k1 * q0).
      { apply (Rmult_eq_reg_l (k1 / (200 * PI))); [|apply Rgt_not_eq; apply Rdiv_lt_0_compat; lra].
        replace (k1 / (200 * PI) * (t0 + 200 * PI / k1 * q0)) with (k1 / (200 * PI) * t0 + q0) by (field; lra).
        replace (2 * PI * 1 * 100) with (200 * PI) in Q0 by ring. unfold Rdiv in *. lra. }
      assert (F1 : Tin = t1 + 200 * PI / k2 * (2 - q0)).
      { apply (Rmult_eq_reg_l (k2 / (200 * PI))); [|apply Rgt_not_eq; apply Rdiv_lt_0_compat; lra].
        replace (k2 / (200 * PI) * (t1 + 200 * PI / k2 * (2 - q0))) with (k2 / (200 * PI) * t1 + (2 - q0)) by (field; lra).
        replace (2 * PI * 1 * 100) with (200 * PI) in Qq by ring. unfold Rdiv in *. lra. }
      set (u := 200 * PI / k1) in *. set (v := 200 * PI / k2) in *. assert (0 < u) by (apply Rdiv_lt_0_compat; lra). assert (0 < v) by (apply Rdiv_lt_0_compat; lra).
      assert (G0 : q0 = 2 * ((a - b) + v) / (2 * (a - b) + u + v)).
      { apply (Rmult_eq_reg_r (2 * (a - b) + u + v)); [|lra]. unfold Rdiv. rewrite Rmult_assoc, Rinv_l, Rmult_1_r by lra. lra. }
      assert (GT : Tin = 2 * b + (a - b + u) * q0) by lra. rewrite GT, G0. field. repeat split; try lra.
    Qed.
  End Evaluated.

  Lemma pair_mift_constructed method wm wcp mb mn c k rows : In method ["detailed"; "similarities"]%string -> solver_flows mb mn = Some (k, rows) ->
    ((mb = VNone /\ mn <> VNone) \/ (mn = VNone /\ mb <> VNone /\ List.length (hd [] rows) = 2%nat)) -> c <> VNone ->
    construct (with_time (pair_mift method wm wcp mb mn c) (VArr [])) =
      Some (mkrequest pair_field (Some (pair_piped wm wcp)) method "MIFT" mb mn c, mksolver [1; 1]%nat [[1]; [1]] k rows (Some (pair_piped wm wcp))).
  Proof.
    intros Hm SF Fl Nc.
    assert (F1 : is_none mb && is_none mn = false) by (clear - Fl; destruct mb, mn; auto; intuition congruence).
    assert (F2 : negb (is_none mn) && negb (is_none mb) = false) by (clear - Fl; destruct mb, mn; auto; intuition congruence).
    assert (F3 : is_none c = false) by (destruct c; auto; contradiction).
    unfold construct. assert (E : resolve (with_time (pair_mift method wm wcp mb mn c) (VArr [])) = Some (mkrequest pair_field (Some (pair_piped wm wcp)) method "MIFT" mb mn c)).
    { unfold resolve. cbn [with_time pair_mift c_source c_bc c_method c_mb c_mn c_cp w_b pair_piped]. rewrite F1, F3.
      destruct Hm as [<-|[<-|[]]]; reflexivity. }
    rewrite E. assert (Ck : check (with_time (pair_mift method wm wcp mb mn c) (VArr [])) (mkrequest pair_field (Some (pair_piped wm wcp)) method "MIFT" mb mn c) = true).
    { unfold check. cbn [q_bs q_net q_method q_bc q_mb q_mn q_cp c_time with_time]. rewrite pair_unique. rewrite F2, F3, (andb_comm (is_none mn)), F1.
      change (String.eqb "MIFT" "MIFT") with true. cbv iota.
      assert (M : match mb with VArr2 rows0 => Nat.eqb (List.length (hd [] rows0)) (nInlets (w_c (pair_piped wm wcp))) | _ => true end = true).
      { destruct mb; auto. destruct Fl as [[? _]|[-> [_ L]]]; [discriminate|]. cbn in SF. injection SF as <- <-. rewrite L. reflexivity. }
      rewrite M. destruct Hm as [<-|[<-|[]]]; reflexivity. }
    rewrite Ck. unfold make_solver. cbn [q_bs q_net q_method q_bc q_mb q_mn q_cp]. rewrite SF.
    change (format_segments (List.length pair_field) (o_n (c_options (with_time (pair_mift method wm wcp mb mn c) (VArr []))))) with [1; 1]%nat.
    change (format_ratios (List.length pair_field) [1; 1]%nat (o_r (c_options (with_time (pair_mift method wm wcp mb mn c) (VArr []))))) with [[1]; [1]].
    rewrite pair_checks. assert (CF : check_flows (mkrequest pair_field (Some (pair_piped wm wcp)) method "MIFT" mb mn c) rows = true).
    { unfold check_flows. cbn [q_bs q_net q_method q_bc q_mb q_mn q_cp]. change (String.eqb "MIFT" "MIFT") with true. cbv iota. rewrite (andb_comm (is_none mn)), F1, F2, F3.
      destruct Fl as [[-> _]|[-> [_ L]]]; auto. rewrite L. destruct mb; auto. }
    rewrite CF. cbn [andb]. destruct Hm as [<-|[<-|[]]]; [reflexivity|].
    change (String.eqb (lower "similarities") "detailed") with false. change (String.eqb (lower "similarities") "similarities") with true. cbv iota.
    assert (P : Rltb 0 (1 / 100) && Rltb 0 (/ 10 ^ 6) = true) by (rewrite andb_true_iff, !Rltb_true; lra). cbn [c_options pair_mift with_time o_disTol o_tol pair_options]. rewrite P. reflexivity.
  Qed.

  (** A flow for the whole network *)
  Lemma pair_total link uw wm wcp x t k1 k2 : ((3 / 40) ^ 2 / 25) < t -> drives [x] k1 k2 ->
    gfunction link uw (with_time (pair_mift "detailed" wm wcp VNone (VFloat x) (VFloat cp)) (VArr [t])) = Some (G1 [pair_g t k1 k2]).
  Proof.
    intros Ht D. rewrite gfunction_arr. rewrite (pair_mift_constructed "detailed" wm wcp VNone (VFloat x) (VFloat cp) 0 [[x]]); try discriminate; auto; [|left; auto|left; split; auto; discriminate].
    eapply pair_value; try reflexivity; eauto. intros row [<-|[]]. eauto.
  Qed.

  Lemma pair_total_solved link uw wm wcp x l k1 k2 : drives [x] k1 k2 -> times (VArr l) <> None -> no_repeats ((3 / 40) ^ 2 / 25) l ->
    exists g, gfunction link uw (with_time (pair_mift "detailed" wm wcp VNone (VFloat x) (VFloat cp)) (VArr l)) = Some (G1 g).
  Proof.
    intros D Nt Nr. rewrite gfunction_arr. rewrite (pair_mift_constructed "detailed" wm wcp VNone (VFloat x) (VFloat cp) 0 [[x]]); try discriminate; auto; [|left; auto|left; split; auto; discriminate].
    eapply pair_one; try reflexivity; eauto. intros row [<-|[]]. eauto.
  Qed.

  (** A flow for each borehole *)
  Lemma pair_each link uw wm wcp m1 m2 t k1 k2 : ((3 / 40) ^ 2 / 25) < t -> drives [m1; m2] k1 k2 ->
    gfunction link uw (with_time (pair_mift "detailed" wm wcp (VArr [m1; m2]) VNone (VFloat cp)) (VArr [t])) = Some (G1 [pair_g t k1 k2]).
  Proof.
    intros Ht D. rewrite gfunction_arr. rewrite (pair_mift_constructed "detailed" wm wcp (VArr [m1; m2]) VNone (VFloat cp) 0 [[m1; m2]]); try discriminate; auto;
      [|left; auto|right; split; auto; split; auto; discriminate].
    eapply pair_value; try reflexivity; eauto. intros row [<-|[]]. eauto.
  Qed.

  (** Several flows *)
  Lemma pair_rows_solved link uw wm wcp rows l : rows <> [] -> (forall row, In row rows -> List.length row = 2%nat /\ exists k1 k2, drives row k1 k2) ->
    times (VArr l) <> None -> no_repeats ((3 / 40) ^ 2 / 25) l -> (forall t, In t l -> (3 / 40) ^ 2 / 25 < t) ->
    exists g, gfunction link uw (with_time (pair_mift "detailed" wm wcp (VArr2 rows) VNone (VFloat cp)) (VArr l)) = Some (G3 (List.length rows) g).
  Proof.
    intros Ne D Nt Nr Ab. rewrite gfunction_arr. rewrite (pair_mift_constructed "detailed" wm wcp (VArr2 rows) VNone (VFloat cp) (List.length rows) rows); try discriminate; auto;
      [|left; auto|right; split; auto; split; [discriminate|]].
    - eapply pair_many; try reflexivity; eauto; [intros row Hr; destruct (D row Hr) as [_ ?]; auto|]. cbn [v_k]. destruct rows; [contradiction|discriminate].
    - destruct rows as [|r rows]; [contradiction|]. apply (D r). left. auto.
  Qed.
End Pair.

(** Pipes with known conductances *)
Lemma perfect_conducts m cp : 0 < m -> conducts perfect m cp (m * cp).
Proof. intros Hm r. cbn [p_qb p_out perfect fst snd Nat.eqb andb]. rewrite Rabs_pos_eq by lra. repeat split; ring. Qed.
Lemma flowing_conducts m cp : 0 < m -> conducts flowing m cp (m * cp * (1 - m)).
Proof. intros Hm r. cbn [p_qb p_out flowing fst snd Nat.eqb andb]. rewrite Rabs_pos_eq by lra. repeat split; ring. Qed.
Lemma mixed_drives cp x : 0 < cp -> 0 < x < 2 -> drives perfect flowing cp [x] (x / 2 * cp) (x / 2 * cp * (1 - x / 2)).
Proof.
  intros Hc Hx. exists (x / 2), (x / 2). assert (0 < x / 2 * cp) by (apply Rmult_lt_0_compat; lra). assert (0 < x / 2 * cp * (1 - x / 2)) by (apply Rmult_lt_0_compat; lra).
  repeat (split; [solve [lra | apply perfect_conducts; lra | apply flowing_conducts; lra]|]). right. split; auto. f_equal. field.
Qed.
Lemma each_drives cp x y : 0 < cp -> 0 < x -> 0 < y < 1 -> drives perfect flowing cp [x; y] (x * cp) (y * cp * (1 - y)).
Proof.
  intros Hc Hx Hy. exists x, y. assert (0 < x * cp) by (apply Rmult_lt_0_compat; lra). assert (0 < y * cp) by (apply Rmult_lt_0_compat; lra). assert (0 < y * cp * (1 - y)) by (apply Rmult_lt_0_compat; lra).
  repeat (split; [solve [lra | apply perfect_conducts; lra | apply flowing_conducts; lra]|]). left. auto.
Qed.

(** The values for three flows *)
Lemma pair_values t : 0 < t -> let d := pair_self t - pair_cross t in let C := 200 * PI in
  pair_g t (1 / 2) (1 / 4) = 2 * pair_cross t + d * (3 * d + 10 * C) / (3 * d + 9 * C) /\
  pair_g t (3 / 4) (3 / 16) = 2 * pair_cross t + d * (15 * d + 68 * C) / (15 * d + 50 * C) /\
  pair_g t 1 (1 / 2) = 2 * pair_cross t + d * (3 * d + 5 * C) / (3 * d + 9 / 2 * C).
Proof.
  intros Ht d C. pose proof PI_RGT_0. destruct (pair_order t Ht) as [Ob Os]. assert (Pd : 0 < d) by (unfold d; lra). assert (Pc : 0 < C) by (unfold C; lra).
  unfold pair_g. fold d C. clearbody d C. repeat split; field; repeat split; lra.
Qed.
Lemma pair_values_differ t : 0 < t -> pair_g t (1 / 2) (1 / 4) <> pair_g t (3 / 4) (3 / 16) /\ pair_g t (1 / 2) (1 / 4) <> pair_g t 1 (1 / 2).
Proof.
  intros Ht. destruct (pair_values t Ht) as (E1 & E2 & E3). rewrite E1, E2, E3. pose proof PI_RGT_0. destruct (pair_order t Ht) as [Ob Os].
  set (d := pair_self t - pair_cross t) in *. set (C := 200 * PI) in *. assert (Pd : 0 < d) by (unfold d; lra). assert (Pc : 0 < C) by (unfold C; lra). clearbody d C.
  assert (0 < d * C) by (apply Rmult_lt_0_compat; auto). assert (0 < C * C) by (apply Rmult_lt_0_compat; auto). assert (0 < d * d) by (apply Rmult_lt_0_compat; auto).
  split; intros E; apply Rplus_eq_reg_l in E.
  - apply (f_equal (fun x => x * ((3 * d + 9 * C) * (15 * d + 50 * C)) / d)) in E.
    replace (d * (3 * d + 10 * C) / (3 * d + 9 * C) * ((3 * d + 9 * C) * (15 * d + 50 * C)) / d) with ((3 * d + 10 * C) * (15 * d + 50 * C)) in E by (field; lra).
    replace (d * (15 * d + 68 * C) / (15 * d + 50 * C) * ((3 * d + 9 * C) * (15 * d + 50 * C)) / d) with ((15 * d + 68 * C) * (3 * d + 9 * C)) in E by (field; lra).
    nra.
  - apply (f_equal (fun x => x * ((3 * d + 9 * C) * (3 * d + 9 / 2 * C)) / d)) in E.
    replace (d * (3 * d + 10 * C) / (3 * d + 9 * C) * ((3 * d + 9 * C) * (3 * d + 9 / 2 * C)) / d) with ((3 * d + 10 * C) * (3 * d + 9 / 2 * C)) in E by (field; lra).
    replace (d * (3 * d + 5 * C) / (3 * d + 9 / 2 * C) * ((3 * d + 9 * C) * (3 * d + 9 / 2 * C)) / d) with ((3 * d + 5 * C) * (3 * d + 9 * C)) in E by (field; lra).
    nra.
Qed.
