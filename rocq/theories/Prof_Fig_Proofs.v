From Coq Require Import String.
From Verif Require Import Base LinAlg FLS_Model.
From Verif Require Import Bore_Model Bore_Proofs Net_Model Net_Spec Solve_Model Solve_Spec Solve_Eq_Proofs Solve_Loop_Proofs Solve_Sol_Proofs Solve_Extra_Proofs Solve_Props Detailed_Model Detailed_Spec Detailed_Proofs Sim_Model Eq_Model Eq_Spec Sim_Cells_Proofs Eq_Block_Proofs Eq_Heat_Proofs GFun_Model GFun_Spec GFun_Eval_Proofs
  Prof_Model Prof_Spec Prof_Proofs Prof_Call_Proofs Prof_Main_Proofs Prof_Field_Proofs.
Local Open Scope string_scope.
Local Open Scope R_scope.
Local Notation no_eb := (EBore 0 0 0 [] [] 0 []).

(** ** Figures over time exist *)
Lemma time_figure_some V data iB n : (forall i, In i (requested V iB) -> exists rows y, data i = Some rows /\ nth_error rows n = Some y /\ List.length y = List.length (b_time V)) ->
  exists fig, time_figure V data iB n = Some fig.
Proof.
  intros D. unfold time_figure. destruct (all_some_ex data (requested V iB)) as [d E].
  { intros i I. destruct (D i I) as (rows & _ & E & _). eauto. }
  rewrite E. apply all_some_F2 in E.
  apply (draw_some (List.length (b_bores V)) (requested V iB) (fun i => option_map (fun rows => (log_times V (b_bores V), rows)) (data i))).
  - clear D. induction E; cbn; constructor; auto. rewrite H. reflexivity.
  - intros i x rows I Hi F. destruct (D i I) as (rows' & y & F1 & F2 & F3). rewrite F1 in F. cbn in F. injection F as <- <-. exists y. split; auto. rewrite log_length. auto.
Qed.

Section Calls.
  Variables (link : list R -> tree) (uw : list (R * R)) (c : call).

  Lemma requested_lt V iB i : (forall l j, iB = Some l -> In j l -> (j < List.length (b_bores V))%nat) -> In i (requested V iB) -> (i < List.length (b_bores V))%nat.
  Proof. intros H I. destruct iB as [l|]; [apply (H l i eq_refl I)|]. apply in_seq in I. lia. Qed.

  Lemma figures_some g V iB n : gfunction link uw c = Some g -> plain c \/ fluid c -> flow_index g n -> evaluated link uw c = Some V ->
    (forall l j, iB = Some l -> In j l -> (j < List.length (b_bores V))%nat) ->
    (exists fig, heat_figure link uw true c iB n = Some fig) /\ exists fig, temperature_figure link uw true c iB n = Some fig.
  Proof.
    intros G Ok N E Hl. pose proof (flow_rows _ _ _ _ _ _ E G Ok N) as Fr.
    destruct (evaluated_parts _ _ _ _ E) as (q & s & y & g' & r & _ & _ & _ & _ & _ & _ & _ & _ & _ & _ & St).
    pose proof (stored_lengths _ _ _ _ _ _ _ St) as L. unfold heat_figure, temperature_figure, on. rewrite E.
    split; apply time_figure_some; intros i I; pose proof (requested_lt _ _ _ Hl I) as Hi; unfold heat_rates, temperatures, there; rewrite (proj2 (Nat.ltb_lt _ _) Hi);
      destruct (b_stored V) as [T|Q T|Q T].
    - destruct Fr as [-> ->]. cbn [Nat.eqb]. exists [repeat 1 (List.length (b_time V))], (repeat 1 (List.length (b_time V))). rewrite repeat_length. auto.
    - destruct Fr as [-> ->]. cbn [Nat.eqb]. exists [average V i Q], (average V i Q). rewrite average_length. repeat split; auto. tauto.
    - destruct Fr as [F1 F2]. exists (map (average V i) Q), (average V i (nth n Q [])). rewrite average_length. repeat split.
      + apply map_nth_error, nth_error_nth'; auto.
      + destruct L as (_ & _ & L & _). apply L, nth_In; auto.
    - destruct Fr as [-> ->]. cbn [Nat.eqb]. exists [average V i T], (average V i T). rewrite average_length. auto.
    - destruct Fr as [-> ->]. cbn [Nat.eqb]. exists [T], T. repeat split; auto. tauto.
    - destruct Fr as [F1 F2]. exists (map (average V i) T), (average V i (nth n T [])). rewrite average_length. repeat split.
      + apply map_nth_error, nth_error_nth'; auto.
      + destruct L as (_ & _ & _ & L). apply L, nth_In; auto.
  Qed.

  Lemma lmax_bores V : evaluated link uw c = Some V -> (0 < List.length (boreholes_of c))%nat.
  Proof.
    intros E. destruct (evaluated_parts _ _ _ _ E) as (q & s & y & g' & r & K & _ & _ & _ & Lm & _). destruct (construct_parts _ _ _ K) as (B & _).
    rewrite B in Lm. destruct (boreholes_of c); [discriminate Lm|cbn; lia].
  Qed.

  Lemma Rsum_bH bs : Rsum (map bH bs) = sumn (List.length bs) (fun i => bH (nth i bs no_bore)).
  Proof. rewrite Rsum_sumn, map_length. apply sumn_ext. intros i Hi. apply nth_map; auto. Qed.


  (** the energy of each flow *)
  Lemma heat_each n fig t : each_borehole c -> sound c -> has_times c t -> heat_figure link uw true c None n = Some fig ->
    map fst fig = seq 0 (List.length (boreholes_of c)) /\ forall p, (p < List.length t)%nat -> field_average (boreholes_of c) fig p = 1.
  Proof.
    intros Ea [Sg [Gr Hs]] Ht F. unfold heat_figure, on in F. destruct (evaluated link uw c) as [V|] eqn:E; [|discriminate F].
    destruct (evaluated_parts _ _ _ _ E) as (q & s & y & g' & r & K & _ & _ & T & _ & Y & _ & _ & _ & _ & St). unfold has_times in Ht. rewrite Ht in T. injection T as ->.
    destruct (each_parts _ _ _ _ E Ea) as (B1 & B2 & B3 & _). destruct (each_system link uw c q s y Ea K Y) as [Y1 Y2].
    pose proof (lmax_bores V E) as Nb. rewrite <- B1 in Sg, Nb. rewrite <- B2, <- B3 in Sg. rewrite <- B3 in Gr.
    split.
    - destruct (time_figure_curves V (heat_rates V) None n fig F) as [M _]. rewrite M, all_requested, B1. auto.
    - intros p Hp. unfold field_average. apply (Rmult_eq_reg_r (Rsum (map bH (boreholes_of c)))); auto. unfold Rdiv. rewrite Rmult_assoc, Rinv_l by auto. rewrite Rmult_1_r, Rmult_1_l.
      rewrite Rsum_bH. rewrite <- B1.
      assert (W : forall i u, (i < List.length (b_bores V))%nat -> (u < nth i (b_n V) O)%nat -> y_H y (first (b_n V) i + u)%nat = bH (nth i (b_bores V) no_bore) * nth u (nth i (b_r V) []) 0).
      { intros i u Hi Hu. rewrite Y2, <- B1, <- B2, <- B3. apply segment_lengths; auto. }
      assert (Ls : list_sum (b_n V) = y_n y) by (rewrite Y1, <- B1, <- B2, <- B3; symmetry; apply sources_sum; auto).
      exact (heat_mean V (fun i => bH (nth i (b_bores V) no_bore)) (y_H y) Sg Gr W _ _ _ y _ n fig p Ls eq_refl Nb St F Hp).
  Qed.

  Lemma stored_uniform bc k_s rows y time thr T : solve_stored bc k_s rows y time thr = Some (Uniform T) -> bc = "UHTR" /\ T = snd (solve_uhtr (y_n y) (y_H y) (at_times (y_h y)) time thr).
  Proof. intros E. destruct (stored_balance _ _ _ _ _ _ _ E). auto. Qed.

  Lemma solve_g bc k_s k rows y time thr g d : solve bc k_s k rows y time thr = Some (G1 g) -> solve_stored bc k_s rows y time thr = Some d ->
    match d with
    | Uniform T => g = fst (solve_uhtr (y_n y) (y_H y) (at_times (y_h y)) time thr)
    | Wall Q T => g = T
    | Mixed _ _ => True
    end.
  Proof.
    unfold solve, solve_stored. destruct (defined_at _ _); [|discriminate]. destruct (String.eqb bc "UHTR"); [intros E1 E2; injection E1 as <-; injection E2 as <-; auto|].
    destruct (String.eqb bc "UBWT"); [destruct (solve_ubwt _ _ _ _ _) as [[Q T]|]; [|discriminate]; cbn; intros E1 E2; injection E1 as <-; injection E2 as <-; auto|].
    intros _. destruct (Net_Model.all_some _); [|discriminate]. destruct (solve_mift _ _ _ _ _ _ _ _) as [[[g0 Q] T]|]; [|discriminate]. intros E. injection E as <-. auto.
  Qed.

  Lemma bc_resolved q s : construct c = Some (q, s) -> q_bc q = boundary c.
  Proof.
    intros K. destruct (construct_parts _ _ _ K) as (_ & _ & _ & _ & _ & _ & _ & Rs & _). unfold resolve in Rs. unfold boundary.
    destruct (c_bc c), (c_source c); 
    repeat match type of Rs with context [if ?b then _ else _] => destruct b in Rs | context [match ?x with Some _ => _ | None => _ end] => destruct x in Rs end; try discriminate Rs; injection Rs as <-; auto.
  Qed.

  (** the mean of the wall temperatures for uniform heat extraction rates *)
  Lemma wall_mean g n fig t : boundary c = "UHTR" -> each_borehole c -> sound c -> has_times c t -> gfunction link uw c = Some (G1 g) -> temperature_figure link uw true c None n = Some fig ->
    map fst fig = seq 0 (List.length (boreholes_of c)) /\ forall p, (p < List.length t)%nat -> field_average (boreholes_of c) fig p = nth p g 0.
  Proof.
    intros Bc Ea [Sg [Gr Hs]] Ht G F. unfold temperature_figure, on in F. destruct (evaluated link uw c) as [V|] eqn:E; [|discriminate F].
    destruct (evaluated_parts _ _ _ _ E) as (q & s & y & g' & r & K & G' & Ee & T & Lm & Y & _ & _ & _ & _ & St). unfold has_times in Ht. rewrite Ht in T. injection T as ->.
    rewrite G in G'. injection G' as <-. unfold evaluate in Ee. rewrite Ht, Lm, Y in Ee. pose proof (solve_g _ _ _ _ _ _ _ _ _ Ee St) as Eg.
    pose proof (bc_resolved _ _ K) as Eb. rewrite Eb, Bc in St. unfold solve_stored in St. cbn [String.eqb Ascii.eqb Bool.eqb] in St. injection St as Ed. rewrite <- Ed in Eg.
    destruct (each_parts _ _ _ _ E Ea) as (B1 & B2 & B3 & _). destruct (each_system link uw c q s y Ea K Y) as [Y1 Y2].
    rewrite <- B1 in Sg. rewrite <- B2, <- B3 in Sg. rewrite <- B3 in Gr.
    destruct (time_figure_curves V (temperatures V) None n fig F) as [M C]. rewrite all_requested in M.
    split; [rewrite M, B1; auto|]. intros p Hp.
    assert (W : forall i u, (i < List.length (b_bores V))%nat -> (u < nth i (b_n V) O)%nat -> y_H y (first (b_n V) i + u)%nat = bH (nth i (b_bores V) no_bore) * nth u (nth i (b_r V) []) 0).
    { intros i u Hi Hu. rewrite Y2, <- B1, <- B2, <- B3. apply segment_lengths; auto. }
    assert (Ls : list_sum (b_n V) = y_n y) by (rewrite Y1, <- B1, <- B2, <- B3; symmetry; apply sources_sum; auto).
    unfold field_average. rewrite <- B1.
    set (TT := snd (solve_uhtr (y_n y) (y_H y) (at_times (y_h y)) (b_time V) (time_threshold r (c_alpha c) (o_thr (c_options c))))) in *.
    rewrite (curves_mean V (fun i => bH (nth i (b_bores V) no_bore)) (y_H y) Sg W fig (nth p TT zero_vec) p M).
    - rewrite Eg. rewrite uhtr_mean by auto. fold TT. rewrite Ls. f_equal. rewrite <- Ls, (weight_total V Sg _ _ Gr W), Rsum_bH. auto.
    - intros i cv I. destruct (C i cv I) as [Hi [rw [yy [E1 [E2 [E3 E4]]]]]]. pose proof (temperature_value V Sg i rw yy n p Hi E1 E2 E3 Hp) as HV. rewrite <- Ed in HV.
      rewrite E4, height_combine by (rewrite ?log_length; auto; rewrite E3; auto). tauto.
  Qed.

  (** a uniform wall temperature is the g-function, for all methods *)
  Lemma wall_uniform g V iB n fig : evaluated link uw c = Some V -> gfunction link uw c = Some (G1 g) -> temperature_figure link uw true c iB n = Some fig ->
    boundary c = "UBWT" -> forall i cv p, In (i, cv) fig -> (p < List.length (b_time V))%nat -> List.length cv = List.length (b_time V) /\ height cv p = nth p g 0.
  Proof.
    intros E G F Bc i cv p I Hp. unfold temperature_figure, on in F. rewrite E in F.
    destruct (evaluated_parts _ _ _ _ E) as (q & s & y & g' & r & K & G' & Ee & T & Lm & Y & _ & _ & _ & _ & St).
    rewrite G in G'. injection G' as <-. unfold evaluate in Ee. rewrite T, Lm, Y in Ee. pose proof (solve_g _ _ _ _ _ _ _ _ _ Ee St) as Eg.
    pose proof (bc_resolved _ _ K) as Eb. rewrite Eb, Bc in St. unfold solve_stored in St. cbn [String.eqb Ascii.eqb Bool.eqb] in St. destruct (solve_ubwt _ _ _ _ _) as [[Q TT]|]; [|discriminate St]. injection St as Ed.
    rewrite <- Ed in Eg. subst TT. destruct (time_figure_curves V (temperatures V) iB n fig F) as [M C].
    destruct (C i cv I) as [Hi [rw [yy [E1 [E2 [E3 E4]]]]]]. unfold temperatures in E1. rewrite <- Ed in E1.
    destruct (Nat.eqb (b_k V) 0); [|discriminate E1]. injection E1 as <-. destruct n as [|n]; [|destruct n; discriminate E2]. injection E2 as <-. cbn [snd] in E3, E4.
    rewrite E4. split; [rewrite combine_length, log_length, E3; lia|]. apply height_combine; rewrite ?log_length; auto. rewrite E3. auto.
  Qed.

  (** ** Groups *)
  Lemma eb_seg_count e n r a : List.length (eori e) = List.length (ex e) -> (a < List.length r)%nat ->
    let s := nth a (eb_segments e n (Some r)) no_eb in eH s = nth a r 0 * eH e /\ List.length (ex s) = List.length (ex e).
  Proof.
    intros L Ha s. unfold s, eb_segments, eb_edges. cbn [default_ratios].
    assert (Lc : List.length (cumsum r) = List.length r) by (unfold cumsum; apply cumsum_from_length).
    assert (Lm : List.length (removelast (map (fun z => z * eH e) (0 :: cumsum r))) = List.length r).
    { rewrite removelast_firstn_len, firstn_length, map_length. cbn [List.length]. lia. }
    rewrite (nth_map _ _ _ (0, 0)) by (rewrite combine_length; lia). rewrite combine_nth by auto. cbn [eH ex].
    split; auto. rewrite map_length, combine_length. lia.
  Qed.

  Lemma group_lengths E n r i a : (forall e, In e E -> List.length (eori e) = List.length (ex e)) -> List.length r = n -> (i < List.length E)%nat -> (a < n)%nat ->
    eq_lengths E n r (n * i + a)%nat = group_length (nth i E no_eb) * nth a r 0.
  Proof.
    intros W Lr Hi A. unfold eq_lengths. rewrite Nat.mul_comm, (nth_flat _ n E i a no_eb 0); auto.
    - rewrite (nth_map _ _ _ no_eb) by (rewrite eb_seg_length; lia). unfold count, group_length.
      destruct (eb_seg_count (nth i E no_eb) n r a) as [-> ->]; [apply W, nth_In; auto|lia|]. ring.
    - intros x _. rewrite map_length, eb_seg_length; auto.
  Qed.

  Lemma groups_well link' k tol bs E : equivalent_boreholes link' k tol bs = Some E -> forall e, In e E -> List.length (eori e) = List.length (ex e).
  Proof.
    unfold equivalent_boreholes. destruct (clusters _ _ _ _) as [ls m]. intros X e I.
    assert (Y : Net_Model.all_some (map (fun i => eb_of_bores (members bs ls i)) (seq 0 m)) = Some E) by (rewrite <- X; clear; induction (seq 0 m) as [|x l IH]; auto).
    apply all_some_F2 in Y. destruct (F2_in_r _ _ _ _ Y I) as [a [_ Z]]. unfold eb_of_bores in Z. destruct (members bs ls a) as [|b l]; [discriminate Z|]. injection Z as <-. cbn. now rewrite !map_length.
  Qed.

  Lemma first_repeat n m i : (i < m)%nat -> first (repeat n m) i = (n * i)%nat.
  Proof.
    unfold first. revert i. induction m as [|m IH]; intros i Hi; [lia|]. destruct i as [|i]; cbn [repeat firstn]; [unfold list_sum; cbn; lia|].
    change (list_sum (n :: firstn i (repeat n m))) with (n + list_sum (firstn i (repeat n m)))%nat. rewrite IH by lia. lia.
  Qed.

  Lemma sum_repeat n m : list_sum (repeat n m) = (n * m)%nat.
  Proof. induction m as [|m IH]; cbn [repeat]; [unfold list_sum; cbn; lia|]. change (list_sum (n :: repeat n m)) with (n + list_sum (repeat n m))%nat. lia. Qed.

  Lemma heat_groups E n fig t : grouped link c E -> segmented (boreholes_of c) (segments_of c) (ratios_of c) -> good_ratios (ratios_of c) -> Rsum (map group_length E) <> 0 ->
    has_times c t -> heat_figure link uw true c None n = Some fig ->
    map fst fig = seq 0 (List.length E) /\ forall p, (p < List.length t)%nat -> group_average E fig p = 1.
  Proof.
    intros [[q0 [s0 [K0 Em]]] EE] Sg Gr Hs Ht F. unfold heat_figure, on in F. destruct (evaluated link uw c) as [V|] eqn:Ev; [|discriminate F].
    pose proof (lmax_bores V Ev) as Nb.
    destruct (evaluated_parts _ _ _ _ Ev) as (q & s & y & g' & r & K & _ & _ & T & _ & Y & Sb & _ & _ & _ & St). unfold has_times in Ht. rewrite Ht in T. injection T as ->.
    rewrite K in K0. injection K0 as <- <-. destruct (construct_parts _ _ _ K) as (A1 & A2 & A3 & _).
    unfold solver_boreholes in Sb. rewrite Em, A1, EE in Sb. cbn [lower String.eqb option_map] in Sb. change (String.eqb (lower "equivalent") "equivalent") with true in Sb. cbv iota in Sb. injection Sb as B1 B2 B3.
    destruct Sg as [Ln [Lr Sg]]. pose proof (Sg O Nb) as Sg0.
    assert (H0 : hd O (v_n s) = nth 0 (segments_of c) O) by (rewrite A2; destruct (segments_of c); auto).
    assert (H1 : hd [] (v_r s) = nth 0 (ratios_of c) []) by (rewrite A3; destruct (ratios_of c); auto).
    set (m := hd O (v_n s)) in *. set (rr := hd [] (v_r s)) in *. assert (Lrr : List.length rr = m) by congruence.
    destruct (Gr rr) as [G1 G2]; [rewrite H1; apply nth_In; lia|].
    assert (Y' : y_n y = (m * List.length E)%nat /\ y_H y = eq_lengths E m rr).
    { unfold make_system in Y. rewrite Em in Y. change (String.eqb (lower "equivalent") "detailed") with false in Y. change (String.eqb (lower "equivalent") "similarities") with false in Y. cbv iota in Y.
      unfold equivalent_system in Y. rewrite A1 in Y. unfold equivalent in Y. rewrite EE in Y. fold m rr in Y.
      destruct (field_distances _ _) as [ds|]; [|discriminate Y].
      destruct (String.eqb (q_bc q) "MIFT"); [|injection Y as <-; auto].
      destruct (q_net q); [|discriminate Y]. destruct (build_net _ _); [|discriminate Y]. destruct (first_pipes _ _ _); [|discriminate Y]. injection Y as <-. auto. }
    destruct Y' as [Y1 Y2]. clearbody m rr. pose proof (groups_well _ _ _ _ _ EE) as W.
    assert (LB : List.length (b_bores V) = List.length E) by (rewrite <- B1; apply map_length).
    assert (Hn : forall i, (i < List.length E)%nat -> nth i (b_n V) O = m) by (intros i Hi; rewrite <- B2, (nth_indep _ O m) by (rewrite repeat_length; auto); apply nth_repeat).
    assert (Hr : forall i, (i < List.length E)%nat -> nth i (b_r V) [] = rr) by (intros i Hi; rewrite <- B3, (nth_indep _ [] rr) by (rewrite repeat_length; auto); apply nth_repeat).
    assert (Sg' : segmented (b_bores V) (b_n V) (b_r V)).
    { split; [rewrite LB, <- B2, repeat_length; auto|]. split; [rewrite LB, <- B3, repeat_length; auto|]. intros b Hb. rewrite LB in Hb. rewrite Hn, Hr; auto. }
    assert (Gr' : good_ratios (b_r V)) by (intros x Hx; rewrite <- B3 in Hx; apply repeat_spec in Hx; subst x; auto).
    assert (Wt : forall i u, (i < List.length (b_bores V))%nat -> (u < nth i (b_n V) O)%nat -> y_H y (first (b_n V) i + u)%nat = group_length (nth i E no_eb) * nth u (nth i (b_r V) []) 0).
    { intros i u Hi Hu. rewrite LB in Hi. rewrite Hn in Hu by auto. rewrite Hr by auto. rewrite Y2, <- B2, first_repeat by auto. apply group_lengths; auto. }
    assert (Ls : list_sum (b_n V) = y_n y) by (rewrite Y1, <- B2; apply sum_repeat).
    assert (NE : (0 < List.length (b_bores V))%nat).
    { rewrite LB. destruct E; [|cbn; lia]. exfalso. apply Hs. reflexivity. }
    split.
    - destruct (time_figure_curves V (heat_rates V) None n fig F) as [M _]. rewrite M, all_requested, LB. auto.
    - intros p Hp. unfold group_average. apply (Rmult_eq_reg_r (Rsum (map group_length E))); auto. unfold Rdiv. rewrite Rmult_assoc, Rinv_l by auto. rewrite Rmult_1_r, Rmult_1_l.
      rewrite (Rsum_sumn (map group_length E)), map_length. rewrite (sumn_ext _ _ (fun i => group_length (nth i E no_eb))) by (intros i Hi; apply nth_map; auto). rewrite <- LB.
      exact (heat_mean V (fun i => group_length (nth i E no_eb)) (y_H y) Sg' Gr' Wt _ _ _ y _ n fig p Ls eq_refl NE St F Hp).
  Qed.
End Calls.
