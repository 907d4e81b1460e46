(** Uniform heat extraction rates with each method; the uniform wall temperature of
    equivalent boreholes. *)
From Coq Require Import String.
From Verif Require Import Base LinAlg FLS_Model.
From Verif Require Import Bore_Model Net_Model Solve_Model Solve_Spec Solve_Loop_Proofs Solve_Eq_Proofs Solve_Sol_Proofs Detailed_Model Detailed_Spec Detailed_Proofs Detailed_Sol_Proofs
  Sim_Model Sim_Spec Eq_Model Eq_Spec Eq_Final_Proofs Eq_Props GFun_Model GFun_Spec GFun_Causal_Proofs GFun_Eval_Proofs GFun_Methods_Proofs.
Local Open Scope R_scope.

Lemma long_positive time thr : 0 < thr -> sorted time -> positive (time_long time thr).
Proof.
  intros T S t I. unfold time_long in I. destruct (Nat.ltb_spec 0 (p_long time thr)) as [L|L].
  - destruct I as [<-|I]; auto. apply (In_nth _ _ 0) in I as [k [Hk <-]]. rewrite skipn_length in Hk. rewrite nth_skipn.
    assert (thr < nth (p_long time thr + k) time 0) by (apply right_above; auto; unfold p_long in *; lia). lra.
  - apply (In_nth _ _ 0) in I as [k [Hk <-]]. assert (thr < nth k time 0) by (apply right_above; auto; unfold p_long in *; lia). lra.
Qed.

(** from single times to a grid *)
Lemma uhtr_points n H resp f time thr k : (forall t, 0 < t -> nth 0 (fst (solve_uhtr n H (Solve_Spec.on_grid resp) [t] 0)) 0 = f t) ->
  sorted time -> 0 < thr -> (k < length time)%nat ->
  nth k (fst (solve_uhtr n H (Solve_Spec.on_grid resp) time thr)) 0 = if Rleb (nth k time 0) thr then f thr * nth k time 0 / thr else f (nth k time 0).
Proof.
  intros F S T Hk.
  assert (P : forall t, 0 < t -> sumn n (fun i => sumn n (fun j => resp i j t) * H i) / sumn n H = f t).
  { intros t Ht. rewrite <- F by auto. rewrite uhtr_zero by (intros x [<-|[]]; auto). cbn [fst length seq map nth]. reflexivity. }
  rewrite uhtr_run. cbn [fst]. pose proof (long_positive time thr T S) as Pl.
  assert (G : forall j, (j < length (time_long time thr))%nat -> g_of n H (Solve_Spec.on_grid resp (time_long time thr)) j = f (nth j (time_long time thr) 0)).
  { intros j Hj. rewrite <- P by (apply Pl, nth_In; auto). reflexivity. }
  pose proof (long_length time thr) as LL. pose proof (right_le time thr) as RL. fold (p_long time thr) in RL.
  rewrite lin_nth by (rewrite ?map_length, ?seq_length; auto).
  destruct (Nat.ltb_spec k (p_long time thr)) as [L|L].
  - assert (nth k time 0 <= thr) by (apply right_below; auto). rewrite (proj2 (Rleb_true _ _)) by auto.
    assert (0 < length (time_long time thr))%nat by (unfold p_zero in LL; lia).
    rewrite nth_map_seq, G by auto. unfold time_long. replace (Nat.ltb 0 (p_long time thr)) with true by (symmetry; apply Nat.ltb_lt; lia). auto.
  - assert (thr < nth k time 0) by (apply right_above; auto). rewrite (proj2 (Rleb_false _ _)) by lra.
    destruct (long_nth time thr k L Hk) as [L1 L2]. rewrite nth_map_seq, G by auto. rewrite L2. auto.
Qed.

Section Fields.
  Variables (link : list R -> tree) (uw : list (R * R)) (c : call) (thr : R).
  Hypothesis Alpha : 0 < c_alpha c.
  Hypothesis Th : threshold_of c thr.
  Hypothesis Tp : 0 < thr.

  Lemma started_nth l f k : (k < length l)%nat ->
    (if Rleb (nth k (map (fun x => Rmax x 0) l) 0) thr then f thr * nth k (map (fun x => Rmax x 0) l) 0 / thr else f (nth k (map (fun x => Rmax x 0) l) 0))
    = started f thr (nth k l 0).
  Proof.
    intros Hk. rewrite (nth_map _ _ k 0) by auto. unfold started. set (x := nth k l 0).
    destruct (Rleb (Rmax x 0) thr) eqn:E1, (Rleb x thr) eqn:E2; auto.
    - apply Rleb_true in E1. apply Rleb_false in E2. pose proof (Rmax_l x 0). lra.
    - apply Rleb_false in E1. apply Rleb_true in E2. assert (Rmax x 0 <= thr) by (apply Rmax_lub; lra). lra.
    - apply Rleb_false in E2. rewrite Rmax_left; auto. lra.
  Qed.

  (** what the object of uniform heat extraction rates gives for a system with a known mean response *)
  Lemma uhtr_object l q s y f : construct (with_time (with_bc c (Some "UHTR"%string)) (VArr [])) = Some (q, s) ->
    make_system link uw (with_bc c (Some "UHTR"%string)) q s = Some y ->
    (forall t, 0 < t -> exists m, y_h y t = Some m) ->
    (forall t, 0 < t -> nth 0 (fst (solve_uhtr (y_n y) (y_H y) (at_times (y_h y)) [t] 0)) 0 = f t) ->
    times (VArr l) <> None ->
    exists g, gfunction link uw (with_time (with_bc c (Some "UHTR"%string)) (VArr l)) = Some (G1 g) /\ length g = length l /\
      forall k, (k < length l)%nat -> nth k g 0 = started f thr (nth k l 0).
  Proof.
    intros Ec Ey Dy Fy Nt. rewrite gfunction_arr, Ec. unfold evaluate. destruct (times (VArr l)) as [t|] eqn:Et; [|contradiction].
    destruct (times_some _ _ Et) as [Em [Nl [So Po]]]. rewrite Ey. destruct Th as [r [Er Eth]].
    rewrite (construct_boreholes _ _ _ Ec). change (boreholes_of (with_time (with_bc c (Some "UHTR"%string)) (VArr []))) with (boreholes_of c). rewrite Er.
    assert (B : q_bc q = "UHTR"%string).
    { unfold construct in Ec. destruct (resolve _) as [q0|] eqn:Eq; [|discriminate]. destruct (check _ q0); [|discriminate]. destruct (make_solver _ q0); [|discriminate].
      injection Ec as -> _. unfold resolve in Eq. cbn [with_time with_bc c_source c_bc c_mb c_mn c_cp c_method] in Eq. cbv zeta in Eq. cbn [String.eqb Ascii.eqb Bool.eqb andb] in Eq. injection Eq as <-. auto. }
    unfold solve. rewrite B. change (String.eqb "UHTR" "UHTR") with true. cbv iota.
    change (c_alpha (with_bc c (Some "UHTR"%string))) with (c_alpha c). change (c_options (with_bc c (Some "UHTR"%string))) with (c_options c).
    rewrite <- Eth.
    assert (D : defined_at (y_h y) (time_long t thr) = true).
    { apply forallb_forall. intros x Hx. pose proof (long_positive t thr Tp So x Hx) as Px. destruct (Dy x Px) as [m ->]. auto. }
    rewrite D. eexists. split; [reflexivity|]. split; [rewrite uhtr_length, Em, map_length; auto|].
    intros k Hk. rewrite at_times_grid in *. rewrite (uhtr_points _ _ _ f) by (auto; rewrite Em, map_length; auto). rewrite Em. apply started_nth; auto.
  Qed.

  Local Notation U := (with_time (with_bc c (Some "UHTR"%string)) (VArr [])).

  Lemma uhtr_request q s : construct U = Some (q, s) -> q_method q = c_method c /\ q_bs q = boreholes_of c /\ v_n s = segments_of c /\ v_r s = ratios_of c /\ q_bc q = "UHTR"%string.
  Proof.
    intros Ec. pose proof (construct_boreholes _ _ _ Ec) as Eb. destruct (make_segments _ _ _ Ec) as [En Er]. unfold construct in Ec.
    destruct (resolve U) as [q0|] eqn:Eq; [|discriminate]. destruct (check U q0); [|discriminate]. destruct (make_solver _ q0); [|discriminate]. injection Ec as -> ->.
    unfold resolve in Eq. cbn [with_time with_bc c_source c_bc c_mb c_mn c_cp c_method] in Eq. cbv zeta in Eq. cbn [String.eqb Ascii.eqb Bool.eqb andb] in Eq. injection Eq as <-. auto.
  Qed.

  Lemma uhtr_detailed l : c_method c = "detailed"%string -> construct U <> None -> times (VArr l) <> None ->
    segmented (boreholes_of c) (segments_of c) (ratios_of c) -> vertical_field (boreholes_of c) -> good_ratios (ratios_of c) ->
    exists g, gfunction link uw (with_time (with_bc c (Some "UHTR"%string)) (VArr l)) = Some (G1 g) /\ length g = length l /\
      forall k, (k < length l)%nat -> nth k g 0 = started (fun t => field_mean (c_alpha c) t (boreholes_of c)) thr (nth k l 0).
  Proof.
    intros Em Nc Nt Sg Vf Gr. destruct (construct U) as [[q s]|] eqn:Ec; [|contradiction]. destruct (uhtr_request q s Ec) as [Mq [Bq [Nq [Rq _]]]].
    eapply (uhtr_object l q s); eauto.
    - unfold make_system. rewrite Mq, Em. change (String.eqb (lower "detailed") "detailed") with true. cbv iota. reflexivity.
    - intros t Ht. eexists. reflexivity.
    - intros t Ht. unfold detailed_system. cbn [y_n y_H y_h with_bc c_alpha]. rewrite Bq, Nq, Rq.
      exact (uhtr_field (boreholes_of c) (segments_of c) (ratios_of c) Sg Vf Gr (c_alpha c) uw [t] 0 Alpha (fun x Hx => match Hx with or_introl E => eq_ind _ (fun z => 0 < z) Ht _ E | or_intror F => match F with end end) (Nat.lt_0_succ 0)).
  Qed.

  Lemma uhtr_equivalent_object l u M n r : c_method c = "equivalent"%string -> construct U <> None -> times (VArr l) <> None ->
    agglomerative link -> sharp_equivalent c u M n r ->
    exists g, gfunction link uw (with_time (with_bc c (Some "UHTR"%string)) (VArr l)) = Some (G1 g) /\ length g = length l /\
      forall k, (k < length l)%nat -> nth k g 0 = started (fun t => field_mean (c_alpha c) t (boreholes_of c)) thr (nth k l 0).
  Proof.
    intros Em Nc Nt Ag [S1 [S2 [S3 S4]]]. destruct (construct U) as [[q s]|] eqn:Ec; [|contradiction]. destruct (uhtr_request q s Ec) as [Mq [Bq [Nq [Rq Cq]]]].
    destruct (C82_field link (o_k (c_options c)) (o_tol (c_options c)) (o_disTol (c_options c)) u M (c_alpha c) (boreholes_of c) n r Ag S3 S4 Alpha) as [E [L [h [Ee Ve]]]].
    destruct (C81_exact link (o_k (c_options c)) (o_tol (c_options c)) (o_disTol (c_options c)) u M (c_alpha c) (boreholes_of c) n r Ag S3 S4 Alpha) as [ls [E' [L' [h' [Ee' [_ He]]]]]].
    rewrite Ee in Ee'. injection Ee' as <- <- <-.
    assert (Hn : hd O (v_n s) = n /\ hd [] (v_r s) = r).
    { rewrite Nq, Rq, S1, S2. destruct S3 as [Lb _]. destruct (length (boreholes_of c)); [lia|]. auto. }
    destruct Hn as [Hn Hr].
    eapply (uhtr_object l q s); eauto.
    - unfold make_system. rewrite Mq, Em. change (String.eqb (lower "equivalent") "detailed") with false. change (String.eqb (lower "equivalent") "similarities") with false. cbv iota.
      unfold equivalent_system. cbn [with_bc c_alpha c_options]. rewrite Hn, Hr, Bq, Ee, Cq. cbv zeta. reflexivity.
    - intros t Ht. cbn [y_h]. destruct (He t uw Ht) as [m [Hm _]]. exists m. auto.
    - intros t Ht. cbn [y_n y_H y_h]. apply (Ve [t] O); [intros x [<-|[]]; auto|cbn; lia].
  Qed.
End Fields.
