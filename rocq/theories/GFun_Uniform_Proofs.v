(** The uniform wall temperature of equivalent boreholes. *)
From Coq Require Import String.
From Verif Require Import Base LinAlg FLS_Model.
From Verif Require Import Bore_Model Net_Model Solve_Model Solve_Spec Solve_Loop_Proofs Solve_Eq_Proofs Solve_Sol_Proofs Detailed_Model Detailed_Spec Detailed_Proofs Detailed_Sol_Proofs
  Sim_Model Sim_Spec Eq_Model Eq_Spec Eq_Final_Proofs Eq_Props GFun_Model GFun_Spec GFun_Causal_Proofs GFun_Eval_Proofs GFun_Methods_Proofs GFun_Field_Proofs.
Local Open Scope R_scope.

Lemma long_grid time thr : time <> [] -> 0 < thr -> sorted time -> no_repeats thr time -> grid (time_long time thr).
Proof.
  intros Ne T So N. pose proof (long_positive time thr T So) as P. pose proof (long_length time thr) as LL. pose proof (right_le time thr) as RL. fold (p_long time thr) in RL.
  split.
  - unfold time_long. destruct (Nat.ltb 0 (p_long time thr)); [discriminate|auto].
  - intros k Hk. destruct k as [|k].
    + unfold at_time. cbn. apply P, nth_In. auto.
    + rewrite !at_Sn. unfold time_long in *. destruct (Nat.ltb_spec 0 (p_long time thr)) as [L|L].
      * cbn [length] in Hk. rewrite skipn_length in Hk. cbn [nth]. rewrite nth_skipn.
        assert (A : thr < nth (p_long time thr + k) time 0) by (apply right_above; auto; unfold p_long in *; lia).
        destruct k as [|k]; [exact A|]. rewrite nth_skipn. replace (p_long time thr + S k)%nat with (S (p_long time thr + k)) in * by lia. apply N; auto. lia.
      * assert (A : thr < nth (S k) time 0) by (apply right_above; auto; unfold p_long in *; lia). apply N; auto.
Qed.

Lemma clamp_repeats thr l : 0 < thr -> no_repeats thr l -> no_repeats thr (map (fun x => Rmax x 0) l).
Proof.
  intros Tp Nr k Hk. rewrite map_length in Hk. rewrite !(nth_map _ _ _ 0) by lia. intros A.
  assert (B : thr < nth (S k) l 0) by (unfold Rmax in A; destruct (Rle_dec (nth (S k) l 0) 0); lra).
  pose proof (Nr k Hk B). unfold Rmax. repeat destruct (Rle_dec _ _); lra.
Qed.

Lemma ubwt_transfer n H trf n' H' trf' time thr Q g : positive (time_long time thr) ->
  (forall Q g, solve_ubwt n H trf (time_long time thr) 0 = Some (Q, g) -> exists Q', solve_ubwt n' H' trf' (time_long time thr) 0 = Some (Q', g)) ->
  solve_ubwt n H trf time thr = Some (Q, g) -> exists Q', solve_ubwt n' H' trf' time thr = Some (Q', g).
Proof.
  intros P T. rewrite !ubwt_run. rewrite (ubwt_zero n H trf), (ubwt_zero n' H' trf') in T by auto.
  destruct (grun n trf _ _ _ _) as [[a b]|] eqn:E; [|discriminate]. intros EE. injection EE as <- <-.
  destruct (T a b eq_refl) as [a' E']. rewrite E'. eexists. reflexivity.
Qed.

Section Uniform.
  Variables (link : list R -> tree) (uw : list (R * R)) (c : call) (thr u M : R) (n : nat) (r : list R).
  Hypothesis Alpha : 0 < c_alpha c.
  Hypothesis Th : threshold_of c thr.
  Hypothesis Tp : 0 < thr.
  Hypothesis Ag : agglomerative link.
  Hypothesis Sh : sharp_equivalent c u M n r.
  Hypothesis Ef : equitable_field link c.
  Local Notation W m l := (with_time (with_method (with_bc c (Some "UBWT"%string)) m) (VArr l)).

  Lemma ubwt_request m q s : construct (W m []) = Some (q, s) -> q_method q = m /\ q_bs q = boreholes_of c /\ v_n s = segments_of c /\ v_r s = ratios_of c /\ q_bc q = "UBWT"%string.
  Proof.
    intros Ec. pose proof (construct_boreholes _ _ _ Ec) as Eb. destruct (make_segments _ _ _ Ec) as [En Er]. unfold construct in Ec.
    destruct (resolve (W m [])) as [q0|] eqn:Eq; [|discriminate]. destruct (check (W m []) q0); [|discriminate]. destruct (make_solver _ q0); [|discriminate]. injection Ec as -> ->.
    unfold resolve in Eq. cbn [with_time with_bc with_method c_source c_bc c_mb c_mn c_cp c_method] in Eq. cbv zeta in Eq. cbn [String.eqb Ascii.eqb Bool.eqb andb] in Eq. injection Eq as <-. auto.
  Qed.

  Lemma ubwt_equivalent_object l g : construct (W "equivalent" []) <> None -> no_repeats thr l ->
    gfunction link uw (W "detailed" l) = Some (G1 g) -> gfunction link uw (W "equivalent" l) = Some (G1 g).
  Proof.
    intros Nc Nr. rewrite !gfunction_arr. destruct (construct (W "detailed" [])) as [[q s]|] eqn:Ec; [|discriminate].
    destruct (construct (W "equivalent" [])) as [[q' s']|] eqn:Ec'; [|contradiction].
    destruct (ubwt_request _ q s Ec) as [Mq [Bq [Nq [Rq Cq]]]]. destruct (ubwt_request _ q' s' Ec') as [Mq' [Bq' [Nq' [Rq' Cq']]]].
    destruct Sh as [S1 [S2 [S3 S4]]].
    destruct (C83_exact link (o_k (c_options c)) (o_tol (c_options c)) (o_disTol (c_options c)) u M (c_alpha c) (boreholes_of c) n r Ag S3 S4 Alpha) as [E [L [h [Ee Ve]]]].
    destruct (C81_exact link (o_k (c_options c)) (o_tol (c_options c)) (o_disTol (c_options c)) u M (c_alpha c) (boreholes_of c) n r Ag S3 S4 Alpha) as [ls [E' [L' [h' [Ee' [_ He]]]]]].
    rewrite Ee in Ee'. injection Ee' as <- <- <-.
    destruct Ef as [ls' [E2 [B2 [Ga Eq2]]]].
    assert (E2 = E). { unfold equivalent in Ee. rewrite B2 in Ee. destruct (field_distances _ _); [|discriminate]. congruence. }
    subst E2.
    assert (Hn : hd O (v_n s') = n /\ hd [] (v_r s') = r).
    { rewrite Nq', Rq', S1, S2. destruct S3 as [Lb _]. destruct (length (boreholes_of c)); [lia|]. auto. }
    destruct Hn as [Hn Hr]. unfold evaluate. destruct (times (VArr l)) as [t|] eqn:Et; [|discriminate].
    destruct (times_some _ _ Et) as [Em [Nl [So Po]]].
    destruct Th as [rm [Er Eth]]. rewrite Bq, Bq', Er.
    unfold make_system. rewrite Mq, Mq'. change (String.eqb (lower "detailed") "detailed") with true.
    change (String.eqb (lower "equivalent") "detailed") with false. change (String.eqb (lower "equivalent") "similarities") with false. cbv iota.
    unfold equivalent_system. cbn [with_bc with_method c_alpha c_options]. rewrite Hn, Hr, Bq', Ee, Cq'. cbv zeta. rewrite <- Eth.
    change (String.eqb "UBWT" "MIFT") with false. cbv iota.
    unfold solve. rewrite Cq. change (String.eqb "UBWT" "UHTR") with false. change (String.eqb "UBWT" "UBWT") with true. cbv iota.
    cbn [y_n y_H y_h detailed_system]. unfold detailed_system. cbn [y_n y_H y_h]. rewrite Bq, Nq, Rq, S1, S2. cbn [with_bc with_method c_alpha].
    assert (Nt : no_repeats thr t).
    { rewrite Em. apply clamp_repeats; auto. }
    assert (t <> []) by (rewrite Em; destruct l; [contradiction|discriminate]).
    pose proof (long_grid t thr H Tp So Nt) as Gt. pose proof (long_positive t thr Tp So) as Pt.
    match goal with |- context [if ?b then _ else _] => destruct b end; [|discriminate].
    assert (D : defined_at h (time_long t thr) = true).
    { apply forallb_forall. intros x Hx. destruct (He x uw (Pt x Hx)) as [m [-> _]]. auto. }
    rewrite D.
    match goal with |- option_map _ ?a = _ -> _ => destruct a as [[Q g']|] eqn:Es; [|discriminate] end.
    cbn [option_map snd]. intros Eg. injection Eg as ->.
    match type of Es with solve_ubwt ?a ?b ?f _ _ = _ => pose proof (ubwt_transfer a b f (n * length E) L (factors h) t thr Q g Pt) as X end.
    destruct X as [Q' E2']; [|exact Es|].
    - intros Q0 g0 E0. destruct (Ve ls' Ga Eq2 uw (time_long t thr) Q0 g0 Gt) as [Q' [E' _]]; [exact E0|]. exists Q'. exact E'.
    - change (at_times h) with (factors h). rewrite E2'. reflexivity.
  Qed.
End Uniform.
