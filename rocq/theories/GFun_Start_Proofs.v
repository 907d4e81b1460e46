(** The linear start of a g-function: the line goes through the value at the threshold. *)
From Coq Require Import String.
From Verif Require Import Base LinAlg FLS_Model.
From Verif Require Import Bore_Model Net_Model Solve_Model Solve_Spec Solve_Loop_Proofs Solve_Eq_Proofs Solve_Sol_Proofs Detailed_Model Sim_Model Eq_Model GFun_Model GFun_Spec GFun_Causal_Proofs GFun_Eval_Proofs.
Local Open Scope R_scope.
Local Notation length := List.length.

Lemma long_one thr : time_long [thr] thr = [thr] /\ p_zero [thr] thr = O /\ p_long [thr] thr = 1%nat.
Proof.
  unfold time_long, p_zero, p_long. cbn [searchsorted_right]. rewrite (proj2 (Rleb_true thr thr)) by lra. cbn. auto.
Qed.

Lemma lin_one thr a : thr <> 0 -> linearise [thr] thr (repeat 0 (p_zero [thr] thr) ++ [a]) = [a].
Proof.
  intros T. destruct (long_one thr) as [_ [E2 E3]]. unfold linearise. rewrite E2, E3. cbn. f_equal. field. auto.
Qed.

Lemma long_start time thr : time <> [] -> nth 0 time 0 <= thr -> exists rest, time_long time thr = [thr] ++ rest.
Proof.
  intros N H. unfold time_long, p_long. destruct time as [|x r]; [contradiction|]. cbn [nth] in H. cbn [searchsorted_right].
  rewrite (proj2 (Rleb_true x thr)) by lra. cbn [Nat.ltb Nat.leb]. exists (skipn (S (searchsorted_right r thr)) (x :: r)). auto.
Qed.

Lemma sorted_at time p : sorted time -> (p < length time)%nat -> nth 0 time 0 <= nth p time 0.
Proof. intros S Hp. destruct p; [lra|]. apply S; lia. Qed.

Section Start.
  Variables (link : list R -> tree) (uw : list (R * R)).

  Lemma solve_start bc k_s k rows y time thr g : time <> [] -> sorted time -> nonneg time -> 0 < thr -> nth 0 time 0 <= thr ->
    (bc <> "UHTR"%string -> bc <> "UBWT"%string -> k = O -> (length rows <= 1)%nat) ->
    solve bc k_s k rows y time thr = Some (G1 g) ->
    exists a, solve bc k_s k rows y [thr] thr = Some (G1 [a]) /\ forall p, (p < length time)%nat -> nth p time 0 <= thr -> nth p g 0 = a * nth p time 0 / thr.
  Proof.
    intros N So P T0 T1 Kr. destruct (long_start time thr N T1) as [rest Er].
    pose proof (long_sorted time thr So P) as Sl. rewrite Er in Sl. assert (Tn : thr <> 0) by lra.
    unfold solve. destruct (defined_at (y_h y) (time_long time thr)) eqn:D; [|discriminate].
    destruct (long_one thr) as [E1 [E2 E3]].
    assert (D1 : defined_at (y_h y) (time_long [thr] thr) = true).
    { rewrite E1. rewrite Er in D. unfold defined_at in *. cbn [app forallb] in *. apply andb_prop in D. destruct D as [-> _]. auto. }
    rewrite D1.
    assert (Bp : forall p, (p < length time)%nat -> nth p time 0 <= thr -> forall i, (i <= p)%nat -> nth i time 0 <= thr).
    { intros p Hp Hb i Hi. assert (nth i time 0 <= nth p time 0) by (apply So; auto). lra. }
    destruct (String.eqb_spec bc "UHTR") as [_|B1].
    { intros E. assert (Eg : fst (solve_uhtr (y_n y) (y_H y) (at_times (y_h y)) time thr) = g) by congruence.
      rewrite uhtr_run in Eg. cbn [fst] in Eg. rewrite uhtr_run. cbn [fst]. rewrite E1. cbn [List.length seq map]. rewrite lin_one by auto.
      eexists. split; [reflexivity|]. intros p Hp Hb. rewrite <- Eg. rewrite lin_short; auto.
      - rewrite Er. cbn [app List.length seq map nth]. reflexivity.
      - rewrite map_length, seq_length. auto.
      - apply (Bp p); auto. }
    destruct (String.eqb_spec bc "UBWT") as [_|B2].
    { rewrite !ubwt_run, E1, at_times_grid. destruct (grun _ _ _ (time_long time thr) _ _) as [[a b]|] eqn:E; [|discriminate]. cbn [option_map snd]. intros Eg. injection Eg as <-.
      pose proof (run_length _ _ _ _ a b 0 E) as [_ [Lb _]]. rewrite Er in E.
      pose proof (run_prefix _ _ _ 0 _ _ _ _ Sl E) as E0. cbn [List.length] in E0 |- *. rewrite E0. cbn [option_map snd].
      destruct b as [|b0 b]; [rewrite Er in Lb; cbn in Lb; lia|]. cbn [firstn]. rewrite lin_one by auto. eexists. split; [reflexivity|].
      intros p Hp Hb. rewrite lin_short; [reflexivity| | |]; auto. apply (Bp p); auto. }
    destruct rows as [|r rows]; [discriminate|]. destruct (Net_Model.all_some (map (y_flow y) (r :: rows))) as [Fs|] eqn:EF; [|discriminate].
    rewrite at_times_grid. destruct (solve_mift _ _ _ _ _ _ time thr) as [[[g0 Q] T]|] eqn:E; [|discriminate].
    destruct (Nat.eqb_spec k 0) as [K|K]; [|discriminate]. intros Eg. injection Eg as <-. specialize (Kr B1 B2 K).
    pose proof (all_some_length _ _ EF) as LF. rewrite map_length in LF. cbn [List.length] in Kr, LF.
    destruct Fs as [|F [|F' Fs]]; cbn [List.length] in LF; try lia. rewrite mift_one in E.
    destruct (grun _ _ _ (time_long time thr) _ _) as [[a b]|] eqn:Eu; [|discriminate].
    destruct (mift_one_some _ _ _ _ _ F time thr a b Eu) as [g1 [Q1 [T2 [Em V]]]]. rewrite Em in E. injection E as <- _ _.
    pose proof (run_length _ _ _ _ a b (zero_vec, 0) Eu) as [_ [Lb _]]. rewrite Er in Eu.
    pose proof (run_prefix _ _ _ (zero_vec, 0) _ _ _ _ Sl Eu) as E0.
    assert (E0' : grun (y_n y) (on_grid (response_of (y_h y))) (mift_sol (y_n y) (y_H y) k_s (y_Hi y) F) (time_long [thr] thr) (seq 0 (length (time_long [thr] thr))) ([], [])
                  = Some (firstn 1 a, firstn 1 b)) by (rewrite E1; exact E0).
    destruct (mift_one_some _ _ _ _ _ F [thr] thr _ _ E0') as [g2 [Q2 [T3 [Em2 V2]]]]. rewrite Em2.
    destruct b as [|b0 b]; [rewrite Er in Lb; cbn in Lb; lia|]. cbn [firstn map] in V2.
    eexists. cbn [List.length seq map]. rewrite (V2 O) by (cbn; lia). rewrite lin_one by auto. cbn [nth]. split; [reflexivity|].
    intros p Hp Hb. rewrite nth_map_seq by auto. rewrite V by auto. rewrite lin_short; [reflexivity| | |]; auto; [rewrite map_length; auto|]. apply (Bp p); auto.
  Qed.

  Lemma gfunction_start c l g thr : gfunction link uw (with_time c (VArr l)) = Some (G1 g) -> threshold_of c thr -> 0 < thr -> nth 0 l 0 <= thr ->
    exists v, gfunction link uw (with_time c (VArr [thr])) = Some (G1 [v]) /\
      forall p, (p < length l)%nat -> nth p l 0 <= thr -> nth p g 0 = v * Rmax (nth p l 0) 0 / thr.
  Proof.
    rewrite !gfunction_arr. destruct (construct _) as [[q s]|] eqn:Ec; [|discriminate]. unfold evaluate.
    destruct (times (VArr l)) as [t|] eqn:Et; [|discriminate]. destruct (times_some _ _ Et) as [Em [N [So P]]]. intros E [r [Er ->]] T0 T1.
    rewrite (construct_boreholes _ _ _ Ec) in *. change (boreholes_of (with_time c (VArr []))) with (boreholes_of c) in *. rewrite Er in *.
    destruct (make_system _ _ _ _ _) as [y|]; [|discriminate].
    assert (Tt : times (VArr [time_threshold r (c_alpha c) (o_thr (c_options c))]) = Some [time_threshold r (c_alpha c) (o_thr (c_options c))]).
    { unfold times. cbn [numbers map increasing]. rewrite Rmax_left by lra. auto. }
    rewrite Tt.
    pose proof (fun A B B' => solve_start _ _ _ _ y t _ g A So P T0 B B' E) as X. destruct X as [a [A1 A]].
    - rewrite Em. destruct l; [contradiction|discriminate].
    - rewrite Em. destruct l; [contradiction|]. cbn [map nth] in *. apply Rmax_lub; lra.
    - intros B1 B2 K. apply (construct_rows _ _ _ Ec B1 B2). auto.
    - exists a. split; auto. intros p Hp Hb. specialize (A p). rewrite Em, map_length, (nth_map _ _ p 0) in A by auto. apply A; auto. apply Rmax_lub; lra.
  Qed.
End Start.
