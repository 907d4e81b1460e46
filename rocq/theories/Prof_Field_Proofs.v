From Coq Require Import String.
From Verif Require Import Base LinAlg FLS_Model.
From Verif Require Import Bore_Model Bore_Proofs Net_Model Net_Spec Solve_Model Solve_Spec Solve_Eq_Proofs Solve_Loop_Proofs Solve_Sol_Proofs Solve_Extra_Proofs Solve_Props Detailed_Model Detailed_Spec Detailed_Proofs Sim_Model Eq_Model GFun_Model GFun_Spec GFun_Eval_Proofs
  Prof_Model Prof_Spec Prof_Proofs Prof_Call_Proofs Prof_Main_Proofs.
Local Open Scope string_scope.
Local Open Scope R_scope.

(** ** Lengths *)
Lemma linv_length time thr T : List.length (linearise_vec time thr T) = List.length T.
Proof. unfold linearise_vec. destruct (Nat.ltb _ _); auto. now rewrite map_length, seq_length. Qed.

Lemma mift_loop_lengths n H trf k_s Hi F tl p0 ps : forall s r, mift_loop n H trf k_s Hi F tl p0 ps s = Some r ->
  List.length (fst (fst r)) = List.length (fst (fst s)) /\ List.length (snd (fst r)) = List.length (snd (fst s)).
Proof.
  induction ps as [|p ps IH]; intros [[Q T] g] r; cbn [mift_loop]; [intros E; injection E as <-; auto|].
  destruct (step_data _ _ _ _ _ _) as [[h t]|]; [|discriminate]. destruct (lin_solve _ _ _) as [X|]; [|discriminate].
  intros E. destruct (IH _ _ E) as [A B]. cbn [fst snd] in *. rewrite A, B, !upd_length. auto.
Qed.

Lemma mift_row_lengths n H trf k_s Hi Fs time thr g Q T : solve_mift n H trf k_s Hi Fs time thr = Some (g, Q, T) ->
  (forall q, In q Q -> List.length q = List.length time) /\ (forall q, In q T -> List.length q = List.length time).
Proof.
  unfold solve_mift. destruct (Net_Model.all_some _) as [runs|] eqn:E; [|discriminate].
  destruct (linearise_all _ _ _ _) as [g'|]; [|discriminate]. intros X. injection X as <- <- <-. apply all_some_F2 in E.
  assert (L : forall s, In s runs -> List.length (fst (fst s)) = List.length time /\ List.length (snd (fst s)) = List.length time).
  { intros s I. destruct (F2_in_r _ _ _ _ E I) as [F [_ M]]. destruct (mift_loop_lengths _ _ _ _ _ _ _ _ _ _ _ M) as [A B]. cbn [fst snd] in A, B. rewrite !repeat_length in A, B. auto. }
  split; intros q I; apply in_map_iff in I; destruct I as [s [<- I]]; destruct (L s I) as [A B].
  - unfold linearise_loads. destruct (Nat.ltb _ _); auto. now rewrite map_length, seq_length.
  - now rewrite linv_length.
Qed.

Lemma uhtr_row_length n H trf time thr : List.length (snd (solve_uhtr n H trf time thr)) = List.length time.
Proof. rewrite uhtr_run. cbn [snd]. rewrite linv_length, app_length, repeat_length, map_length, seq_length. apply long_length. Qed.

(** the mean of the temperatures of uniform loads *)
Lemma uhtr_mean n H trf time thr p : (p < List.length time)%nat ->
  nth p (fst (solve_uhtr n H trf time thr)) 0 = sumn n (fun k => H k * nth p (snd (solve_uhtr n H trf time thr)) zero_vec k) / sumn n H.
Proof.
  intros Hp. rewrite uhtr_run. cbn [fst snd].
  set (G := (repeat 0 _ ++ _)%list). set (T := (repeat zero_vec _ ++ _)%list).
  assert (LG : List.length G = List.length time) by (unfold G; rewrite app_length, repeat_length, map_length, seq_length; apply long_length).
  assert (LT : List.length T = List.length time) by (unfold T; rewrite app_length, repeat_length, map_length, seq_length; apply long_length).
  assert (E : forall k, (k < List.length time)%nat -> nth k G 0 = sumn n (fun i => H i * nth k T zero_vec i) / sumn n H).
  { intros k Hk. unfold G, T. destruct (Nat.ltb_spec k (p_zero time thr)) as [L|L].
    - rewrite !app_nth1 by (rewrite repeat_length; auto). rewrite !nth_repeat. rewrite (sumn_ext _ _ (fun _ => 0)) by (intros; unfold zero_vec; ring).
      rewrite sumn_zero by auto. unfold Rdiv. ring.
    - rewrite !app_nth2 by (rewrite repeat_length; lia). rewrite !repeat_length.
      pose proof (long_length time thr). rewrite !nth_map_seq by lia. unfold g_of, H_total. f_equal. apply sumn_ext. intros; ring. }
  clearbody G T. unfold linearise, linearise_vec. destruct (Nat.ltb_spec 0 (p_long time thr)) as [P|P]; [|auto].
  rewrite (nth_map _ _ _ O), (nth_map _ _ _ O) by (rewrite seq_length; lia). rewrite !seq_nth by lia. cbn [Nat.add].
  destruct (Nat.ltb_spec p (p_long time thr)) as [L|L]; [|auto].
  assert (Pz : (p_zero time thr < List.length time)%nat).
  { pose proof (long_length time thr) as X. unfold time_long in X. rewrite (proj2 (Nat.ltb_lt _ _) P) in X. cbn [List.length] in X. lia. }
  assert (X : sumn n (fun k => H k * (nth (p_zero time thr) T zero_vec k * nth p time 0 / thr)) = sumn n (fun k => H k * nth (p_zero time thr) T zero_vec k) * (nth p time 0 / thr)).
  { rewrite <- sumn_scal_r. apply sumn_ext. intros. unfold Rdiv. ring. }
  rewrite X, E by auto. unfold Rdiv. ring.
Qed.

(** ** Existence *)
Lemma construct_one c q s : construct c = Some (q, s) -> String.eqb (q_bc q) "MIFT" = true -> q_mb q = VNone \/ q_mn q = VNone.
Proof.
  unfold construct. destruct (resolve c) as [q'|]; [|discriminate]. destruct (check c q'); [|discriminate].
  destruct (make_solver (c_options c) q') as [s'|] eqn:M; [|discriminate]. intros X. injection X as <- <-. intros B.
  unfold make_solver in M. destruct (solver_flows _ _) as [[k rows]|]; [|discriminate M]. unfold check_flows in M. rewrite B in M.
  destruct (q_mb q'), (q_mn q'); auto; cbn [is_none negb andb] in M; discriminate M.
Qed.
Lemma resolve_plain c q : resolve c = Some q -> plain c -> q_mb q = VNone /\ q_mn q = VNone.
Proof.
  intros E [[bs Eb] [M1 M2]]. unfold resolve in E. rewrite Eb, M1, M2 in E.
  destruct (String.eqb _ "MIFT" && _)%bool in E; [discriminate E|]. injection E as <-. auto.
Qed.
Lemma resolve_fluid c q : resolve c = Some q -> fluid c -> q_bc q = "MIFT".
Proof.
  intros E [[w Ew] B]. unfold resolve in E. rewrite Ew in E.
  assert (X : match c_bc c with Some s => s | None => "MIFT" end = "MIFT") by (destruct B as [-> | ->]; auto). rewrite X in E.
  repeat match type of E with context [if ?b then _ else _] => destruct b in E | context [match ?x with Some _ => _ | None => _ end] => destruct x in E end; try discriminate E; injection E as <-; auto.
Qed.

Section Calls.
  Variables (link : list R -> tree) (uw : list (R * R)) (c : call).

  (** whenever there is a g-function there is an evaluated object *)
  Lemma evaluated_some g : gfunction link uw c = Some g -> exists V, evaluated link uw c = Some V.
  Proof.
    intros G. unfold evaluated. rewrite G. unfold gfunction in G. destruct (construct c) as [[q s]|] eqn:K; [|discriminate G].
    assert (G' : evaluate link uw c (q, s) (c_time c) = Some g) by (destruct (c_time c); [discriminate G|..]; auto). clear G.
    unfold evaluate in G'. destruct (times (c_time c)) as [t|]; [|discriminate G']. destruct (lmax _) as [r|]; [|discriminate G'].
    destruct (make_system link uw c q s) as [y|] eqn:Y; [|discriminate G'].
    assert (B : exists b, solver_boreholes link c q s = Some b).
    { unfold solver_boreholes. destruct (construct_parts _ _ _ K) as (_ & _ & _ & _ & _ & _ & M & _).
      destruct (String.eqb (lower (q_method q)) "equivalent") eqn:Em; [|eauto].
      unfold make_system in Y. destruct (String.eqb (lower (q_method q)) "detailed") eqn:E1; [apply String.eqb_eq in E1, Em; rewrite E1 in Em; discriminate Em|].
      destruct (String.eqb (lower (q_method q)) "similarities") eqn:E2; [apply String.eqb_eq in E2, Em; rewrite E2 in Em; discriminate Em|].
      unfold equivalent_system in Y. unfold equivalent in Y. destruct (equivalent_boreholes _ _ _ _) as [E|]; [cbn; eauto|discriminate Y]. }
    destruct B as [[[bs ns] rs] ->]. unfold solve in G'. unfold solve_stored. destruct (defined_at _ _); [|discriminate G'].
    destruct (String.eqb (q_bc q) "UHTR"); [cbn; eauto|]. destruct (String.eqb (q_bc q) "UBWT"); [destruct (solve_ubwt _ _ _ _ _); [cbn; eauto|discriminate G']|].
    destruct (v_rows s) as [|row rows]; [discriminate G'|]. destruct (Net_Model.all_some _) as [Fs|]; [|discriminate G'].
    destruct (solve_mift _ _ _ _ _ _ _ _) as [[[g0 Q] T]|]; [cbn; eauto|discriminate G'].
  Qed.

  (** lengths of what is stored *)
  Lemma stored_lengths bc k_s rows y time thr d : solve_stored bc k_s rows y time thr = Some d ->
    match d with
    | Uniform T => List.length T = List.length time
    | Wall Q T => List.length Q = List.length time /\ List.length T = List.length time
    | Mixed Q T => List.length Q = List.length rows /\ List.length T = List.length rows /\ (forall q, In q Q -> List.length q = List.length time) /\ (forall q, In q T -> List.length q = List.length time)
    end.
  Proof.
    unfold solve_stored. destruct (String.eqb bc "UHTR"); [intros E; injection E as <-; apply uhtr_row_length|].
    destruct (String.eqb bc "UBWT").
    - destruct (solve_ubwt _ _ _ _ _) as [[Q T]|] eqn:S; [|discriminate]. intros E. injection E as <-. cbn [fst snd]. apply (ubwt_lengths _ _ _ _ _ _ _ S).
    - destruct (Net_Model.all_some _) as [Fs|] eqn:F; [|discriminate]. destruct (solve_mift _ _ _ _ _ _ _ _) as [[[g Q] T]|] eqn:S; [|discriminate].
      intros E. injection E as <-. cbn [fst snd]. destruct (mift_length _ _ _ _ _ _ _ _ _ _ _ S) as [L1 L2]. destruct (mift_row_lengths _ _ _ _ _ _ _ _ _ _ _ S) as [R1 R2].
      pose proof (all_some_length _ _ F) as L. rewrite map_length in L. repeat split; auto; congruence.
  Qed.

  (** the flows of an object *)
  Lemma flow_rows V g n : evaluated link uw c = Some V -> gfunction link uw c = Some g -> plain c \/ fluid c -> flow_index g n ->
    match b_stored V with Mixed Q T => (n < List.length Q)%nat /\ (n < List.length T)%nat | _ => b_k V = O /\ n = O end.
  Proof.
    intros Ev G Ok N. destruct (evaluated_parts _ _ _ _ Ev) as (q & s & y & g' & r & K & G' & Ee & Et & El & Ey & Es & Ek & _ & _ & St).
    rewrite G in G'. injection G' as <-. destruct (construct_parts _ _ _ K) as (_ & _ & _ & _ & _ & _ & _ & Rs & rows & Sf & Er).
    pose proof (stored_lengths _ _ _ _ _ _ _ St) as L. unfold evaluate in Ee. rewrite Et, El, Ey in Ee. unfold solve in Ee. destruct (defined_at _ _); [|discriminate Ee].
    destruct (String.eqb (q_bc q) "UHTR") eqn:B1; [|destruct (String.eqb (q_bc q) "UBWT") eqn:B2].
    - unfold solve_stored in St. rewrite B1 in St. injection St as <-. injection Ee as <-. cbn [flow_index] in N. split; auto. rewrite Ek.
      destruct Ok as [Ok|Ok].
      + destruct (resolve_plain _ _ Rs Ok) as [M1 M2]. rewrite M1, M2 in Sf. cbn in Sf. congruence.
      + rewrite (resolve_fluid _ _ Rs Ok) in B1. discriminate B1.
    - unfold solve_stored in St. rewrite B1, B2 in St. destruct (solve_ubwt _ _ _ _ _) as [[Q T]|]; [|discriminate Ee]. injection St as <-. injection Ee as <-. cbn [flow_index] in N. split; auto. rewrite Ek.
      destruct Ok as [Ok|Ok].
      + destruct (resolve_plain _ _ Rs Ok) as [M1 M2]. rewrite M1, M2 in Sf. cbn in Sf. congruence.
      + rewrite (resolve_fluid _ _ Rs Ok) in B2. discriminate B2.
    - unfold solve_stored in St. rewrite B1, B2 in St. destruct (Net_Model.all_some _) as [Fs|] eqn:EF in St; [|discriminate St].
      destruct (v_rows s) as [|r0 rw] eqn:Erw; [discriminate Ee|]. rewrite EF in Ee.
      destruct (solve_mift _ _ _ _ _ _ _ _) as [[[g0 Q] T]|] eqn:Sm in St; [|discriminate St]. rewrite Sm in Ee. cbn in St. injection St as Ed. rewrite <- Ed in L |- *. cbn [fst snd] in *. destruct L as [L1 [L2 _]]. rewrite L1, L2.
      assert (Hn : (n < List.length (r0 :: rw))%nat); [|auto].
      subst rows.
      destruct (Nat.eqb_spec (v_k s) 0) as [Z|Z]; injection Ee as <-; cbn [flow_index] in N; [cbn; lia|].
      assert (Bm : String.eqb (q_bc q) "MIFT" = true).
      { destruct (construct_parts _ _ _ K) as (_ & _ & _ & _ & _ & Xb & _). cbn [existsb] in Xb. rewrite B1, B2 in Xb. cbn [orb] in Xb. rewrite orb_false_r in Xb. auto. }
      destruct (construct_one _ _ _ K Bm) as [Z1|Z1]; rewrite Z1 in Sf; unfold solver_flows in Sf.
      + destruct (q_mn q) as [| | | |l'|l'|l']; try discriminate Sf; apply (f_equal (option_map (fun x => (fst x, List.length (snd x))))) in Sf; cbn [option_map fst snd] in Sf;
          injection Sf as Hk Hr; rewrite ?map_length in *; cbn [List.length]; lia.
      + destruct (q_mb q) as [| | | |l'|l'|l']; try discriminate Sf; apply (f_equal (option_map (fun x => (fst x, List.length (snd x))))) in Sf; cbn [option_map fst snd] in Sf;
          injection Sf as Hk Hr; rewrite ?map_length in *; cbn [List.length]; lia.
  Qed.
End Calls.
