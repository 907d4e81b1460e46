(** Defaults and dispatch of the g-function objects. *)
From Coq Require Import String.
From Verif Require Import Base LinAlg FLS_Model.
From Verif Require Import Bore_Model Net_Model Solve_Model Solve_Spec Detailed_Model Sim_Model Eq_Model GFun_Model GFun_Spec GFun_Eval_Proofs.
Local Open Scope R_scope.
Local Open Scope string_scope.

Section Dispatch.
  Variables (link : list R -> tree) (uw : list (R * R)).
  Local Notation G := (gfunction link uw).

  (** two calls with the same result of the inputs *)
  Lemma same_request c c' : resolve c = resolve c' -> c_alpha c = c_alpha c' -> c_time c = c_time c' -> c_options c = c_options c' -> G c = G c'.
  Proof.
    intros E Ea Et Eo.
    assert (Ec : construct c = construct c').
    { unfold construct. rewrite E. destruct (resolve c') as [q|]; auto.
      assert (Ch : check c q = check c' q) by (unfold check; rewrite Et; auto). rewrite Ch, Eo. auto. }
    unfold gfunction. rewrite Ec, Et. destruct (construct c') as [[q s]|]; auto.
    assert (Ev : forall v, evaluate link uw c (q, s) v = evaluate link uw c' (q, s) v).
    { intros v. unfold evaluate, make_system, detailed_system, similarities_system, equivalent_system. rewrite Ea, Eo. auto. }
    destruct (c_time c'); auto.
  Qed.

  Lemma default_field c bs : c_source c = Field bs -> c_bc c = None -> G c = G (with_bc c (Some "UBWT")).
  Proof. intros Es Eb. apply same_request; auto. unfold resolve. cbn [with_bc c_source c_bc c_mb c_mn c_cp c_method]. rewrite Es, Eb. auto. Qed.

  Lemma default_network c w : c_source c = Piped w -> c_bc c = None -> G c = G (with_bc c (Some "MIFT")).
  Proof. intros Es Eb. apply same_request; auto. unfold resolve. cbn [with_bc c_source c_bc c_mb c_mn c_cp c_method]. rewrite Es, Eb. auto. Qed.

  Lemma stored_flow c w x : c_source c = Piped w -> w_m w = VFloat x -> c_mb c = VNone -> c_mn c = VNone ->
    G c = G (with_flow c VNone (VFloat x) (c_cp c)).
  Proof.
    intros Es Em Eb En. apply same_request; auto. unfold resolve. cbn [with_flow c_source c_bc c_mb c_mn c_cp c_method]. rewrite Es, Em, Eb, En. auto.
  Qed.

  Lemma stored_flows c w l : c_source c = Piped w -> w_m w = VArr l -> c_mb c = VNone -> c_mn c = VNone ->
    G c = G (with_flow c (VArr l) VNone (c_cp c)).
  Proof.
    intros Es Em Eb En. apply same_request; auto. unfold resolve. cbn [with_flow c_source c_bc c_mb c_mn c_cp c_method]. rewrite Es, Em, Eb, En. auto.
  Qed.

  Lemma stored_capacity c w x : c_source c = Piped w -> w_cp w = VFloat x -> c_cp c = VNone ->
    G c = G (with_flow c (c_mb c) (c_mn c) (VFloat x)).
  Proof.
    intros Es Em Eb. apply same_request; auto. unfold resolve. cbn [with_flow c_source c_bc c_mb c_mn c_cp c_method]. rewrite Es, Em, Eb. auto.
  Qed.

  (** ** Explicit values are used *)

  Definition erase (w : network) : network := mknetwork (w_b w) (w_p w) (w_ks w) (w_Rd w) (w_c w) VNone VNone.
  Definition erase_q (q : request) : request := mkrequest (q_bs q) (option_map erase (q_net q)) (q_method q) (q_bc q) (q_mb q) (q_mn q) (q_cp q).
  Definition erase_s (s : solver) : solver := mksolver (v_n s) (v_r s) (v_k s) (v_rows s) (option_map erase (v_net s)).
  Definition erase_c (c : call) (w : network) : call :=
    mkcall (Piped (erase w)) (c_alpha c) (c_time c) (c_method c) (c_bc c) (c_mb c) (c_mn c) (c_cp c) (c_options c).

  Lemma erase_resolve c w : c_source c = Piped w -> is_none (c_mb c) && is_none (c_mn c) = false -> is_none (c_cp c) = false ->
    resolve (erase_c c w) = option_map erase_q (resolve c).
  Proof.
    intros Es Em Ec. unfold resolve. cbn [erase_c c_source c_bc c_mb c_mn c_cp c_method]. rewrite Es, Em, Ec. cbv zeta.
    cbn [erase w_b]. change (parallel (erase w)) with (parallel w). change (same_pipes (erase w)) with (same_pipes w).
    destruct (String.eqb _ "MIFT" && _); auto. destruct (negb (parallel w)); auto. destruct (equal_flows (c_mb c)) as [[|]|]; auto. destruct (same_pipes w) as [[|]|]; auto.
  Qed.

  Lemma erase_check c w q : check (erase_c c w) (erase_q q) = check c q.
  Proof. unfold check. cbn [erase_c erase_q c_time q_bs q_net q_bc q_mb q_mn q_cp q_method]. destruct (q_net q); auto. Qed.

  Lemma erase_solver o q : make_solver o (erase_q q) = option_map erase_s (make_solver o q).
  Proof.
    unfold make_solver. cbn [erase_q q_bs q_mb q_mn q_method]. destruct (solver_flows _ _) as [[k rows]|]; auto.
    assert (E1 : check_flows (erase_q q) rows = check_flows q rows) by (unfold check_flows; cbn [erase_q q_net q_bc q_mb q_mn q_cp]; destruct (q_net q); auto).
    fold (erase_q q). rewrite E1. destruct (_ && _); auto. destruct (String.eqb _ "detailed"); auto. destruct (String.eqb _ "similarities").
    { destruct (_ && _); auto. }
    destruct (String.eqb _ "equivalent"); auto. destruct (equivalent_checks _ _ _ _); auto.
    unfold equivalent_network. cbn [erase_q q_bc q_net q_mb]. destruct (String.eqb (q_bc q) "MIFT"); auto.
    destruct (q_net q) as [w|]; auto. cbn [option_map]. change (parallel (erase w)) with (parallel w). change (same_pipes (erase w)) with (same_pipes w).
    destruct (_ && _); auto. destruct (same_pipes w) as [[|]|]; auto.
  Qed.

  Lemma erase_evaluate c w q s v : evaluate link uw (erase_c c w) (erase_q q, erase_s s) v = evaluate link uw c (q, s) v.
  Proof.
    unfold evaluate. cbn [erase_q q_bs q_bc erase_s v_k v_rows erase_c c_alpha c_options].
    assert (E : make_system link uw (erase_c c w) (erase_q q) (erase_s s) = make_system link uw c q s).
    { unfold make_system, detailed_system, similarities_system, equivalent_system. cbn [erase_q q_bs q_net q_method q_bc q_cp erase_s v_n v_r erase_c c_alpha c_options].
      destruct (q_net q); auto. }
    fold (erase_q q) (erase_s s) (erase_c c w). rewrite E.
    assert (K : match q_net (erase_q q) with Some w => nth 0 (w_ks w) 0 | None => 0 end = match q_net q with Some w => nth 0 (w_ks w) 0 | None => 0 end)
      by (cbn [erase_q q_net]; destruct (q_net q); auto).
    rewrite K. auto.
  Qed.

  Lemma explicit_flow c w : c_source c = Piped w -> is_none (c_mb c) && is_none (c_mn c) = false -> is_none (c_cp c) = false -> G c = G (erase_c c w).
  Proof.
    intros Es Em Ec. unfold gfunction.
    assert (E : construct (erase_c c w) = option_map (fun qs => (erase_q (fst qs), erase_s (snd qs))) (construct c)).
    { unfold construct. rewrite erase_resolve by auto. destruct (resolve c) as [q|]; auto. cbn [option_map]. rewrite erase_check. destruct (check c q); auto.
      cbn [erase_c c_options]. rewrite erase_solver. destruct (make_solver _ q); auto. }
    rewrite E. destruct (construct c) as [[q s]|]; auto. cbn [option_map fst snd]. cbn [erase_c c_time].
    pose proof (erase_evaluate c w q s) as Ev. destruct (c_time c); rewrite ?Ev; auto.
  Qed.

  (** ** Dispatch *)

  Lemma series_similarities c w : c_source c = Piped w -> (c_bc c = None \/ c_bc c = Some "MIFT") -> parallel w = false ->
    G (with_method c "equivalent") = G (with_method c "similarities").
  Proof.
    intros Es Eb Ep. apply same_request; auto. unfold resolve. cbn [with_method c_source c_bc c_mb c_mn c_cp c_method]. rewrite Es.
    destruct Eb as [-> | ->]; cbv zeta; cbn [String.eqb Ascii.eqb Bool.eqb lower str_map]; rewrite Ep; auto.
  Qed.

  (** values of the network that are not Python floats are not used *)
  Lemma not_float c w : c_source c = Piped w -> c_bc c = None -> c_mb c = VNone -> c_mn c = VNone ->
    match w_m w with VFloat _ | VArr _ | VArr2 _ => False | _ => True end -> G c = None.
  Proof.
    intros Es Eb E1 E2 Ew. unfold gfunction, construct, resolve. rewrite Es, Eb, E1, E2. cbv zeta. cbn [is_none andb String.eqb Ascii.eqb Bool.eqb].
    destruct (w_m w); try contradiction;
      (destruct (String.eqb (lower (c_method c)) "equivalent");
       [destruct (negb (parallel w)); [|cbn [equal_flows]; destruct (same_pipes w) as [[|]|]]|];
       unfold check; cbn [q_bc q_mn q_mb q_net q_bs is_none andb negb String.eqb Ascii.eqb Bool.eqb];
       rewrite ?andb_false_r; cbn [andb]; rewrite ?andb_false_r; auto).
  Qed.

  Lemma not_float_cp c w : c_source c = Piped w -> c_bc c = None -> c_cp c = VNone ->
    match w_cp w with VFloat _ => False | _ => True end -> G c = None.
  Proof.
    intros Es Eb E1 Ew. unfold gfunction, construct, resolve. rewrite Es, Eb, E1. cbv zeta. cbn [is_none andb String.eqb Ascii.eqb Bool.eqb].
    assert (K : forall q, q_bc q = "MIFT" -> q_cp q = VNone -> check c q = false).
    { intros q B C. unfold check. rewrite B, C. cbn [is_none negb String.eqb Ascii.eqb Bool.eqb]. rewrite !andb_false_r. cbn [andb]. rewrite ?andb_false_r. auto. }
    destruct (w_cp w); try contradiction;
      (destruct (String.eqb (lower (c_method c)) "equivalent");
       [destruct (negb (parallel w)); [|destruct (equal_flows _) as [[|]|]; [destruct (same_pipes w) as [[|]|]| |]]|]);
       rewrite ?K; auto.
  Qed.

  (** with flows by borehole the equivalent boreholes raise *)
  Lemma equivalent_flows c : c_method c = "equivalent" -> c_bc c = Some "MIFT" \/ (c_bc c = None /\ exists w, c_source c = Piped w) ->
    forall q s, construct c = Some (q, s) -> q_method q = "equivalent" -> q_mb q = VNone.
  Proof.
    intros Em Eb q s Ec Eq. unfold construct in Ec. destruct (resolve c) as [q0|] eqn:Er; [|discriminate]. destruct (check c q0); [|discriminate].
    destruct (make_solver (c_options c) q0) as [s0|] eqn:Es; [|discriminate]. injection Ec as -> ->.
    assert (B : q_bc q = "MIFT").
    { unfold resolve in Er. destruct (c_source c) as [bs|w]; cbv zeta in Er.
      - destruct Eb as [Eb | [_ [w Ew]]]; [|discriminate]. rewrite Eb in Er.
        destruct (_ && _); [discriminate|]. injection Er as <-. auto.
      - assert (Bc : match c_bc c with Some s => s | None => "MIFT" end = "MIFT") by (destruct Eb as [-> | [-> _]]; auto). rewrite Bc in Er.
        repeat match goal with
               | E : (if ?b then _ else _) = Some _ |- _ => destruct b
               | E : match ?b with Some _ => _ | None => _ end = Some _ |- _ => destruct b
               | E : Some _ = Some _ |- _ => injection E as <-
               | E : None = Some _ |- _ => discriminate
               end; auto. }
    unfold make_solver in Es. rewrite Eq in Es. destruct (solver_flows _ _) as [[k rows]|]; [|discriminate]. destruct (_ && _); [|discriminate].
    cbn [lower str_map lower_char] in Es. change (String.eqb (lower "equivalent") "detailed") with false in Es. change (String.eqb (lower "equivalent") "similarities") with false in Es.
    change (String.eqb (lower "equivalent") "equivalent") with true in Es. cbv iota in Es.
    destruct (equivalent_checks _ _ _ _); [|discriminate]. unfold equivalent_network in Es. rewrite B in Es. cbn [String.eqb Ascii.eqb Bool.eqb] in Es.
    destruct (q_net q) as [w|]; [|discriminate]. destruct (q_mb q); auto; cbn [is_none] in Es; rewrite andb_false_r in Es; discriminate.
  Qed.
End Dispatch.
