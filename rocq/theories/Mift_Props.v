(** Equivalent boreholes and the mixed inlet temperature: C129. *)
From Coq Require Import String.
From Verif Require Import Base LinAlg FLS_Model.
From Verif Require Import Bore_Model Net_Model Net_Spec Net_Extra_Proofs Solve_Model Solve_Spec Detailed_Model Detailed_Spec Sim_Model Sim_Spec Eq_Model Eq_Spec Eq_Mix_Proofs
  GFun_Model GFun_Spec GFun_Eval_Proofs GFun_Pair_Proofs GFun_Mift_Proofs GFun_Legacy_Proofs GFun_Props Mift_Spec Mift_Top_Proofs.
Local Open Scope R_scope.
Local Open Scope string_scope.

(** * C129 *)

(** The equivalent boreholes give the g-functions of the boreholes of a parallel network at
    a mixed inlet fluid temperature, for all pairs of mass flow rates, if the clustering is
    equitable. *)
Theorem C129_equivalent : forall link uw c w thr u M n r ms l G, 0 < c_alpha c -> threshold_of c thr -> 0 < thr -> agglomerative link ->
  c_source c = Piped w -> c_bc c = None \/ c_bc c = Some "MIFT" -> parallel_alike w -> same_pipes w = Some true -> network_flows c ms ->
  sharp_equivalent c u M n r -> equitable_field link c -> construct (with_time (with_method c "equivalent") (VArr [])) <> None ->
  no_repeats thr l -> gfunction link uw (with_time (with_method c "detailed") (VArr l)) = Some G ->
  exists G', gfunction link uw (with_time (with_method c "equivalent") (VArr l)) = Some G' /\ same_result (List.length l) G G'.
Proof.
  intros link uw c w thr u M n r ms l G A T Tp Ag Sw Bc Pw Rw Fw Sh Ef Co Nr.
  apply (mift_equivalent_object link uw c w thr u M n r ms A T Tp Ag Sw Bc Pw Rw Fw Sh Ef l G Co Nr).
Qed.
Print Assumptions C129_equivalent.

(** For a flow that is a number: the same list of values. *)
Theorem C129_one_flow : forall link uw c w thr u M n r x l g, 0 < c_alpha c -> threshold_of c thr -> 0 < thr -> agglomerative link ->
  c_source c = Piped w -> c_bc c = None \/ c_bc c = Some "MIFT" -> parallel_alike w -> same_pipes w = Some true ->
  c_mb c = VNone -> c_mn c = VFloat x -> x <> 0 -> (exists cp, c_cp c = VFloat cp) ->
  sharp_equivalent c u M n r -> equitable_field link c -> construct (with_time (with_method c "equivalent") (VArr [])) <> None ->
  no_repeats thr l -> gfunction link uw (with_time (with_method c "detailed") (VArr l)) = Some (G1 g) ->
  gfunction link uw (with_time (with_method c "equivalent") (VArr l)) = Some (G1 g).
Proof.
  intros link uw c w thr u M n r x l g A T Tp Ag Sw Bc Pw Rw F1 F2 F3 F4 Sh Ef Co Nr Eg.
  assert (Fw : network_flows c [x]). { split; auto. split; auto. split; [right; eauto|]. constructor; auto. }
  destruct (C129_equivalent link uw c w thr u M n r [x] l (G1 g) A T Tp Ag Sw Bc Pw Rw Fw Sh Ef Co Nr Eg) as [G' [E S]].
  destruct G' as [g'|k g']; cbn in S; [|destruct S]. subst g'. exact E.
Qed.
Print Assumptions C129_one_flow.

(** Two boreholes in parallel with the same pipes, which become one equivalent borehole *)
Example C129_ex : let c := pair_mift perfect perfect "detailed" VNone VNone VNone (VFloat 1) (VFloat 1) in let w := pair_piped perfect perfect VNone VNone in
  c_source c = Piped w /\ parallel_alike w /\ same_pipes w = Some true /\ network_flows c [1] /\ threshold_of c ((3 / 40) ^ 2 / 25) /\
  sharp_equivalent c 1 104 1 [1] /\ equitable_field plain_link c /\ agglomerative plain_link /\
  construct (with_time (with_method c "equivalent") (VArr [])) <> None /\ no_repeats ((3 / 40) ^ 2 / 25) [-1; / 10 ^ 4; 1; 2] /\
  (exists g, gfunction plain_link [] (with_time (with_method c "detailed") (VArr [-1; / 10 ^ 4; 1; 2])) = Some (G1 g)) /\
  exists E, equivalent_boreholes plain_link (o_k (c_options c)) (o_tol (c_options c)) (boreholes_of c) = Some [E] /\ Eq_Model.count E = 2%nat.
Proof.
  intros c w. split; [reflexivity|]. split; [|split; [apply pair_same_pipes|]].
  { split; [exact two_build|]. split; [reflexivity|]. intros p q Hp Hq _. cbn in Hp, Hq. destruct p as [|[|p]]; [| |lia]; (destruct q as [|[|q]]; [| |lia]); reflexivity. }
  split; [split; [reflexivity|split; [exists 1; reflexivity|split; [right; exists 1; auto|constructor; [lra|constructor]]]]|].
  split; [exact (pair_threshold "detailed")|]. split; [exact (pair_sharp_equivalent "detailed")|]. split; [exact (pair_equitable_field plain_link "detailed" plain_ok)|]. split; [exact plain_ok|].
  split; [|split; [apply ex_times|split]].
  - set (cc := with_time (with_method c "equivalent") (VArr [])). unfold construct.
    assert (R : resolve cc = Some (mkrequest pair_field (Some w) "equivalent" "MIFT" VNone (VFloat 1) (VFloat 1))).
    { unfold resolve. cbn [cc c with_time with_method pair_mift c_source c_bc c_method c_mb c_mn c_cp is_none andb equal_flows]. change (String.eqb "MIFT" "MIFT" && String.eqb (lower "equivalent") "equivalent") with true. cbv iota.
      rewrite pair_parallel, pair_same_pipes. reflexivity. }
    rewrite R. assert (C : check cc (mkrequest pair_field (Some w) "equivalent" "MIFT" VNone (VFloat 1) (VFloat 1)) = true).
    { unfold check. cbn [q_bs q_net q_method q_bc q_mb q_mn q_cp]. rewrite pair_unique. reflexivity. }
    rewrite C. unfold make_solver. cbn [q_bs q_net q_method q_bc q_mb q_mn q_cp solver_flows].
    change (format_segments (List.length pair_field) (o_n (c_options cc))) with [1; 1]%nat.
    change (format_ratios (List.length pair_field) [1; 1]%nat (o_r (c_options cc))) with [[1]; [1]].
    rewrite pair_checks. change (c_options cc) with pair_options. rewrite pair_equivalent_checks.
    unfold equivalent_network. cbn [q_bs q_net q_method q_bc q_mb q_mn q_cp]. unfold w. rewrite pair_parallel, pair_same_pipes. cbn. discriminate.
  - eapply (pair_total_solved perfect perfect 1 ltac:(lra) plain_link [] VNone VNone 1); [apply (perfect_total 1 1); lra|apply ex_times|apply ex_times].
  - exists (nth 0 pair_lump (EBore 0 0 0 [] [] 0 [])). split; [apply (pair_boreholes plain_link); exact plain_ok|reflexivity].
Qed.
