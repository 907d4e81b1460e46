(** Properties of the g-function objects: C84 to C91, C93, C94, and C56. *)
From Coq Require Import String.
From Verif Require Import Base LinAlg FLS_Model.
From Verif Require Import Bore_Model Net_Model Net_Spec Net_Extra_Proofs Solve_Model Solve_Spec Detailed_Model Detailed_Spec Detailed_Props Sim_Model Sim_Spec Eq_Model Eq_Spec Eq_Group_Proofs Eq_Cluster_Proofs Eq_Mix_Proofs Eq_Props
  GFun_Model GFun_Spec GFun_Causal_Proofs GFun_Eval_Proofs GFun_Start_Proofs GFun_Dispatch_Proofs GFun_Methods_Proofs GFun_Field_Proofs GFun_Uniform_Proofs GFun_Times_Proofs GFun_Pair_Proofs
  GFun_Two_Proofs GFun_Mift_Proofs GFun_Flow_Proofs GFun_Rows_Proofs GFun_Total_Proofs GFun_Legacy_Proofs.
Local Open Scope R_scope.
Local Open Scope string_scope.

(** * C84 *)

(** The values at the first times are those of an object that is asked for these times
    only, whatever the later times are. *)
Theorem C84_causal : forall link uw c l l' g, l <> [] -> gfunction link uw (with_time c (VArr (l ++ l'))) = Some (G1 g) ->
  gfunction link uw (with_time c (VArr l)) = Some (G1 (firstn (List.length l) g)).
Proof. exact gfunction_causal. Qed.
Print Assumptions C84_causal.
(** The same for several mass flow rates, after the linear start. *)
Theorem C84_causal_flows : forall link uw c l l' k v thr, l <> [] -> threshold_of c thr -> 0 <= thr -> (forall t, In t (l ++ l') -> thr < t) ->
  gfunction link uw (with_time c (VArr (l ++ l'))) = Some (G3 k v) ->
  exists v', gfunction link uw (with_time c (VArr l)) = Some (G3 k v') /\
    forall i j p, (i < k)%nat -> (j < k)%nat -> (p < List.length l)%nat -> v i j p = v' i j p.
Proof. exact gfunction_causal_3. Qed.
Print Assumptions C84_causal_flows.

Lemma ex_times : times (VArr [-1; / 10 ^ 4; 1; 2]) <> None /\ no_repeats ((3 / 40) ^ 2 / 25) [-1; / 10 ^ 4; 1; 2].
Proof.
  split.
  - unfold times. cbn [numbers map]. assert (I : increasing [Rmax (-1) 0; Rmax (/ 10 ^ 4) 0; Rmax 1 0; Rmax 2 0] = true).
    { cbn [increasing]. rewrite !andb_true_iff, !Rleb_true. unfold Rmax. repeat destruct (Rle_dec _ _); repeat split; lra. }
    rewrite I. discriminate.
  - intros k Hk. destruct k as [|[|[|k]]]; cbn in *; try lia; lra.
Qed.
Example C84_ex : exists g, gfunction plain_link [] (with_time (pair_call "detailed") (VArr ([-1; / 10 ^ 4] ++ [1; 2]))) = Some (G1 g).
Proof. apply pair_solved; apply ex_times. Qed.

(** * C85 *)

(** Without a boundary condition, the one of a list of boreholes is a uniform wall
    temperature and the one of a network a uniform inlet fluid temperature. *)
Theorem C85_default_field : forall link uw c bs, c_source c = Field bs -> c_bc c = None -> gfunction link uw c = gfunction link uw (with_bc c (Some "UBWT")).
Proof. exact default_field. Qed.
Print Assumptions C85_default_field.
Theorem C85_default_network : forall link uw c w, c_source c = Piped w -> c_bc c = None -> gfunction link uw c = gfunction link uw (with_bc c (Some "MIFT")).
Proof. exact default_network. Qed.
Print Assumptions C85_default_network.
(** A flow and a heat capacity stored in the network as floats (a flow also as an array)
    replace those that are not given. *)
Theorem C85_stored_flow : forall link uw c w x, c_source c = Piped w -> w_m w = VFloat x -> c_mb c = VNone -> c_mn c = VNone ->
  gfunction link uw c = gfunction link uw (with_flow c VNone (VFloat x) (c_cp c)).
Proof. exact stored_flow. Qed.
Print Assumptions C85_stored_flow.
Theorem C85_stored_flows : forall link uw c w l, c_source c = Piped w -> w_m w = VArr l -> c_mb c = VNone -> c_mn c = VNone ->
  gfunction link uw c = gfunction link uw (with_flow c (VArr l) VNone (c_cp c)).
Proof. exact stored_flows. Qed.
Print Assumptions C85_stored_flows.
Theorem C85_stored_capacity : forall link uw c w x, c_source c = Piped w -> w_cp w = VFloat x -> c_cp c = VNone ->
  gfunction link uw c = gfunction link uw (with_flow c (c_mb c) (c_mn c) (VFloat x)).
Proof. exact stored_capacity. Qed.
Print Assumptions C85_stored_capacity.
(** If a flow and a heat capacity are given, those of the network are not used. *)
Theorem C85_explicit : forall link uw c w m cp, c_source c = Piped w -> c_mb c <> VNone \/ c_mn c <> VNone -> c_cp c <> VNone ->
  gfunction link uw c = gfunction link uw (with_source c (Piped (store w m cp))).
Proof.
  intros link uw c w m cp E F C.
  assert (F' : is_none (c_mb c) && is_none (c_mn c) = false) by (destruct F as [F|F]; destruct (c_mb c), (c_mn c); auto; congruence).
  assert (C' : is_none (c_cp c) = false) by (destruct (c_cp c); auto; congruence).
  rewrite (explicit_flow link uw c w E F' C'). rewrite (explicit_flow link uw (with_source c (Piped (store w m cp))) (store w m cp) eq_refl F' C'). reflexivity.
Qed.
Print Assumptions C85_explicit.

Lemma ex_threshold : (3 / 40) ^ 2 / 25 < 1.
Proof. lra. Qed.
(** A network that stores the floats 1 and 1 *)
Example C85_ex : exists g, gfunction plain_link [] (with_bc (pair_mift perfect flowing "detailed" (VFloat 1) (VFloat 1) VNone VNone VNone) None) = Some g.
Proof.
  rewrite (C85_default_network _ _ _ (pair_piped perfect flowing (VFloat 1) (VFloat 1))) by reflexivity. rewrite (C85_stored_flow _ _ _ (pair_piped perfect flowing (VFloat 1) (VFloat 1)) 1) by reflexivity. rewrite (C85_stored_capacity _ _ _ (pair_piped perfect flowing (VFloat 1) (VFloat 1)) 1) by reflexivity.
  eexists. eapply (pair_total perfect flowing 1 ltac:(lra) plain_link [] (VFloat 1) (VFloat 1) 1 1 _ _ ex_threshold). apply mixed_drives; lra.
Qed.
(** An integer stored in the network is not used: the g-function is an error. *)
Theorem C85_stored_integer_refuted : exists link uw w c z, c_source c = Piped w /\ c_bc c = None /\ w_m w = VInt z /\ c_mb c = VNone /\ c_mn c = VNone /\
  gfunction link uw c = None /\ exists g, gfunction link uw (with_flow c VNone (VFloat (IZR z)) (c_cp c)) = Some g.
Proof.
  exists plain_link, [], (pair_piped perfect flowing (VInt 1) (VFloat 1)), (with_bc (pair_mift perfect flowing "detailed" (VInt 1) (VFloat 1) VNone VNone VNone) None), 1%Z.
  do 5 (split; [reflexivity|]). split; [apply (not_float _ _ _ (pair_piped perfect flowing (VInt 1) (VFloat 1))); try reflexivity; exact I|].
  eexists. rewrite (C85_default_network _ _ _ (pair_piped perfect flowing (VInt 1) (VFloat 1))) by reflexivity. rewrite (C85_stored_capacity _ _ _ (pair_piped perfect flowing (VInt 1) (VFloat 1)) 1) by reflexivity.
  eapply (pair_total perfect flowing 1 ltac:(lra) plain_link [] (VInt 1) (VFloat 1) 1 1 _ _ ex_threshold). apply mixed_drives; lra.
Qed.
Print Assumptions C85_stored_integer_refuted.

(** * C86 *)

(** Boreholes in parallel with the same pipes: a flow for each borehole, all equal, is an
    error of the default method whatever the other arguments are. *)
Theorem C86_borehole_flows_error : forall link uw c w mb mn cp, c_source c = Piped w -> c_bc c = None \/ c_bc c = Some "MIFT" -> mb <> VNone ->
  parallel w = true -> equal_flows mb = Some true -> same_pipes w = Some true -> gfunction link uw (with_method (with_flow c mb mn cp) "equivalent") = None.
Proof. exact equivalent_raises. Qed.
Print Assumptions C86_borehole_flows_error.
(** The same flows are accepted by the other methods. *)
Theorem C86_borehole_flows_refuted : exists link uw c w x, c_source c = Piped w /\ c_bc c = Some "MIFT" /\
  gfunction link uw (with_method (with_flow c (VArr [x; x]) VNone (VFloat 1)) "equivalent") = None /\
  exists g, gfunction link uw (with_method (with_flow c (VArr [x; x]) VNone (VFloat 1)) "detailed") = Some g.
Proof.
  exists plain_link, [], (pair_mift perfect perfect "equivalent" VNone VNone VNone VNone VNone), (pair_piped perfect perfect VNone VNone), (1 / 4).
  do 2 (split; [reflexivity|]). split.
  - apply (equivalent_raises _ _ _ (pair_piped perfect perfect VNone VNone)); auto; try discriminate; [apply equal_flows_pair|apply pair_same_pipes].
  - eexists. eapply (pair_each perfect perfect 1 ltac:(lra) plain_link [] VNone VNone (1 / 4) (1 / 4) 1 _ _ ex_threshold). apply perfect_drives; lra.
Qed.
Print Assumptions C86_borehole_flows_refuted.
(** In series, or with different flows or pipes, the default method is the one of the
    similarities. *)
Theorem C86_series : forall link uw c w, c_source c = Piped w -> (c_bc c = None \/ c_bc c = Some "MIFT") -> parallel w = false ->
  gfunction link uw (with_method c "equivalent") = gfunction link uw (with_method c "similarities").
Proof. exact series_similarities. Qed.
Print Assumptions C86_series.
Theorem C86_unequal : forall link uw c w mb mn cp, c_source c = Piped w -> c_bc c = None \/ c_bc c = Some "MIFT" -> mb <> VNone ->
  (equal_flows mb = Some false \/ equal_flows mb = Some true /\ same_pipes w = Some false) ->
  gfunction link uw (with_method (with_flow c mb mn cp) "equivalent") = gfunction link uw (with_method (with_flow c mb mn cp) "similarities").
Proof. exact unequal_similarities. Qed.
Print Assumptions C86_unequal.
Lemma ex_unequal : equal_flows (VArr [1 / 4; 1 / 2]) = Some false.
Proof.
  unfold equal_flows. cbn [forallb]. rewrite close_refl. cbn [andb]. assert (E : close (1 / 2) (1 / 4) = false).
  { unfold close. destruct (Rleb _ _) eqn:E; auto. apply Rleb_true in E. rewrite !Rabs_pos_eq in E by lra. lra. }
  rewrite E. reflexivity.
Qed.
Example C86_ex : exists g, gfunction plain_link [] (with_method (with_flow (pair_mift perfect perfect "detailed" VNone VNone VNone VNone VNone) (VArr [1 / 4; 1 / 2]) VNone (VFloat 1)) "detailed") = Some g
  /\ equal_flows (VArr [1 / 4; 1 / 2]) = Some false.
Proof. eexists. split; [eapply (pair_each perfect perfect 1 ltac:(lra) plain_link [] VNone VNone (1 / 4) (1 / 2) 1 _ _ ex_threshold); apply perfect_drives; lra|apply ex_unequal]. Qed.

(** * C87 *)

(** Negative times count as zero. *)
Theorem C87_clamped : forall link uw c l, gfunction link uw (with_time c (VArr (map (fun x => Rmax x 0) l))) = gfunction link uw (with_time c (VArr l)).
Proof. exact gfunction_clamped. Qed.
Print Assumptions C87_clamped.
(** A single time is an array of one time. *)
Theorem C87_number : forall link uw c x, gfunction link uw (with_time c (VFloat x)) = gfunction link uw (with_time c (VArr [x])) /\
  gfunction link uw (with_time c (VNpFloat x)) = gfunction link uw (with_time c (VArr [x])).
Proof. exact gfunction_number. Qed.
Print Assumptions C87_number.
(** One value for each time. *)
Theorem C87_length : forall link uw c l g, gfunction link uw (with_time c (VArr l)) = Some (G1 g) -> List.length g = List.length l.
Proof. intros link uw c l g E. eapply gfunction_length; eauto. Qed.
Print Assumptions C87_length.
(** Positive times out of order are an error. *)
Theorem C87_order : forall link uw c l i j, (i < j)%nat -> (j < List.length l)%nat -> 0 < nth i l 0 -> nth j l 0 < nth i l 0 ->
  gfunction link uw (with_time c (VArr l)) = None.
Proof. exact gfunction_order. Qed.
Print Assumptions C87_order.
(** The values up to the threshold are on the line from zero to the value at the threshold. *)
Theorem C87_linear_start : forall link uw c l g thr, gfunction link uw (with_time c (VArr l)) = Some (G1 g) -> threshold_of c thr -> 0 < thr -> nth 0 l 0 <= thr ->
  exists v, gfunction link uw (with_time c (VArr [thr])) = Some (G1 [v]) /\
    forall p, (p < List.length l)%nat -> nth p l 0 <= thr -> nth p g 0 = v * Rmax (nth p l 0) 0 / thr.
Proof. exact gfunction_start. Qed.
Print Assumptions C87_linear_start.
(** In particular the g-function is zero at the times that are not positive. *)
Theorem C87_zero : forall link uw c l g thr p, gfunction link uw (with_time c (VArr l)) = Some (G1 g) -> threshold_of c thr -> 0 <= thr ->
  (p < List.length l)%nat -> nth p l 0 <= 0 -> nth p g 0 = 0.
Proof.
  intros link uw c l g thr p E Th Tp Hp Hz. destruct (gfunction_linear link uw c l g thr E Th Tp) as [a A]. rewrite (A p Hp) by lra. rewrite Rmax_right by auto. unfold Rdiv. ring.
Qed.
Print Assumptions C87_zero.
(** A Python integer is refused. *)
Theorem C87_integer_refuted : exists link uw c z, gfunction link uw (with_time c (VInt z)) = None /\ exists g, gfunction link uw (with_time c (VFloat (IZR z))) = Some g.
Proof.
  exists plain_link, [], (pair_call "detailed"), 1%Z. split; [apply gfunction_integer|].
  destruct (pair_solved plain_link [] [1]) as [g E].
  - unfold times. cbn. discriminate.
  - intros k Hk. cbn in Hk. lia.
  - exists (G1 g). rewrite (proj1 (gfunction_number plain_link [] (pair_call "detailed") 1)). exact E.
Qed.
Print Assumptions C87_integer_refuted.
Example C87_ex : threshold_of (pair_call "detailed") ((3 / 40) ^ 2 / 25) /\ exists g, gfunction plain_link [] (with_time (pair_call "detailed") (VArr [-1; / 10 ^ 4; 1; 2])) = Some (G1 g).
Proof. split; [apply pair_threshold|]. apply pair_solved; apply ex_times. Qed.

(** * C88 *)

(** from_static_params for a list of boreholes is the g-function of these boreholes. *)
Theorem C88_field : forall link uw fluid_cp pipes bs alpha time method m o bc fluid percent temperature conn, bc = "UBWT" \/ bc = "UHTR" ->
  static_gfunction link uw fluid_cp pipes bs alpha time method m o bc fluid percent temperature conn
  = gfunction link uw (mkcall (Field bs) alpha time method (Some bc) VNone m VNone o).
Proof. exact static_field. Qed.
Print Assumptions C88_field.
(** For a network, it is the one of the network built from the pipes if the fluid has the
    same heat capacity at 20 degrees and at its temperature. *)
Theorem C88_network : forall link uw fluid_cp pipes bs alpha time method x o fluid percent temperature conn cp ps ks Rd N,
  fluid_cp fluid percent 20 = Some cp -> fluid_cp fluid percent temperature = Some cp -> build_net (List.length bs) conn = Some N ->
  pipes (Rabs (x / INR (match conn with None => List.length bs | Some c => Net_Model.count c (-1) end))) = Some (ps, ks, Rd) ->
  static_gfunction link uw fluid_cp pipes bs alpha time method (VFloat x) o "MIFT" fluid percent temperature conn
  = gfunction link uw (mkcall (Piped (mknetwork bs ps ks Rd N VNone VNone)) alpha time method (Some "MIFT") VNone (VFloat x) (VFloat cp) o).
Proof. exact static_network. Qed.
Print Assumptions C88_network.
(** A fluid of heat capacity 1 at 20 degrees and 2 above *)
Definition warmed (_ : string) (_ T : R) : option R := Some (if Rleb T 20 then 1 else 2).
Definition two_pipes_of (_ : R) : option (list pipe * list R * list (list R)) := Some ([perfect; flowing], [1; 1], [[1]; [1]]).
Lemma warmed_20 s p : warmed s p 20 = Some 1.
Proof. unfold warmed. destruct (Rleb 20 20) eqn:E; auto. apply Rleb_false in E. lra. Qed.
Lemma warmed_30 s p : warmed s p 30 = Some 2.
Proof. unfold warmed. destruct (Rleb 30 20) eqn:E; auto. apply Rleb_true in E. lra. Qed.
(** Otherwise the heat capacity is not the one at the temperature of the fluid. *)
Theorem C88_temperature_refuted : exists link uw fluid_cp pipes bs alpha time method x o fluid percent temperature ps ks Rd N cp a b,
  fluid_cp fluid percent temperature = Some cp /\ build_net (List.length bs) None = Some N /\ pipes (Rabs (x / INR (List.length bs))) = Some (ps, ks, Rd) /\
  static_gfunction link uw fluid_cp pipes bs alpha time method (VFloat x) o "MIFT" fluid percent temperature None = Some (G1 [a]) /\
  gfunction link uw (mkcall (Piped (mknetwork bs ps ks Rd N VNone VNone)) alpha time method (Some "MIFT") VNone (VFloat x) (VFloat cp) o) = Some (G1 [b]) /\ a <> b.
Proof.
  exists plain_link, [], warmed, two_pipes_of, pair_field, 1, (VArr [1]), "detailed", 1, pair_options, "Water", 0, 30, [perfect; flowing], [1; 1], [[1]; [1]], two, 2, (pair_g 1 (1 / 2) (1 / 4)), (pair_g 1 1 (1 / 2)).
  split; [apply warmed_30|]. split; [apply two_build|]. split; [reflexivity|]. split; [|split].
  - unfold static_gfunction. change (negb (existsb (String.eqb (upper "MIFT")) ["UBWT"; "UHTR"; "MIFT"])) with false. change (String.eqb (upper "MIFT") "MIFT") with true. cbv iota zeta.
    rewrite warmed_20, warmed_30. unfold two_pipes_of, make_network. change (List.length pair_field) with 2%nat. rewrite two_build.
    eapply (pair_total perfect flowing 1 ltac:(lra) plain_link [] (VFloat 1) (VFloat 2) 1 1 _ _ ex_threshold).
    apply mixed_as; lra.
  - eapply (pair_total perfect flowing 2 ltac:(lra) plain_link [] VNone VNone 1 1 _ _ ex_threshold).
    apply mixed_as; lra.
  - apply pair_values_differ. lra.
Qed.
Print Assumptions C88_temperature_refuted.
(** A boundary condition in small letters passes the test of from_static_params and is
    refused afterwards. *)
Theorem C88_lower_case_refuted : exists link uw fluid_cp pipes bs alpha time method x o fluid percent temperature conn bc, upper bc = "MIFT" /\
  static_gfunction link uw fluid_cp pipes bs alpha time method (VFloat x) o bc fluid percent temperature conn = None /\
  exists g, static_gfunction link uw fluid_cp pipes bs alpha time method (VFloat x) o (upper bc) fluid percent temperature conn = Some g.
Proof.
  exists plain_link, [], (fun _ _ _ => Some 1), two_pipes_of, pair_field, 1, (VArr [1]), "detailed", 1, pair_options, "Water", 0, 20, None, "mift".
  split; [reflexivity|]. split.
  - unfold static_gfunction. change (negb (existsb (String.eqb (upper "mift")) ["UBWT"; "UHTR"; "MIFT"])) with false. change (String.eqb (upper "mift") "MIFT") with true. cbv iota zeta.
    unfold two_pipes_of, make_network. change (List.length pair_field) with 2%nat. rewrite two_build. apply (lower_mift plain_link [] "mift" eq_refl); [discriminate|reflexivity].
  - change (upper "mift") with "MIFT". eexists. rewrite (C88_network plain_link [] (fun _ _ _ => Some 1) two_pipes_of pair_field 1 (VArr [1]) "detailed" 1 pair_options "Water" 0 20 None 1 [perfect; flowing] [1; 1] [[1]; [1]] two eq_refl eq_refl two_build eq_refl).
    eapply (pair_total perfect flowing 1 ltac:(lra) plain_link [] VNone VNone 1 1 _ _ ex_threshold). apply mixed_drives; lra.
Qed.
Print Assumptions C88_lower_case_refuted.

(** * C89 *)

(** The methods of the similarities and of the detailed solution give the same g-function
    of a field that the tolerances do not confuse, for all boundary conditions. *)
Theorem C89_similarities : forall link uw c u M, sharp c u M -> gfunction link uw (with_method c "similarities") = gfunction link uw (with_method c "detailed").
Proof. intros link uw c u M Sh. apply (similarities_detailed link uw c u M Sh). Qed.
Print Assumptions C89_similarities.
(** The equivalent boreholes, at a uniform wall temperature and for an equitable clustering *)
Theorem C89_equivalent : forall link uw c thr u M n r l g, 0 < c_alpha c -> threshold_of c thr -> 0 < thr -> agglomerative link ->
  sharp_equivalent c u M n r -> equitable_field link c -> construct (with_time (with_method (with_bc c (Some "UBWT")) "equivalent") (VArr [])) <> None ->
  no_repeats thr l -> gfunction link uw (with_time (with_method (with_bc c (Some "UBWT")) "detailed") (VArr l)) = Some (G1 g) ->
  gfunction link uw (with_time (with_method (with_bc c (Some "UBWT")) "equivalent") (VArr l)) = Some (G1 g).
Proof. intros link uw c thr u M n r l g A T Tp Ag Sh Ef Co Nr. apply (ubwt_equivalent_object link uw c thr u M n r A T Tp Ag Sh Ef l g Co Nr). Qed.
Print Assumptions C89_equivalent.
Example C89_ex : sharp (pair_call "detailed") 1 104 /\ sharp_equivalent (pair_call "detailed") 1 104 1 [1] /\ equitable_field plain_link (pair_call "detailed") /\
  construct (with_time (with_method (with_bc (pair_call "detailed") (Some "UBWT")) "equivalent") (VArr [])) <> None /\
  exists g, gfunction plain_link [] (with_time (with_method (with_bc (pair_call "detailed") (Some "UBWT")) "detailed") (VArr [-1; / 10 ^ 4; 1; 2])) = Some (G1 g).
Proof.
  split; [apply pair_sharp|]. split; [apply pair_sharp_equivalent|]. split; [apply pair_equitable_field, plain_ok|]. split; [apply (pair_constructed "equivalent" (Some "UBWT")); cbn; auto|].
  destruct (pair_solved plain_link [] [-1; / 10 ^ 4; 1; 2] (proj1 ex_times) (proj2 ex_times)) as [g E]. exists g. rewrite <- E. symmetry. apply (default_field _ _ (with_time (pair_call "detailed") (VArr [-1; / 10 ^ 4; 1; 2])) pair_field); reflexivity.
Qed.

(** * C90 *)

(** Uniform heat extraction rates: the mean over the boreholes of the responses of all
    boreholes, after a linear start. *)
Theorem C90_detailed : forall link uw c thr l, 0 < c_alpha c -> threshold_of c thr -> 0 < thr -> c_method c = "detailed" ->
  construct (with_time (with_bc c (Some "UHTR")) (VArr [])) <> None -> times (VArr l) <> None ->
  segmented (boreholes_of c) (segments_of c) (ratios_of c) -> vertical_field (boreholes_of c) -> good_ratios (ratios_of c) ->
  exists g, gfunction link uw (with_time (with_bc c (Some "UHTR")) (VArr l)) = Some (G1 g) /\ List.length g = List.length l /\
    forall k, (k < List.length l)%nat -> nth k g 0 = started (fun t => field_mean (c_alpha c) t (boreholes_of c)) thr (nth k l 0).
Proof. intros link uw c thr l A T Tp. apply (uhtr_detailed link uw c thr A T Tp). Qed.
Print Assumptions C90_detailed.
Theorem C90_equivalent : forall link uw c thr u M n r l, 0 < c_alpha c -> threshold_of c thr -> 0 < thr -> c_method c = "equivalent" ->
  construct (with_time (with_bc c (Some "UHTR")) (VArr [])) <> None -> times (VArr l) <> None -> agglomerative link -> sharp_equivalent c u M n r ->
  exists g, gfunction link uw (with_time (with_bc c (Some "UHTR")) (VArr l)) = Some (G1 g) /\ List.length g = List.length l /\
    forall k, (k < List.length l)%nat -> nth k g 0 = started (fun t => field_mean (c_alpha c) t (boreholes_of c)) thr (nth k l 0).
Proof. intros link uw c thr u M n r l A T Tp Me Co Ti Ag Sh. apply (uhtr_equivalent_object link uw c thr A T Tp l u M n r Me Co Ti Ag Sh). Qed.
Print Assumptions C90_equivalent.
(** These values are positive and increase with time. *)
Theorem C90_increasing : forall alpha bs thr t t', 0 < alpha -> bs <> [] -> vertical_field bs -> 0 < thr -> 0 <= t -> t < t' ->
  0 < started (fun t => field_mean alpha t bs) thr t' /\ started (fun t => field_mean alpha t bs) thr t < started (fun t => field_mean alpha t bs) thr t'.
Proof.
  intros alpha bs thr t t' A N V Tp T0 TT. split.
  - apply started_positive; auto; [|lra]. intros z Hz. apply C80_positive; auto.
  - apply started_increasing; auto; intros; [apply C80_positive; auto|apply C80_increasing; auto].
Qed.
Print Assumptions C90_increasing.
Example C90_ex : threshold_of (pair_call "equivalent") ((3 / 40) ^ 2 / 25) /\ construct (with_time (with_bc (pair_call "equivalent") (Some "UHTR")) (VArr [])) <> None /\
  construct (with_time (with_bc (pair_call "detailed") (Some "UHTR")) (VArr [])) <> None /\ sharp_equivalent (pair_call "equivalent") 1 104 1 [1] /\ vertical_field pair_field.
Proof.
  split; [apply pair_threshold|]. split; [apply pair_constructed; cbn; auto|]. split; [apply pair_constructed; cbn; auto|]. split; [apply pair_sharp_equivalent|apply pair_vertical].
Qed.

(** * C91 *)

(** Several flows at once: each g-function of a flow is the one of this flow alone. *)
Theorem C91_flow_alone : forall link uw c w x thr rows l k v i, c_source c = Piped w -> c_bc c = Some "MIFT" -> c_method c = "detailed" \/ c_method c = "similarities" ->
  threshold_of c thr -> 0 <= thr -> (forall t, In t l -> thr < t) -> (forall r, In r rows -> List.length r = nInlets (w_c w)) ->
  gfunction link uw (with_time (with_flow c (VArr2 rows) VNone (VFloat x)) (VArr l)) = Some (G3 k v) -> (i < k)%nat ->
  gfunction link uw (with_time (with_flow c (VArr (nth i rows [])) VNone (VFloat x)) (VArr l)) = Some (G1 (map (v i i) (seq 0 (List.length l)))).
Proof. intros link uw c w x thr rows l k v i Es Eb Me Th Tp Ab. apply (rows_each link uw c w x thr rows l Es Eb Me Th Tp Ab). Qed.
Print Assumptions C91_flow_alone.
(** The same for several total flows. *)
Theorem C91_total_alone : forall link uw c cp ms l k v thr i, c_bc c = Some "MIFT" -> threshold_of c thr -> 0 <= thr -> (forall t, In t l -> thr < t) ->
  gfunction link uw (with_time (with_flow c VNone (VArr ms) cp) (VArr l)) = Some (G3 k v) -> (i < k)%nat ->
  gfunction link uw (with_time (with_flow c VNone (VFloat (nth i ms 0)) cp) (VArr l)) = Some (G1 (map (v i i) (seq 0 (List.length l)))).
Proof. exact totals_each. Qed.
Print Assumptions C91_total_alone.
(** The cross g-function of two equal flows is the g-function of this flow. *)
Theorem C91_equal_flows : forall link uw c w x thr rows l k v i j p, c_source c = Piped w -> c_bc c = Some "MIFT" -> c_method c = "detailed" \/ c_method c = "similarities" ->
  threshold_of c thr -> 0 < thr -> (forall t, In t l -> thr < t) -> no_repeats thr l -> connected w -> segmented (w_b w) (segments_of c) (ratios_of c) -> vertical_field (w_b w) ->
  good_ratios (ratios_of c) -> balanced_pipes w (segments_of c) (ratios_of c) [x] (nth i rows []) -> nth 0 (w_ks w) 0 <> 0 -> (forall r, In r rows -> List.length r = nInlets (w_c w)) ->
  gfunction link uw (with_time (with_flow c (VArr2 rows) VNone (VFloat x)) (VArr l)) = Some (G3 k v) -> (i < k)%nat -> (j < k)%nat -> (p < List.length l)%nat ->
  nth i rows [] = nth j rows [] -> (forall F, network_flow w (segments_of c) (ratios_of c) [x] (nth i rows []) = Some F -> f_net_in F <> 0) ->
  v i j p = v j j p.
Proof.
  intros link uw c w x thr rows l k v i j p Es Eb Me Th Tp Ab Nr Cw Sg Vf Gr Bp Ks Rect E Hi Hj Hp.
  apply (rows_twins link uw c w x thr rows l Es Eb Me Th (Rlt_le _ _ Tp) Ab Cw Sg Vf Gr Ks k v i j p Rect E Hi Hj Hp Nr Tp Bp).
Qed.
Print Assumptions C91_equal_flows.
Lemma ex_rows x : 0 < x < 1 -> forall row, In row [[x; x]; [1 / 4; 1 / 2]; [x; x]] -> List.length row = 2%nat /\ exists k1 k2, drives perfect flowing 1 row k1 k2.
Proof. intros Hx row [<-|[<-|[<-|[]]]]; (split; [reflexivity|]); do 2 eexists; apply each_drives; lra. Qed.
Lemma ex_late : times (VArr [1; 2]) <> None /\ no_repeats ((3 / 40) ^ 2 / 25) [1; 2] /\ forall t, In t [1; 2] -> (3 / 40) ^ 2 / 25 < t.
Proof.
  split; [|split].
  - unfold times. cbn [numbers map]. assert (I : increasing [Rmax 1 0; Rmax 2 0] = true).
    { cbn [increasing]. rewrite !andb_true_iff, !Rleb_true. unfold Rmax. repeat destruct (Rle_dec _ _); repeat split; lra. }
    rewrite I. discriminate.
  - intros k Hk. destruct k as [|k]; cbn in *; try lia; lra.
  - intros t [<-|[<-|[]]]; lra.
Qed.
Example C91_ex : (exists v, gfunction plain_link [] (with_time (with_flow (pair_mift perfect flowing "detailed" VNone VNone VNone VNone VNone) (VArr2 [[1 / 3; 1 / 3]; [1 / 4; 1 / 2]; [1 / 3; 1 / 3]]) VNone (VFloat 1)) (VArr [1; 2])) = Some (G3 3 v)) /\
  connected (pair_piped perfect flowing VNone VNone) /\ balanced_pipes (pair_piped perfect flowing VNone VNone) [1; 1]%nat [[1]; [1]] [1] [1 / 3; 1 / 3] /\
  forall F, network_flow (pair_piped perfect flowing VNone VNone) [1; 1]%nat [[1]; [1]] [1] [1 / 3; 1 / 3] = Some F -> f_net_in F <> 0.
Proof.
  split; [|split; [|split]].
  - apply (pair_rows_solved perfect flowing 1 ltac:(lra) plain_link [] VNone VNone [[1 / 3; 1 / 3]; [1 / 4; 1 / 2]; [1 / 3; 1 / 3]] [1; 2]); try apply ex_late; [discriminate|]. apply ex_rows. lra.
  - split; [reflexivity|]. exists None. apply two_build.
  - assert (Gd : good_args two [perfect; flowing] (mkargs [1 / 3; 1 / 3] [1] (SegL [1; 1]%nat) (Net_Model.RList [[1]; [1]])) (two_format (1 / 3) (1 / 3) 1 (Some [1]))).
    { apply (two_args_good perfect flowing (1 / 3) (1 / 3) 1 (1 / 3 * 1)); auto; try lra. apply perfect_conducts; lra. }
    unfold balanced_pipes, the_fmt. cbn [w_c pair_piped]. rewrite (proj1 Gd).
    intros [|[|[|i]]] p Hp; cbn in Hp; try discriminate; injection Hp as <-; [apply perfect_ok|apply flowing_ok]; cbn; lia.
  - intros F E. destruct (two_network_flow perfect flowing (1 / 3) (1 / 3) 1 (1 / 3 * 1) (1 / 3 * 1 * (1 - 1 / 3)) [1 / 3; 1 / 3]) with (w := pair_piped perfect flowing VNone VNone) as (F' & E' & _ & _ & Nf & _); auto; try lra;
      [apply perfect_conducts; lra|apply flowing_conducts; lra|]. rewrite E' in E. injection E as <-. rewrite Nf. lra.
Qed.

(** * C93 *)

(** The network is not modified by the methods of the similarities and of the detailed
    solution, nor by the equivalent boreholes if its flow is not an array. *)
Theorem C93_network_kept : forall c w q s, c_source c = Piped w -> construct c = Some (q, s) ->
  lower (c_method c) <> "equivalent" \/ match w_m w with VArr _ => False | _ => True end -> v_net s = Some w.
Proof. exact network_kept. Qed.
Print Assumptions C93_network_kept.
(** Otherwise the flow stored in the network may change, and a g-function of this network
    that existed before is an error afterwards. *)
Theorem C93_network_changed_refuted : exists link uw c w q s w' d, c_source c = Piped w /\ construct c = Some (q, s) /\ v_net s = Some w' /\ w_m w' <> w_m w /\
  (exists g, gfunction link uw (with_source d (Piped w)) = Some g) /\ gfunction link uw (with_source d (Piped w')) = None.
Proof.
  exists plain_link, [], (pair_mift perfect perfect "equivalent" (VArr [1 / 4; 1 / 4]) (VFloat 1) VNone (VFloat 1) (VFloat 1)), (pair_piped perfect perfect (VArr [1 / 4; 1 / 4]) (VFloat 1)).
  exists (mkrequest pair_field (Some (pair_piped perfect perfect (VArr [1 / 4; 1 / 4]) (VFloat 1))) "equivalent" "MIFT" VNone (VFloat 1) (VFloat 1)),
    (mksolver [1; 1]%nat [[1]; [1]] 0 [[1]] (Some (pair_piped perfect perfect (VNpFloat (1 / 4 * INR 2)) (VFloat 1)))), (pair_piped perfect perfect (VNpFloat (1 / 4 * INR 2)) (VFloat 1)),
    (with_bc (pair_mift perfect perfect "detailed" VNone VNone VNone VNone VNone) None).
  split; [reflexivity|]. split; [|split; [reflexivity|split; [discriminate|split]]].
  - unfold construct. assert (R : resolve (pair_mift perfect perfect "equivalent" (VArr [1 / 4; 1 / 4]) (VFloat 1) VNone (VFloat 1) (VFloat 1)) =
      Some (mkrequest pair_field (Some (pair_piped perfect perfect (VArr [1 / 4; 1 / 4]) (VFloat 1))) "equivalent" "MIFT" VNone (VFloat 1) (VFloat 1))).
    { unfold resolve, pair_mift. cbn [c_source c_bc c_method c_mb c_mn c_cp is_none andb equal_flows]. change (String.eqb "MIFT" "MIFT" && String.eqb (lower "equivalent") "equivalent") with true. cbv iota.
      rewrite pair_parallel, pair_same_pipes. reflexivity. }
    rewrite R. assert (C : check (pair_mift perfect perfect "equivalent" (VArr [1 / 4; 1 / 4]) (VFloat 1) VNone (VFloat 1) (VFloat 1)) (mkrequest pair_field (Some (pair_piped perfect perfect (VArr [1 / 4; 1 / 4]) (VFloat 1))) "equivalent" "MIFT" VNone (VFloat 1) (VFloat 1)) = true).
    { unfold check. cbn [q_bs q_net q_method q_bc q_mb q_mn q_cp]. rewrite pair_unique. reflexivity. }
    rewrite C. unfold make_solver. cbn [q_bs q_net q_method q_bc q_mb q_mn q_cp solver_flows].
    change (format_segments (List.length pair_field) (o_n (c_options (pair_mift perfect perfect "equivalent" (VArr [1 / 4; 1 / 4]) (VFloat 1) VNone (VFloat 1) (VFloat 1))))) with [1; 1]%nat.
    change (format_ratios (List.length pair_field) [1; 1]%nat (o_r (c_options (pair_mift perfect perfect "equivalent" (VArr [1 / 4; 1 / 4]) (VFloat 1) VNone (VFloat 1) (VFloat 1))))) with [[1]; [1]].
    rewrite pair_checks. change (c_options (pair_mift perfect perfect "equivalent" (VArr [1 / 4; 1 / 4]) (VFloat 1) VNone (VFloat 1) (VFloat 1))) with pair_options. rewrite pair_equivalent_checks.
    unfold equivalent_network. cbn [q_bs q_net q_method q_bc q_mb q_mn q_cp]. rewrite pair_parallel, pair_same_pipes. reflexivity.
  - set (d := with_source _ _). rewrite (C85_default_network _ _ d (pair_piped perfect perfect (VArr [1 / 4; 1 / 4]) (VFloat 1))) by reflexivity.
    rewrite (C85_stored_flows _ _ _ (pair_piped perfect perfect (VArr [1 / 4; 1 / 4]) (VFloat 1)) [1 / 4; 1 / 4]) by reflexivity.
    rewrite (C85_stored_capacity _ _ _ (pair_piped perfect perfect (VArr [1 / 4; 1 / 4]) (VFloat 1)) 1) by reflexivity. eexists.
    eapply (pair_each perfect perfect 1 ltac:(lra) plain_link [] (VArr [1 / 4; 1 / 4]) (VFloat 1) (1 / 4) (1 / 4) 1 _ _ ex_threshold). apply perfect_drives; lra.
  - apply (not_float _ _ _ (pair_piped perfect perfect (VNpFloat (1 / 4 * INR 2)) (VFloat 1))); try reflexivity; exact I.
Qed.
Print Assumptions C93_network_changed_refuted.

(** * C94 *)

(** A uniform inlet temperature has a g-function if the heat is taken where the walls are
    warmer than the inlet and the responses are those of a stable ground. *)
Theorem C94_exists : forall link uw c w x thr mb mn row F l, c_source c = Piped w -> c_bc c = Some "MIFT" -> c_method c = "detailed" -> threshold_of c thr -> 0 < thr ->
  segmented (w_b w) (segments_of c) (ratios_of c) -> vertical_field (w_b w) -> good_ratios (ratios_of c) -> 0 < nth 0 (w_ks w) 0 ->
  (forall t, 0 < t -> definite (n_sources (w_b w) (segments_of c) (ratios_of c)) (segment_length (w_b w) (segments_of c) (ratios_of c))
                        (detailed_matrix (line_kernel (c_alpha c) t uw) (w_b w) (segments_of c) (ratios_of c))) ->
  (mb = VNone <-> mn <> VNone) -> solver_flows mb mn = Some (0%nat, [row]) -> construct (with_time (with_flow c mb mn (VFloat x)) (VArr [])) <> None ->
  network_flow w (segments_of c) (ratios_of c) [x] row = Some F -> passive (list_sum (segments_of c)) F -> circulates (list_sum (segments_of c)) F ->
  times (VArr l) <> None -> no_repeats thr l ->
  exists g, gfunction link uw (with_time (with_flow c mb mn (VFloat x)) (VArr l)) = Some (G1 g) /\ List.length g = List.length l.
Proof. intros link uw c w x thr mb mn row F l Es Eb Me Th Tp Sg Vf Gr Ks Df. apply (mift_object link uw c w x thr Es Eb Me Th Tp Sg Vf Gr Ks Df). Qed.
Print Assumptions C94_exists.
Example C94_ex : let c := pair_mift perfect flowing "detailed" VNone VNone VNone VNone VNone in
  (forall t, 0 < t -> definite 2 (segment_length pair_field [1; 1]%nat [[1]; [1]]) (detailed_matrix (line_kernel 1 t []) pair_field [1; 1]%nat [[1]; [1]])) /\
  construct (with_time (with_flow c (VArr [1 / 4; 1 / 2]) VNone (VFloat 1)) (VArr [])) <> None /\
  exists F, network_flow (pair_piped perfect flowing VNone VNone) (segments_of c) (ratios_of c) [1] [1 / 4; 1 / 2] = Some F /\ passive (list_sum (segments_of c)) F /\ circulates (list_sum (segments_of c)) F.
Proof.
  cbv zeta. split; [intros t Ht; apply pair_definite; auto|]. split.
  - pose proof (pair_mift_constructed perfect flowing "detailed" VNone VNone (VArr [1 / 4; 1 / 2]) VNone (VFloat 1) 0 [[1 / 4; 1 / 2]]) as E.
    assert (N : construct (with_time (pair_mift perfect flowing "detailed" VNone VNone (VArr [1 / 4; 1 / 2]) VNone (VFloat 1)) (VArr [])) <> None).
    { rewrite E; try discriminate; auto; [left; auto|right; repeat split; discriminate]. }
    exact N.
  - destruct (pair_flow perfect flowing 1 ltac:(lra) VNone VNone [1 / 4; 1 / 2] _ _ (each_drives 1 (1 / 4) (1 / 2) ltac:(lra) ltac:(lra) ltac:(lra))) as (F & E & P & C & _). exists F. auto.
Qed.

(** * C56 *)

(** mixed_inlet_temperature is the g-function for the flow and the heat capacity that the
    network stores, whatever the arguments are. *)
Theorem C56_mixed_stored : forall link uw w x y m cp time alpha n r sim disTol tol, w_m w = VFloat x -> w_cp w = VFloat y ->
  mixed_inlet_temperature link uw w m cp time alpha n r sim disTol tol
  = gfunction link uw (mkcall (Piped w) alpha time (solver_name sim) (Some "MIFT") VNone (VFloat x) (VFloat y) (mkoptions n r None tol disTol 1)).
Proof. exact mixed_stored. Qed.
Print Assumptions C56_mixed_stored.
Theorem C56_mixed_refuted : exists link uw w m cp time alpha n r disTol tol a b,
  mixed_inlet_temperature link uw w (VFloat m) (VFloat cp) time alpha n r false disTol tol = Some (G1 [a]) /\
  gfunction link uw (mkcall (Piped w) alpha time "detailed" (Some "MIFT") VNone (VFloat m) (VFloat cp) (mkoptions n r None tol disTol 1)) = Some (G1 [b]) /\ a <> b.
Proof.
  exists plain_link, [], (pair_piped perfect flowing (VFloat 1) (VFloat 1)), (3 / 2), 1, (VArr [1]), 1, (SInt 1), (Detailed_Model.RArray [1]), (1 / 100), (/ 10 ^ 6), (pair_g 1 (1 / 2) (1 / 4)), (pair_g 1 (3 / 4) (3 / 16)).
  split; [|split].
  - rewrite (mixed_stored _ _ _ 1 1) by reflexivity. eapply (pair_total perfect flowing 1 ltac:(lra) plain_link [] (VFloat 1) (VFloat 1) 1 1 _ _ ex_threshold).
    apply mixed_as; lra.
  - eapply (pair_total perfect flowing 1 ltac:(lra) plain_link [] (VFloat 1) (VFloat 1) (3 / 2) 1 _ _ ex_threshold).
    apply mixed_as; lra.
  - apply pair_values_differ. lra.
Qed.
Print Assumptions C56_mixed_refuted.
(** Without a stored flow it is an error. *)
Theorem C56_mixed_nothing_stored : forall link uw w m cp time alpha n r sim disTol tol, w_m w = VNone ->
  mixed_inlet_temperature link uw w m cp time alpha n r sim disTol tol = None.
Proof. exact mixed_nothing. Qed.
Print Assumptions C56_mixed_nothing_stored.
(** equal_inlet_temperature for a float is the g-function for this flow in each borehole. *)
Theorem C56_equal : forall link uw bs ps ks Rd m cp time alpha n r sim disTol tol N g, build_net (List.length bs) None = Some N -> List.length ps = List.length bs ->
  let c := mkcall (Piped (mknetwork bs ps ks Rd N VNone VNone)) alpha time (solver_name sim) (Some "MIFT") (VArr (repeat m (List.length bs))) VNone (VFloat cp) (mkoptions n r None tol disTol 1) in
  List.length (segments_of c) = List.length bs -> List.length (ratios_of c) = List.length bs ->
  equal_inlet_temperature link uw bs ps ks Rd (VFloat m) (VFloat cp) time alpha n r sim disTol tol = Some g -> gfunction link uw c = Some g.
Proof. exact equal_inlet. Qed.
Print Assumptions C56_equal.
(** For an array, the flows are multiplied by the number of boreholes. *)
Theorem C56_equal_array_refuted : exists link uw bs ps ks Rd m cp time alpha n r disTol tol N a b, build_net (List.length bs) None = Some N /\ List.length ps = List.length bs /\ List.length m = List.length bs /\
  equal_inlet_temperature link uw bs ps ks Rd (VArr m) (VFloat cp) time alpha n r false disTol tol = Some (G1 [a]) /\
  gfunction link uw (mkcall (Piped (mknetwork bs ps ks Rd N VNone VNone)) alpha time "detailed" (Some "MIFT") (VArr m) VNone (VFloat cp) (mkoptions n r None tol disTol 1)) = Some (G1 [b]) /\ a <> b.
Proof.
  exists plain_link, [], pair_field, [perfect; flowing], [1; 1], [[1]; [1]], [1 / 4; 1 / 4], 1, (VArr [1]), 1, (SInt 1), (Detailed_Model.RArray [1]), (1 / 100), (/ 10 ^ 6), two, (pair_g 1 (1 / 2) (1 / 4)), (pair_g 1 (1 / 4) (3 / 16)).
  split; [apply two_build|]. split; [reflexivity|]. split; [reflexivity|]. split; [|split].
  - unfold equal_inlet_temperature. change (List.length pair_field) with 2%nat. cbn [times_nat map]. replace (1 / 4 * INR 2) with (1 / 2) by (cbn; lra). unfold make_network. change (List.length pair_field) with 2%nat. rewrite two_build. cbn [is_none orb numbers].
    rewrite (pair_answers perfect flowing (1 / 2) (1 / 2) 1 (1 / 2 * 1) (1 / 2 * 1 * (1 - 1 / 2))); try lra; [|apply perfect_conducts; lra|apply flowing_conducts; lra].
    rewrite (C85_stored_flows _ _ _ (pair_piped perfect flowing (VArr [1 / 2; 1 / 2]) (VFloat 1)) [1 / 2; 1 / 2]) by reflexivity.
    rewrite (C85_stored_capacity _ _ _ (pair_piped perfect flowing (VArr [1 / 2; 1 / 2]) (VFloat 1)) 1) by reflexivity.
    eapply (pair_each perfect flowing 1 ltac:(lra) plain_link [] (VArr [1 / 2; 1 / 2]) (VFloat 1) (1 / 2) (1 / 2) 1 _ _ ex_threshold).
    apply each_as; lra.
  - eapply (pair_each perfect flowing 1 ltac:(lra) plain_link [] VNone VNone (1 / 4) (1 / 4) 1 _ _ ex_threshold).
    apply each_as; lra.
  - apply pair_doubles_differ. lra.
Qed.
Print Assumptions C56_equal_array_refuted.
