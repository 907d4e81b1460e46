(** The older functions and from_static_params; examples of networks. *)
From Coq Require Import String.
From Verif Require Import Base LinAlg FLS_Model.
From Verif Require Import Bore_Model Net_Model Net_Spec Net_Proofs Net_Coef_Proofs Net_Cache_Proofs Net_Heat_Proofs Net_Equiv_Proofs Net_More_Proofs Net_Extra_Proofs
  Solve_Model Solve_Spec Detailed_Model Detailed_Spec Sim_Model Sim_Spec Eq_Model Eq_Spec
  GFun_Model GFun_Spec GFun_Eval_Proofs GFun_Dispatch_Proofs GFun_Pair_Proofs GFun_Two_Proofs GFun_Mift_Proofs GFun_Flow_Proofs.
Local Open Scope R_scope.
Local Open Scope string_scope.

Section Legacy.
  Variables (link : list R -> tree) (uw : list (R * R)).
  Local Notation G := (gfunction link uw).
  Local Notation MIFT w alpha time sim mb mn cp n r disTol tol :=
    (G (mkcall (Piped w) alpha time (solver_name sim) (Some "MIFT") mb mn cp (mkoptions n r None tol disTol 1))).

  Lemma mixed_stored w x y m cp time alpha n r sim disTol tol : w_m w = VFloat x -> w_cp w = VFloat y ->
    mixed_inlet_temperature link uw w m cp time alpha n r sim disTol tol = MIFT w alpha time sim VNone (VFloat x) (VFloat y) n r disTol tol.
  Proof.
    intros M C. unfold mixed_inlet_temperature. rewrite (stored_flow link uw _ w x); auto. cbn [with_flow c_source c_alpha c_time c_method c_bc c_cp c_options].
    rewrite (stored_capacity link uw _ w y); auto.
  Qed.

  Lemma mixed_nothing w m cp time alpha n r sim disTol tol : w_m w = VNone ->
    mixed_inlet_temperature link uw w m cp time alpha n r sim disTol tol = None.
  Proof.
    intros M. unfold mixed_inlet_temperature, gfunction, construct, resolve. cbn [c_source c_bc c_method c_mb c_mn c_cp is_none andb]. rewrite M.
    assert (E : String.eqb (lower (solver_name sim)) "equivalent" = false) by (destruct sim; reflexivity). rewrite E, andb_false_r.
    unfold check. cbn [q_bs q_net q_method q_bc q_mb q_mn q_cp is_none]. change (String.eqb "MIFT" "MIFT") with true. cbn [andb negb]. rewrite !andb_false_r. cbn [andb]. reflexivity.
  Qed.

  Lemma equal_inlet bs ps ks Rd m cp time alpha n r sim disTol tol N g : build_net (List.length bs) None = Some N -> List.length ps = List.length bs ->
    let c := mkcall (Piped (mknetwork bs ps ks Rd N VNone VNone)) alpha time (solver_name sim) (Some "MIFT") (VArr (repeat m (List.length bs))) VNone (VFloat cp) (mkoptions n r None tol disTol 1) in
    List.length (segments_of c) = List.length bs -> List.length (ratios_of c) = List.length bs ->
    equal_inlet_temperature link uw bs ps ks Rd (VFloat m) (VFloat cp) time alpha n r sim disTol tol = Some g -> G c = Some g.
  Proof.
    intros B Lp c Ln Lr E. unfold equal_inlet_temperature in E. cbn [times_nat] in E. unfold make_network in E. rewrite B in E. cbv zeta in E. cbn [is_none orb numbers] in E.
    destruct (answers _ _ _); [|discriminate]. destruct (parallel_facts _ _ B) as (_ & _ & _ & _ & _ & NI & _).
    set (w := mknetwork bs ps ks Rd N (VFloat (m * INR (List.length bs))) (VFloat cp)) in E.
    rewrite (stored_flow link uw _ w (m * INR (List.length bs))) in E; auto. cbn [with_flow c_source c_alpha c_time c_method c_bc c_cp c_options] in E.
    rewrite (stored_capacity link uw _ w cp) in E; auto. cbn [with_flow c_source c_alpha c_time c_method c_bc c_mb c_mn c_options] in E.
    pose (c0 := mkcall (Piped w) alpha time (solver_name sim) (Some "MIFT") VNone VNone VNone (mkoptions n r None tol disTol 1)).
    pose proof (shared_gfunction link uw c0 w m cp eq_refl) as Sh. assert (NI' : nInlets (w_c w) = List.length bs) by exact NI. rewrite NI' in Sh.
    assert (E2 : G (with_flow c0 (VArr (repeat m (List.length bs))) VNone (VFloat cp)) = Some g).
    { rewrite <- Sh; auto; [split; eauto|destruct sim; discriminate]. }
    rewrite <- E2. unfold c. symmetry.
    rewrite (explicit_flow link uw (with_flow c0 (VArr (repeat m (List.length bs))) VNone (VFloat cp)) w eq_refl eq_refl eq_refl). reflexivity.
  Qed.

  (** from_static_params *)
  Lemma static_field fluid_cp pipes bs alpha time method m o bc fluid percent temperature conn : bc = "UBWT" \/ bc = "UHTR" ->
    static_gfunction link uw fluid_cp pipes bs alpha time method m o bc fluid percent temperature conn
    = G (mkcall (Field bs) alpha time method (Some bc) VNone m VNone o).
  Proof. intros [-> | ->]; reflexivity. Qed.

  Lemma static_network fluid_cp pipes bs alpha time method x o fluid percent temperature conn cp ps ks Rd N :
    fluid_cp fluid percent 20 = Some cp -> fluid_cp fluid percent temperature = Some cp -> build_net (List.length bs) conn = Some N ->
    pipes (Rabs (x / INR (match conn with None => List.length bs | Some c => Net_Model.count c (-1) end))) = Some (ps, ks, Rd) ->
    static_gfunction link uw fluid_cp pipes bs alpha time method (VFloat x) o "MIFT" fluid percent temperature conn
    = G (mkcall (Piped (mknetwork bs ps ks Rd N VNone VNone)) alpha time method (Some "MIFT") VNone (VFloat x) (VFloat cp) o).
  Proof.
    intros F1 F2 B P. unfold static_gfunction. change (negb (existsb (String.eqb (upper "MIFT")) ["UBWT"; "UHTR"; "MIFT"])) with false. change (String.eqb (upper "MIFT") "MIFT") with true. cbv iota zeta.
    rewrite F1, F2, P. unfold make_network. rewrite B.
    rewrite (explicit_flow link uw (mkcall (Piped (mknetwork bs ps ks Rd N (VFloat x) (VFloat cp))) alpha time method (Some "MIFT") VNone (VFloat x) (VFloat cp) o) _ eq_refl eq_refl eq_refl). reflexivity.
  Qed.

  Lemma lower_mift s : upper s = "MIFT" -> s <> "MIFT" -> forall c, c_bc c = Some s -> G c = None.
  Proof.
    intros U N c B. unfold gfunction, construct. destruct (resolve c) as [q|] eqn:Er; [|reflexivity].
    assert (Q : q_bc q = s).
    { unfold resolve in Er. rewrite B in Er. destruct (c_source c); cbv zeta in Er; destruct (_ && _); try discriminate.
      - injection Er as <-. auto.
      - destruct (negb (parallel w)); [injection Er as <-; auto|]. destruct (equal_flows _) as [[|]|]; try discriminate; [|injection Er as <-; auto]. destruct (same_pipes w) as [[|]|]; try discriminate; injection Er as <-; auto.
      - injection Er as <-. auto. }
    assert (X : existsb (String.eqb (q_bc q)) ["UHTR"; "UBWT"; "MIFT"] = false).
    { rewrite Q. cbn [existsb]. destruct (String.eqb_spec s "UHTR") as [->|]; [discriminate|]. destruct (String.eqb_spec s "UBWT") as [->|]; [discriminate|]. destruct (String.eqb_spec s "MIFT"); [contradiction|]. reflexivity. }
    unfold check. rewrite X. rewrite andb_false_r. cbn [andb]. reflexivity.
  Qed.
End Legacy.

(** ** The network of two boreholes *)

Lemma pair_answers p1 p2 m1 m2 cp k1 k2 : 0 < m1 -> 0 < m2 -> 0 < cp -> 0 < k1 -> 0 < k2 -> conducts p1 m1 cp k1 -> conducts p2 m2 cp k2 ->
  answers two [p1; p2] (mkargs [m1; m2] [cp] (SegN 1) Net_Model.RNone) = true.
Proof.
  intros M1 M2 Cp K1 K2 C1 C2. pose proof (two_args_good p1 p2 m1 m2 cp k1 [m1; m2] M1 M2 C1 (or_introl eq_refl) (SegN 1) None Net_Model.RNone (or_introl eq_refl) eq_refl) as Gd.
  pose proof (proj1 (build_wf _ _ _ two_build)) as W.
  destruct (fresh_some_all two [p1; p2] _ _ W Gd) as (a & o & qb & qf & h & no & Ea & Eo & Eb & Ef & Eh & En).
  unfold answers, all_methods. cbn [forallb]. rewrite Ea, Eo, Eb, Ef, Eh, En.
  pose proof (two_net_heat p1 p2 m1 m2 cp k1 k2 M1 M2 C1 C2 _ None 1 (fun _ => 0) h Gd Eh) as X. rewrite coef_in in X.
  assert (Ei : fresh two [p1; p2] NetInlet (mkargs [m1; m2] [cp] (SegN 1) Net_Model.RNone) = coef_net_inlet h).
  { rewrite (fresh_direct two [p1; p2] _ _ _ W Gd). rewrite (fresh_direct two [p1; p2] _ _ _ W Gd) in Eh. cbn [direct] in *. rewrite Eh. reflexivity. }
  rewrite Ei. unfold coef_net_inlet. cbv zeta. destruct (Reqb (fst h O) 0) eqn:Z; [apply Reqb_true in Z; lra|reflexivity].
Qed.

Lemma perfect_drives cp x y : 0 < cp -> 0 < x -> 0 < y -> drives perfect perfect cp [x; y] (x * cp) (y * cp).
Proof.
  intros Hc Hx Hy. exists x, y. assert (0 < x * cp) by (apply Rmult_lt_0_compat; lra). assert (0 < y * cp) by (apply Rmult_lt_0_compat; lra).
  repeat (split; [solve [lra | apply perfect_conducts; lra]|]). left. auto.
Qed.
Lemma perfect_total cp x : 0 < cp -> 0 < x -> drives perfect perfect cp [x] (x / 2 * cp) (x / 2 * cp).
Proof.
  intros Hc Hx. exists (x / 2), (x / 2). assert (0 < x / 2 * cp) by (apply Rmult_lt_0_compat; lra).
  repeat (split; [solve [lra | apply perfect_conducts; lra]|]). right. split; auto. f_equal. field.
Qed.

(** The values for flows and for their doubles *)
Lemma pair_doubles_differ t : 0 < t -> pair_g t (1 / 2) (1 / 4) <> pair_g t (1 / 4) (3 / 16).
Proof.
  intros Ht. destruct (pair_values t Ht) as (E1 & _ & _). rewrite E1. pose proof PI_RGT_0. destruct (pair_order t Ht) as [Ob Os].
  unfold pair_g. set (d := pair_self t - pair_cross t) in *. set (C := 200 * PI) in *. assert (Pd : 0 < d) by (unfold d; lra). assert (Pc : 0 < C) by (unfold C; lra). set (b := pair_cross t) in *. clearbody d C b.
  replace (2 * b + 2 * (d + C / (1 / 4)) * (d + C / (3 / 16)) / (2 * d + C / (1 / 4) + C / (3 / 16)) - 2 * C / (1 / 4 + 3 / 16)) with (2 * b + d * (21 * d + 100 * C) / (21 * d + 98 * C)) by (field; lra).
  intros E. apply Rplus_eq_reg_l in E. apply (f_equal (fun x => x * ((3 * d + 9 * C) * (21 * d + 98 * C)) / d)) in E.
  replace (d * (3 * d + 10 * C) / (3 * d + 9 * C) * ((3 * d + 9 * C) * (21 * d + 98 * C)) / d) with ((3 * d + 10 * C) * (21 * d + 98 * C)) in E by (field; lra).
  replace (d * (21 * d + 100 * C) / (21 * d + 98 * C) * ((3 * d + 9 * C) * (21 * d + 98 * C)) / d) with ((21 * d + 100 * C) * (3 * d + 9 * C)) in E by (field; lra).
  assert (0 < d * C) by (apply Rmult_lt_0_compat; auto). assert (0 < C * C) by (apply Rmult_lt_0_compat; auto). nra.
Qed.

(** Comparisons of equal numbers *)
Lemma close_refl x : close x x = true.
Proof. unfold close. apply Rleb_true. rewrite Rminus_diag_eq, Rabs_R0 by auto. pose proof (Rabs_pos x). assert (0 <= 1 / 10 ^ 5 * Rabs x) by (apply Rmult_le_pos; lra). lra. Qed.
Lemma pair_same_pipes p1 p2 wm wcp : same_pipes (pair_piped p1 p2 wm wcp) = Some true.
Proof. unfold same_pipes, pair_piped. cbn [w_Rd forallb List.length Nat.eqb andb all_close combine fst snd]. unfold all_close. cbn [combine forallb fst snd]. rewrite close_refl. reflexivity. Qed.
Lemma pair_parallel p1 p2 wm wcp : parallel (pair_piped p1 p2 wm wcp) = true.
Proof. reflexivity. Qed.
Lemma equal_flows_pair x : equal_flows (VArr [x; x]) = Some true.
Proof. unfold equal_flows. cbn [forallb]. rewrite close_refl. reflexivity. Qed.

Lemma mixed_as cp x k1 k2 : 0 < cp -> 0 < x < 2 -> k1 = x / 2 * cp -> k2 = x / 2 * cp * (1 - x / 2) -> drives perfect flowing cp [x] k1 k2.
Proof. intros Hc Hx -> ->. apply mixed_drives; auto. Qed.
Lemma each_as cp x y k1 k2 : 0 < cp -> 0 < x -> 0 < y < 1 -> k1 = x * cp -> k2 = y * cp * (1 - y) -> drives perfect flowing cp [x; y] k1 k2.
Proof. intros Hc Hx Hy -> ->. apply each_drives; auto. Qed.
