(** The g-function of a field in other units. *)
From Coq Require Import String Permutation.
From Verif Require Import Base LinAlg FLS_Model FLS_Spec.
From Verif Require Import Bore_Model Bore_Spec Bore_Proofs Net_Model Solve_Model Solve_Spec Detailed_Model Detailed_Spec Sim_Model Eq_Model GFun_Model GFun_Spec GFun_Field_Proofs GFun_Eval_Proofs Sym_Time_Proofs Sym_Perm_Proofs Unit_Spec Unit_Geo_Proofs.
Local Open Scope R_scope.

(** the solvers *)
Section Solvers.
  Variables (n : nat) (H H' : vec) (l mu : R).
  Hypothesis Lp : 0 < l.
  Hypothesis Mu : 0 < mu.
  Hypothesis EH : forall i, (i < n)%nat -> H' i = l * H i.
  Variables (trf trf' : list R -> nat -> nat -> nat -> R) (time : list R) (thr : R).
  Local Notation tg := (time_long time thr).
  Hypothesis ET : forall i j k, (i < n)%nat -> (j < n)%nat -> (k < List.length tg)%nat -> trf' (map (Rmult mu) tg) i j k = trf tg i j k.

  Lemma pi_seq i : (i < n)%nat -> pi (seq 0 n) i = i.
  Proof. intros Hi. unfold pi. rewrite seq_nth by auto. auto. Qed.
  Lemma back (xs : list R) : map (Rmult (/ mu)) (map (Rmult mu) xs) = xs.
  Proof. rewrite map_map. rewrite <- (map_id xs) at 2. apply map_ext. intros x. field. lra. Qed.

  Lemma unit_ubwt : option_map snd (solve_ubwt n H' trf' (map (Rmult mu) time) (mu * thr)) = option_map snd (solve_ubwt n H trf time thr).
  Proof.
    destruct (solve_ubwt n H trf time thr) as [r|] eqn:E.
    - destruct (perm_ubwt n (seq 0 n) (Permutation_refl _) H H' l Lp) with (trf := trf) (trf' := trf') (mu := mu) (time := time) (thr := thr) (r := r) as [r' [E' S]]; auto.
      + intros i Hi. rewrite pi_seq; auto.
      + intros i j k Hi Hj Hk. rewrite !pi_seq; auto.
      + rewrite E'. cbn. rewrite S. auto.
    - destruct (solve_ubwt n H' trf' (map (Rmult mu) time) (mu * thr)) as [r|] eqn:E'; auto. exfalso.
      assert (Im : 0 < / mu) by (apply Rinv_0_lt_compat; auto). assert (Il : 0 < / l) by (apply Rinv_0_lt_compat; auto).
      destruct (perm_ubwt n (seq 0 n) (Permutation_refl _) H' H (/ l) Il) with (trf := trf') (trf' := trf) (mu := / mu) (time := map (Rmult mu) time) (thr := mu * thr) (r := r) as [r' [E2 S]]; auto.
      + intros i Hi. rewrite pi_seq, EH by auto. field. lra.
      + intros i j k Hi Hj Hk. rewrite !pi_seq by auto. rewrite (sc_time_long mu Mu) in *. rewrite map_length in Hk. rewrite back. symmetry. auto.
      + rewrite back in E2. replace (/ mu * (mu * thr)) with thr in E2 by (field; lra). congruence.
  Qed.

  Lemma unit_uhtr : fst (solve_uhtr n H' trf' (map (Rmult mu) time) (mu * thr)) = fst (solve_uhtr n H trf time thr).
  Proof.
    apply (perm_uhtr n (seq 0 n) (Permutation_refl _) H H' l Lp); auto.
    - intros i Hi. rewrite pi_seq; auto.
    - intros i j k Hi Hj Hk. rewrite !pi_seq; auto.
  Qed.
End Solvers.

(** the times *)
Section Times.
  Variable mu : R.
  Hypothesis Mu : 0 < mu.
  Lemma unit_increasing xs : GFun_Model.increasing (map (Rmult mu) xs) = GFun_Model.increasing xs.
  Proof. induction xs as [|x [|y xs] IH]; auto. cbn [map GFun_Model.increasing] in *. rewrite (sc_le mu Mu), IH. auto. Qed.
  Lemma unit_positive xs : map (fun x => Rmax x 0) (map (Rmult mu) xs) = map (Rmult mu) (map (fun x => Rmax x 0) xs).
  Proof. rewrite !map_map. apply map_ext. intros x. rewrite <- RmaxRmult by lra. f_equal. ring. Qed.
  Lemma unit_times v : match v with VInt _ => False | _ => True end -> times (time_in_units mu v) = option_map (map (Rmult mu)) (times v).
  Proof.
    intros Nv. assert (K : forall xs, match Some (map (Rmult mu) xs) with None | Some [] => None | Some l => let t := map (fun x => Rmax x 0) l in if GFun_Model.increasing t then Some t else None end
      = option_map (map (Rmult mu)) (match Some xs with None | Some [] => None | Some l => let t := map (fun x => Rmax x 0) l in if GFun_Model.increasing t then Some t else None end)).
    { intros [|x xs]; [reflexivity|]. pose proof (unit_positive (x :: xs)) as K1. pose proof (unit_increasing (map (fun x => Rmax x 0) (x :: xs))) as K2. rewrite <- K1 in K2.
      cbn [map] in *. cbv zeta. rewrite K2. clear K2. destruct (GFun_Model.increasing (Rmax x 0 :: map _ xs)); cbn [option_map]; auto. f_equal. exact K1. }
    unfold times. destruct v; try contradiction; cbn [time_in_units numbers]; auto; first [exact (K [x])|exact (K l)].
  Qed.
End Times.

Lemma times_sorted v t : times v = Some t -> sorted t.
Proof.
  unfold times. destruct (numbers v) as [[|x xs]|]; try discriminate. set (u := map _ _). cbv zeta. destruct (GFun_Model.increasing u) eqn:E; [|discriminate]. intros K. injection K as <-. apply increasing_sorted. auto.
Qed.

Section Calls.
  Variables (link : list R -> tree) (uw : list (R * R)) (l mu : R).
  Hypothesis Lp : 0 < l.
  Hypothesis Mu : 0 < mu.

  Lemma unit_threshold r alpha o : time_threshold (l * r) (l ^ 2 / mu * alpha) (option_map (Rmult mu) o) = mu * time_threshold r alpha o.
  Proof.
    destruct o as [t|]; cbn [option_map time_threshold]; auto. unfold Rdiv. rewrite !Rinv_mult, Rinv_inv. set (A := / alpha). set (F := / 25).
    replace ((l * r) ^ 2 * (F * (/ l ^ 2 * mu * A))) with ((l ^ 2 * / l ^ 2) * (mu * (r ^ 2 * (F * A)))) by ring. rewrite Rinv_r by (apply pow_nonzero; lra). ring.
  Qed.

  Lemma unit_gfunction c bs : c_source c = GFun_Model.Field bs -> lower (c_method c) = "detailed"%string -> 0 < c_alpha c -> sized bs -> some_ratios (ratios_of c) -> positive_threshold (c_options c) -> clear_segments uw c ->
    gfunction link uw (call_in_units l mu c) = gfunction link uw c.
  Proof.
    intros Es Dt Pa Sz Rs Th Cl. unfold clear_segments in Cl. unfold ratios_of, segments_of in *. unfold boreholes_of in *. rewrite Es in *.
    destruct c as [src alpha tm me bc mb mn cp o]. cbn [c_source c_alpha c_time c_method c_bc c_mb c_mn c_cp c_options] in *. subst src. destruct o as [on or othr otol odis ok]. unfold positive_threshold in Th. cbn [o_n o_r o_thr o_tol o_disTol o_k] in *.
    set (ns := format_segments (List.length bs) on) in *. set (rs := format_ratios (List.length bs) ns or) in *.
    unfold call_in_units. cbn [boreholes_of c_source c_alpha c_time c_method c_bc c_mb c_mn c_cp c_options o_n o_r o_thr o_tol o_disTol o_k].
    unfold gfunction, construct, resolve. cbn [boreholes_of c_source c_alpha c_time c_method c_bc c_mb c_mn c_cp c_options o_n o_r o_thr o_tol o_disTol o_k].
    set (b := match bc with Some s => s | None => "UBWT"%string end).
    rewrite Dt. change (String.eqb "detailed" "equivalent") with false. rewrite !andb_false_r.
    unfold check. cbn [q_bs q_net q_method q_bc q_mb q_mn q_cp c_time]. rewrite map_length, (sc_duplicates l Lp).
    replace (match time_in_units mu tm with VArr _ | VArr2 _ | VFloat _ | VNpFloat _ | VNone => true | _ => false end) with (match tm with VArr _ | VArr2 _ | VFloat _ | VNpFloat _ | VNone => true | _ => false end) by (destruct tm; auto).
    match goal with |- match (if ?x then _ else _) with _ => _ end = _ => destruct x eqn:Ck; [|reflexivity] end.
    assert (Nv : match tm with VInt _ => False | _ => True end). { destruct tm; auto. rewrite !andb_false_r in Ck. discriminate. }
    unfold make_solver. cbn [q_bs q_net q_method q_bc q_mb q_mn q_cp o_n o_r]. rewrite map_length. fold ns rs.
    destruct (solver_flows mb mn) as [[k rows]|]; [|reflexivity].
    change (check_flows (mkrequest (map (in_units l) bs) None me b mb mn cp) rows) with (check_flows (mkrequest bs None me b mb mn cp) rows). destruct (check_flows _ rows); [|reflexivity]. cbn [andb].
    replace (check_segments (map (in_units l) bs) ns rs) with (check_segments bs ns rs) by (unfold check_segments; rewrite map_length; auto).
    destruct (check_segments bs ns rs); [|reflexivity]. rewrite Dt. change (String.eqb "detailed" "detailed") with true. cbv iota.
    assert (Ev : evaluate link uw (mkcall (GFun_Model.Field (map (in_units l) bs)) (l ^ 2 / mu * alpha) (time_in_units mu tm) me bc mb mn cp (mkoptions on or (option_map (Rmult mu) othr) otol odis ok)) (mkrequest (map (in_units l) bs) None me b mb mn cp, mksolver ns rs k rows None) (time_in_units mu tm)
      = evaluate link uw (mkcall (GFun_Model.Field bs) alpha tm me bc mb mn cp (mkoptions on or othr otol odis ok)) (mkrequest bs None me b mb mn cp, mksolver ns rs k rows None) tm).
    2: { destruct tm; cbn [time_in_units] in *; auto. }
    unfold evaluate. rewrite (unit_times mu Mu) by auto. destruct (times tm) as [t|] eqn:Et; [|reflexivity]. cbn [option_map q_bs q_net q_method q_bc q_mb q_mn q_cp c_alpha c_options v_k v_rows o_thr].
    rewrite sc_radii, (sc_lmax l Lp). destruct (lmax (map br bs)) as [r|] eqn:Er; [|reflexivity]. cbn [option_map].
    unfold make_system. cbn [q_bs q_net q_method q_bc q_mb q_mn q_cp c_alpha c_options]. rewrite Dt. change (String.eqb "detailed" "detailed") with true. cbv iota.
    rewrite unit_threshold. set (thr := time_threshold r alpha othr).
    assert (Tp : 0 < thr).
    { unfold thr. destruct othr as [x|]; cbn [time_threshold]; auto. apply lmax_radius in Er. destruct Er as [(b1 & Ib & <-) _]. destruct (Sz b1 Ib). apply Rdiv_lt_0_compat; [apply pow_lt; auto|lra]. }
    pose proof (long_positive t thr Tp (times_sorted _ _ Et)) as Pl.
    unfold solve, detailed_system. cbn [y_n y_H y_h y_Hi y_flow q_bs q_net v_n v_r c_alpha].
    assert (Df : forall (f : R -> Mx) xs, defined_at (fun t0 => Some (f t0)) xs = true) by (intros f xs; apply forallb_forall; intros; reflexivity).
    rewrite !Df. rewrite sc_sources.
    assert (EH : forall i, (i < n_sources bs ns rs)%nat -> segment_length (map (in_units l) bs) ns rs i = l * segment_length bs ns rs i) by (apply sc_segment_length).
    assert (ET : forall i j p, (i < n_sources bs ns rs)%nat -> (j < n_sources bs ns rs)%nat -> (p < List.length (time_long t thr))%nat ->
      at_times (fun t0 => Some (detailed_matrix (line_kernel (l ^ 2 / mu * alpha) t0 uw) (map (in_units l) bs) ns rs)) (map (Rmult mu) (time_long t thr)) i j p
      = at_times (fun t0 => Some (detailed_matrix (line_kernel alpha t0 uw) bs ns rs)) (time_long t thr) i j p).
    { intros i j p Hi Hj Hp. unfold at_times. rewrite (sc_nth mu). apply sc_detailed; auto. apply Pl. apply nth_In. auto. }
    destruct (String.eqb b "UHTR").
    - rewrite (unit_uhtr _ _ _ l mu Lp Mu EH _ _ t thr ET). auto.
    - destruct (String.eqb b "UBWT"); [|destruct rows; reflexivity].
      pose proof (unit_ubwt _ _ _ l mu Lp Mu EH _ _ t thr ET) as K.
      destruct (solve_ubwt _ (segment_length (map (in_units l) bs) ns rs) _ _ _) as [x|], (solve_ubwt _ (segment_length bs ns rs) _ t thr) as [y|]; cbn [option_map] in *; congruence.
  Qed.
End Calls.
