(** The methods agree: detailed and similarities for all boundary conditions, all of them
    for uniform heat extraction rates. *)
From Coq Require Import String.
From Verif Require Import Base LinAlg FLS_Model.
From Verif Require Import Bore_Model Net_Model Solve_Model Solve_Spec Solve_Loop_Proofs Solve_Eq_Proofs Solve_Sol_Proofs Detailed_Model Detailed_Spec Detailed_Proofs Detailed_Sol_Proofs Sim_Model Sim_Spec Sim_Props Eq_Model GFun_Model GFun_Spec GFun_Eval_Proofs.
Local Open Scope R_scope.

Section Ext.
  Variables (n : nat) (H : vec) (trf trf' : list R -> nat -> nat -> nat -> R).
  Hypothesis E : forall tl i j k, (i < n)%nat -> (j < n)%nat -> trf tl i j k = trf' tl i j k.

  Lemma solve_rows m M M' b b' : (forall i j, (i < m)%nat -> (j < m)%nat -> M i j = M' i j) -> (forall i, (i < m)%nat -> b i = b' i) ->
    lin_solve m M b = lin_solve m M' b'.
  Proof.
    intros EM Eb. unfold lin_solve. replace (rows_of m M' b') with (rows_of m M b); auto. unfold rows_of. apply map_ext_in. intros i Hi. apply in_seq in Hi.
    rewrite Eb by lia. f_equal. apply map_ext_in. intros j Hj. apply in_seq in Hj. apply EM; lia.
  Qed.

  Definition steady {O} (sol : Mx -> vec -> option (vec * O)) : Prop :=
    forall h h' T T', (forall i j, (i < n)%nat -> (j < n)%nat -> h i j = h' i j) -> (forall i, (i < n)%nat -> T i = T' i) -> sol h T = sol h' T'.

  Lemma ubwt_steady : steady (ubwt_sol n H).
  Proof.
    intros h h' T T' Eh ET. unfold ubwt_sol. rewrite (solve_rows (n + 1) _ (ubwt_A n H h') _ (ubwt_B n H T')); auto.
    - intros i j Hi Hj. unfold ubwt_A. destruct (Nat.ltb_spec i n), (Nat.ltb_spec j n); auto.
    - intros i Hi. unfold ubwt_B. destruct (Nat.ltb_spec i n); auto. rewrite ET; auto.
  Qed.

  Lemma mift_steady k_s Hi F : steady (mift_sol n H k_s Hi F).
  Proof.
    intros h h' T T' Eh ET. unfold mift_sol. rewrite (solve_rows (2 * n + 1) _ (mift_A n H k_s Hi F h') _ (mift_B n H T')); auto.
    - intros i j Hi0 Hj. unfold mift_A. destruct (Nat.ltb_spec i n), (Nat.ltb_spec j n); auto.
    - intros i Hi0. unfold mift_B. destruct (Nat.ltb_spec i n); auto. rewrite ET; auto.
  Qed.

  Lemma step_same tl p0 p Q : match step_data n trf tl p0 p Q, step_data n trf' tl p0 p Q with
    | Some (h, T), Some (h', T') => (forall i j, (i < n)%nat -> (j < n)%nat -> h i j = h' i j) /\ (forall i, (i < n)%nat -> T i = T' i)
    | None, None => True
    | _, _ => False
    end.
  Proof.
    unfold step_data. destruct (interp1d _ _) as [f|]; auto. destruct (Net_Model.all_some _) as [q|]; auto. split.
    - intros i j Hi Hj. f_equal. f_equal. apply map_ext. intros k. apply E; auto.
    - intros i Hi. unfold temporal_superposition. apply sumn_ext. intros j Hj. apply sumn_ext. intros k Hk. rewrite E; auto.
  Qed.

  Lemma grun_same {O} (sol : Mx -> vec -> option (vec * O)) tl ps s : steady sol -> grun n trf sol tl ps s = grun n trf' sol tl ps s.
  Proof.
    intros S. revert s. induction ps as [|p ps IH]; intros s; cbn [grun]; auto. pose proof (step_same tl 0 p (fst s ++ [zero_vec])) as K.
    destruct (step_data n trf tl 0 p _) as [[h T]|], (step_data n trf' tl 0 p _) as [[h' T']|]; auto; try contradiction.
    destruct K as [K1 K2]. rewrite (S h h' T T') by auto. destruct (sol h' T') as [[q o]|]; auto.
  Qed.

  Lemma ubwt_same time thr : solve_ubwt n H trf time thr = solve_ubwt n H trf' time thr.
  Proof. rewrite !ubwt_run, grun_same by apply ubwt_steady. auto. Qed.

  Lemma mift_same k_s Hi Fs time thr : solve_mift n H trf k_s Hi Fs time thr = solve_mift n H trf' k_s Hi Fs time thr.
  Proof.
    rewrite !mift_all. unfold runs_of. replace (map _ Fs) with (map (fun F => grun n trf' (mift_sol n H k_s Hi F) (time_long time thr) (seq 0 (length (time_long time thr))) ([], [])) Fs); auto.
    apply map_ext. intros F. symmetry. apply grun_same. apply mift_steady.
  Qed.

  Lemma uhtr_same time thr : fst (solve_uhtr n H trf time thr) = fst (solve_uhtr n H trf' time thr).
  Proof.
    rewrite !uhtr_run. cbn [fst]. f_equal. f_equal. apply map_ext. intros k. unfold g_of. f_equal. apply sumn_ext. intros i Hi. f_equal.
    unfold row_sum. apply sumn_ext. intros j Hj. apply E; auto.
  Qed.
End Ext.

(** two systems with the same responses *)
Lemma solve_same bc k_s k rows y y' time thr : y_n y = y_n y' -> y_H y = y_H y' -> y_Hi y = y_Hi y' -> y_flow y = y_flow y' ->
  (forall t, exists m m', y_h y t = Some m /\ y_h y' t = Some m' /\ forall i j, (i < y_n y)%nat -> (j < y_n y)%nat -> m i j = m' i j) ->
  solve bc k_s k rows y time thr = solve bc k_s k rows y' time thr.
Proof.
  intros En EH EHi Ef Eh. unfold solve.
  assert (D : forall tl, defined_at (y_h y) tl = true /\ defined_at (y_h y') tl = true).
  { intros tl. unfold defined_at. split; apply forallb_forall; intros t _; destruct (Eh t) as [m [m' [E [E' _]]]]; rewrite ?E, ?E'; auto. }
  rewrite (proj1 (D _)), (proj2 (D _)).
  assert (T : forall tl i j p, (i < y_n y)%nat -> (j < y_n y)%nat -> at_times (y_h y) tl i j p = at_times (y_h y') tl i j p).
  { intros tl i j p Hi Hj. unfold at_times. destruct (Eh (nth p tl 0)) as [m [m' [E [E' K]]]]. rewrite E, E'. auto. }
  rewrite <- En, <- EH, <- EHi, <- Ef. destruct (String.eqb bc "UHTR"). { rewrite (uhtr_same _ _ _ _ T). auto. }
  destruct (String.eqb bc "UBWT"). { rewrite (ubwt_same _ _ _ _ T). auto. }
  destruct rows as [|r rows]; auto. destruct (Net_Model.all_some _) as [Fs|]; auto. rewrite (mift_same _ _ _ _ T). auto.
Qed.

Lemma make_segments c q s : construct c = Some (q, s) -> v_n s = segments_of c /\ v_r s = ratios_of c.
Proof.
  intros Ec. pose proof (construct_boreholes c q s Ec) as Eb. unfold construct in Ec. destruct (resolve c) as [q0|]; [|discriminate]. destruct (check c q0); [|discriminate].
  destruct (make_solver (c_options c) q0) as [s0|] eqn:Em; [|discriminate]. injection Ec as -> ->. unfold make_solver in Em. unfold ratios_of, segments_of. rewrite <- Eb.
  destruct (solver_flows _ _) as [[k rows]|]; [|discriminate].
  repeat match goal with
         | E : (if ?b then _ else _) = Some _ |- _ => destruct b
         | E : match ?b with Some _ => _ | None => _ end = Some _ |- _ => destruct b
         | E : Some _ = Some _ |- _ => injection E as <-
         | E : None = Some _ |- _ => discriminate
         end; auto.
Qed.

(** the requests of the two methods *)
Lemma resolve_method c m : lower m <> "equivalent"%string -> exists q, resolve (with_method c m) = Some q /\ q_method q = m /\
  forall m', lower m' <> "equivalent"%string -> resolve (with_method c m') = Some (mkrequest (q_bs q) (q_net q) m' (q_bc q) (q_mb q) (q_mn q) (q_cp q)).
Proof.
  intros N. unfold resolve. cbn [with_method c_source c_bc c_mb c_mn c_cp c_method]. cbv zeta.
  destruct (String.eqb_spec (lower m) "equivalent"); [contradiction|]. rewrite andb_false_r. eexists. split; [reflexivity|]. split; auto.
  intros m' N'. destruct (String.eqb_spec (lower m') "equivalent"); [contradiction|]. rewrite andb_false_r. auto.
Qed.

Section Similar.
  Variables (link : list R -> tree) (uw : list (R * R)) (c : call) (u M : R).
  Hypothesis Sh : sharp c u M.

  Lemma similarities_detailed : gfunction link uw (with_method c "similarities") = gfunction link uw (with_method c "detailed").
  Proof.
    destruct Sh as [S1 [S2 [S3 [S4 [S5 [S6 [S7 [S8 [S9 S10]]]]]]]]].
    assert (Tol : 0 < o_tol (c_options c)) by apply S4.
    destruct (resolve_method c "similarities") as [q [Eq [Em Eo]]]; [discriminate|].
    pose proof (Eo "detailed"%string ltac:(discriminate)) as Ed.
    set (qd := mkrequest (q_bs q) (q_net q) "detailed" (q_bc q) (q_mb q) (q_mn q) (q_cp q)) in *.
    assert (Ch : check (with_method c "detailed") qd = check (with_method c "similarities") q).
    { unfold check. cbn [with_method c_time qd q_bs q_net q_bc q_mb q_mn q_cp q_method]. rewrite Em. auto. }
    assert (Ms : make_solver (c_options c) q = make_solver (c_options c) qd).
    { unfold make_solver, check_flows. cbn [qd q_bs q_net q_bc q_mb q_mn q_cp q_method]. rewrite Em.
      change (String.eqb (lower "similarities") "detailed") with false. change (String.eqb (lower "similarities") "similarities") with true. change (String.eqb (lower "detailed") "detailed") with true.
      rewrite (proj2 (Rltb_true _ _) S7), (proj2 (Rltb_true _ _) Tol). auto. }
    assert (Cs : construct (with_method c "similarities") = match construct (with_method c "detailed") with Some (_, s) => Some (q, s) | None => None end).
    { unfold construct. rewrite Eq, Ed, Ch. destruct (check _ q); auto. change (c_options (with_method c "similarities")) with (c_options c). change (c_options (with_method c "detailed")) with (c_options c).
      rewrite Ms. destruct (make_solver _ qd); auto. }
    assert (Cd : forall q' s, construct (with_method c "detailed") = Some (q', s) -> q' = qd).
    { intros q' s. unfold construct. rewrite Ed. destruct (check _ qd); [|discriminate]. destruct (make_solver _ qd); [|discriminate]. congruence. }
    unfold gfunction. rewrite Cs. destruct (construct (with_method c "detailed")) as [[q' s]|] eqn:Ec; auto. pose proof (Cd q' s eq_refl) as ->.
    pose proof (construct_boreholes _ _ _ Ec) as Eb. pose proof (make_segments _ _ _ Ec) as [En Er].
    assert (Ev : forall v, evaluate link uw (with_method c "similarities") (q, s) v = evaluate link uw (with_method c "detailed") (qd, s) v).
    { intros v. unfold evaluate. change (q_bs qd) with (q_bs q). destruct (times v) as [t|]; auto. destruct (lmax _) as [r|]; auto.
      unfold make_system. rewrite Em. cbn [qd q_method]. change (String.eqb (lower "similarities") "detailed") with false. change (String.eqb (lower "similarities") "similarities") with true. change (String.eqb (lower "detailed") "detailed") with true. cbv iota.
      unfold similarities_system, detailed_system. cbn [with_method c_alpha c_options q_bs q_net q_bc q_cp]. fold qd.
      apply solve_same; auto. intros t0. cbn [y_h y_n]. change (q_bs qd) with (q_bs q) in Eb |- *. rewrite Eb, En, Er.
      change (boreholes_of (with_method c "detailed")) with (boreholes_of c). change (segments_of (with_method c "detailed")) with (segments_of c). change (ratios_of (with_method c "detailed")) with (ratios_of c).
      destruct (C51_exact (c_alpha c) t0 (o_tol (c_options c)) (o_disTol (c_options c)) u M (boreholes_of c) (segments_of c) (ratios_of c) uw S1 S2 S3 S4 S5 S6 S7 S8 S9 S10) as [m [E1 E2]].
      exists m, (detailed_matrix (line_kernel (c_alpha c) t0 uw) (boreholes_of c) (segments_of c) (ratios_of c)). split; [exact E1|]. split; [reflexivity|].
      assert (Ns : n_sources (boreholes_of c) (segments_of c) (ratios_of c) = list_sum (segments_of c)) by exact (proj1 (segments_all _ _ _ S1)).
      intros i j Hi Hj. cbn [y_n with_method c_alpha c_options] in Hi, Hj. rewrite ?Eb, ?En, ?Er in Hi, Hj. apply E2; rewrite <- Ns; auto. }
    cbn [with_method c_time]. destruct (c_time c); auto.
  Qed.
End Similar.
