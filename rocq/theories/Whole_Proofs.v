(** From the dimensions of a field to its g-function. *)
From Coq Require Import String Reals Lra Lia List Sorted.
From Verif Require Import Base LinAlg FLS_Model.
From Verif Require Import Bore_Model Bore_Spec Bore_Proofs Field_Model Field_Spec TimeGrid_Model TimeGrid_Spec TimeGrid_Props Net_Model Solve_Model Solve_Spec Detailed_Model Detailed_Spec
  Sim_Model Eq_Model GFun_Model GFun_Spec Def_Spec Whole_Model Whole_Spec.
Import ListNotations.
Local Open Scope R_scope.

Lemma later_ok l thr : later_times l -> times (VArr l) <> None /\ no_repeats thr l.
Proof.
  intros (N & P & So). split.
  - unfold times. cbn [numbers]. destruct l as [|x r]; [contradiction|]. clear N.
    assert (I : forall l, Forall (fun t => 0 < t) l -> StronglySorted Rlt l -> GFun_Model.increasing (map (fun x => Rmax x 0) l) = true).
    { clear. induction l as [|x [|y r] IH]; intros P So; try reflexivity.
      inversion P as [|? ? Px Pr]; subst. inversion So as [|? ? Sr Fx]; subst. cbn [map GFun_Model.increasing] in *.
      rewrite (IH Pr Sr). inversion Fx; subst. inversion Pr; subst. rewrite !Rmax_left by lra. rewrite (proj2 (Rleb_true x y)) by lra. reflexivity. }
    rewrite (I (x :: r) P So). discriminate.
  - intros k Hk _. clear N P. revert k Hk. induction l as [|x r IH]; intros k Hk; [cbn in Hk; lia|].
    inversion So as [|? ? Sr Fx]; subst. destruct k as [|k].
    + cbn [nth]. rewrite Forall_forall in Fx. apply Fx. apply (nth_In r 0). cbn in Hk. lia.
    + cbn [nth]. apply (IH Sr). cbn in Hk. lia.
Qed.

Lemma spread_vertical bs : spread bs -> vertical_field bs.
Proof.
  intros (N & P & Sp). split; [exact P|]. intros a b La Lb Nab.
  pose proof (nth_In bs no_bore La) as Ia. pose proof (Sp a b _ La Lb Ia Nab) as K. destruct (P _ Ia) as (_ & _ & _ & Pr).
  unfold plane_dist in K. unfold planar. change b0 with no_bore in K. lra.
Qed.
Lemma spread_spaced bs : spread bs -> well_spaced bs.
Proof.
  intros (N & P & Sp) a b c La Lb Lc Nab. exact (Sp a b _ La Lb (nth_In bs no_bore Lc) Nab).
Qed.
Lemma lmax_some l : l <> [] -> exists r, lmax l = Some r.
Proof. destruct l as [|x r]; [contradiction|]. intros _. cbn. eauto. Qed.
Lemma spread_radius bs : spread bs -> exists r, lmax (map br bs) = Some r /\ 0 < r.
Proof.
  intros (N & P & _). destruct (lmax_some (map br bs)) as [r E]; [destruct bs; [contradiction|discriminate]|]. exists r. split; auto.
  destruct (proj1 (lmax_radius bs r) E) as [(b & Ib & Eb) _]. rewrite <- Eb. apply (P b Ib).
Qed.
Lemma spread_unique bs : spread bs -> find_duplicates bs = Some [].
Proof.
  intros Sp. destruct (spread_radius bs Sp) as (r & Er & Pr). pose proof (proj1 (lmax_radius bs r) Er) as Mr. destruct Sp as (N & P & Sp).
  destruct (find_duplicates_spec bs r Mr) as (ps & E & _ & K). rewrite E. f_equal. destruct ps as [|[i j] ps]; auto. exfalso.
  destruct (proj1 (K i j) (or_introl eq_refl)) as [L D]. destruct Mr as [(b & Ib & Eb) _].
  pose proof (Sp i j b ltac:(lia) ltac:(lia) Ib ltac:(lia)) as Q. rewrite Eb in Q. lra.
Qed.

Section Field.
Variables (roots : nat -> R -> list R) (n : nat).
Hypothesis Ro : sr_exact_roots n (2 / 100) (roots n (2 / 100)).
Hypothesis Pn : (1 <= n)%nat.

Lemma usual_good : List.length (usual_ratios roots n) = n /\ Rsum (usual_ratios roots n) = 1 /\ forall x, In x (usual_ratios roots n) -> 0 < x.
Proof.
  destruct (C09_exact_roots roots n (2 / 100) Ro Pn ltac:(lra)) as (l & E & S & _). destruct (C09_segment_ratios roots n (2 / 100) l E) as (L & P & _).
  unfold usual_ratios. rewrite E. auto.
Qed.

Variables (link : list R -> tree) (uw : list (R * R)) (bs : list bore) (alpha : R).
Hypothesis Sp : spread bs.
Hypothesis Pa : 0 < alpha.

Definition whole_call (method : string) (bc : option string) (time : pyval) : call :=
  mkcall (GFun_Model.Field bs) alpha time method bc VNone VNone VNone (usual_options roots n).

Lemma whole_segmented m bc t : segmented (boreholes_of (whole_call m bc t)) (segments_of (whole_call m bc t)) (ratios_of (whole_call m bc t)) /\ good_ratios (ratios_of (whole_call m bc t)).
Proof.
  destruct usual_good as (L & S & P). unfold ratios_of, segments_of. cbn [boreholes_of whole_call c_source c_options usual_options o_n o_r format_segments format_ratios].
  split.
  - split; [apply repeat_length|]. split; [rewrite map_length; apply repeat_length|]. intros b Lb.
    rewrite (nth_indep _ [] (usual_ratios roots 0)) by (rewrite map_length, repeat_length; exact Lb). rewrite (map_nth (usual_ratios roots)).
    assert (E : forall d, nth b (repeat n (List.length bs)) d = n) by (intros d; apply (repeat_spec (List.length bs) n), nth_In; rewrite repeat_length; exact Lb).
    rewrite !E. exact L.
  - intros r Ir. apply in_map_iff in Ir. destruct Ir as (k & <- & Ik). apply repeat_spec in Ik. subst k. auto.
Qed.

Lemma whole_threshold m bc t : exists thr, threshold_of (whole_call m bc t) thr /\ 0 < thr.
Proof.
  destruct (spread_radius bs Sp) as (r & Er & Pr). exists (r ^ 2 / (25 * alpha)). split.
  - exists r. split; auto.
  - apply Rdiv_lt_0_compat; [nra|lra].
Qed.

Lemma whole_checks : check_segments bs (repeat n (List.length bs)) (map (usual_ratios roots) (repeat n (List.length bs))) = true.
Proof.
  destruct Sp as (N & _). assert (Lb : (0 < List.length bs)%nat) by (destruct bs; [contradiction|cbn; lia]).
  destruct usual_good as (L & S & P). unfold check_segments. rewrite repeat_length, Nat.eqb_refl. rewrite (proj2 (Nat.ltb_lt 0 _) Lb). cbn [andb].
  apply andb_true_intro. split.
  - apply forallb_forall. intros x Hx. apply repeat_spec in Hx. subst x. apply Nat.leb_le. exact Pn.
  - apply forallb_forall. intros [r k] Hrk. pose proof (in_combine_l _ _ _ _ Hrk) as Ir. pose proof (in_combine_r _ _ _ _ Hrk) as Ik.
    apply repeat_spec in Ik. apply in_map_iff in Ir. destruct Ir as (k' & <- & Ik'). apply repeat_spec in Ik'. subst k k'. cbn [fst snd].
    rewrite L, S, Nat.eqb_refl. cbn [andb]. apply Rltb_true. replace (1 - 1) with 0 by ring. rewrite Rabs_R0. lra.
Qed.

Lemma whole_constructed m bc : In m ["detailed"; "similarities"]%string -> bc = "UBWT"%string \/ bc = "UHTR"%string -> construct (whole_call m (Some bc) (VArr [])) <> None.
Proof.
  intros Im Ib. pose proof (spread_unique bs Sp) as U. pose proof whole_checks as C. destruct Sp as (N & _).
  assert (Nb : Nat.eqb (List.length bs) 0 = false) by (destruct bs; [contradiction|reflexivity]).
  assert (T1 : Rltb 0 (1 / 100) = true) by (apply Rltb_true; lra). assert (T2 : Rltb 0 (1 / 10 ^ 6) = true) by (apply Rltb_true; lra).
  unfold construct, resolve. cbn [whole_call c_source c_bc c_mb c_mn c_cp c_method c_options is_none andb].
  assert (M : String.eqb bc "MIFT" = false) by (destruct Ib as [-> | ->]; auto). rewrite M. cbn [andb]. cbv zeta.
  unfold check, make_solver. cbn [q_bs q_net q_method q_bc q_mb q_mn q_cp]. rewrite U. unfold check_flows, solver_flows. cbn [q_bs q_net q_method q_bc q_mb q_mn q_cp whole_call c_time c_options].
  rewrite M, Nb. cbn [negb andb usual_options o_n o_r o_tol o_disTol format_segments format_ratios]. rewrite C, T1, T2.
  destruct Ib as [-> | ->], Im as [<-|[<-|[]]]; discriminate.
Qed.
End Field.
