(** Uniform heat extraction rates of fields that are further apart or deeper. *)
From Coq Require Import String Permutation.
From Verif Require Import Base LinAlg FLS_Model FLS_Spec.
From Verif Require Import Bore_Model Bore_Spec Bore_Proofs Solve_Model Solve_Spec Detailed_Model Detailed_Spec Sim_Model GFun_Model GFun_Spec GFun_Field_Proofs GFun_Eval_Proofs Sym_Spec Sym_Order_Proofs Unit_Spec Space_Spec Space_Proofs GFun_Props.
Local Open Scope R_scope.
Local Open Scope string_scope.

Lemma uhtr_facts link uw c bs l res : c_source c = GFun_Model.Field bs -> c_bc c = Some "UHTR" -> gfunction link uw (with_time c (VArr l)) = Some res ->
  bs <> []%list /\ find_duplicates bs = Some []%list /\ construct (with_time c (VArr [])) <> None /\ times (VArr l) <> None.
Proof.
  intros Es Eb E. destruct c as [src alpha tm me bc mb mn cp o]. cbn [c_source c_bc] in Es, Eb. subst src bc.
  unfold with_time in *. cbn [c_source c_alpha c_time c_method c_bc c_mb c_mn c_cp c_options] in *.
  unfold gfunction in E. cbn [c_time] in E. destruct (construct _) as [qs|] eqn:Ec in E; [|discriminate].
  assert (K : construct (mkcall (GFun_Model.Field bs) alpha (VArr []) me (Some "UHTR") mb mn cp o) = Some qs) by (rewrite <- Ec; reflexivity).
  assert (Ck : exists q, q_bs q = bs /\ check (mkcall (GFun_Model.Field bs) alpha (VArr l) me (Some "UHTR") mb mn cp o) q = true).
  { unfold construct in Ec. destruct (resolve _) as [q|] eqn:Er; [|discriminate]. exists q. split; [|destruct (check _ q); [auto|discriminate]].
    unfold resolve in Er. cbn in Er. injection Er as <-. reflexivity. }
  destruct Ck as (q & Eq & Ck). unfold check in Ck. rewrite Eq in Ck. repeat (apply andb_true_iff in Ck as [Ck ?]).
  split; [|split; [|split]].
  - intros ->. discriminate.
  - destruct (find_duplicates bs) as [[|p ps]|]; auto; discriminate.
  - rewrite K. discriminate.
  - unfold evaluate in E. destruct (times (VArr l)); [discriminate|]. destruct qs. discriminate.
Qed.

Lemma radii_threshold bs r alpha o : upright bs -> 0 < alpha -> lmax (map br bs) = Some r -> positive_threshold o -> 0 < time_threshold r alpha (o_thr o).
Proof.
  intros U A Er P. unfold positive_threshold in P. destruct (o_thr o) as [x|]; cbn [time_threshold]; auto. apply lmax_radius in Er. destruct Er as [(b1 & Ib & <-) _]. destruct (U b1 Ib) as (_ & _ & _ & ?). apply Rdiv_lt_0_compat; [apply pow_lt; auto|lra].
Qed.

(** The values of a uniform heat extraction rate, whatever the length of the list *)
Lemma uhtr_values link uw c bs l g r : c_source c = GFun_Model.Field bs -> c_bc c = Some "UHTR" -> c_method c = "detailed" -> 0 < c_alpha c -> positive_threshold (c_options c) ->
  segmented bs (segments_of c) (ratios_of c) -> good_ratios (ratios_of c) -> upright bs -> lmax (map br bs) = Some r ->
  gfunction link uw (with_time c (VArr l)) = Some (G1 g) ->
  forall k, (k < List.length l)%nat -> nth k g 0 = started (fun t => field_mean (c_alpha c) t bs) (time_threshold r (c_alpha c) (o_thr (c_options c))) (nth k l 0).
Proof.
  intros Es Eb Em A P Sg Gr U Er E. destruct (uhtr_facts link uw c bs l _ Es Eb E) as (N & D & Co & Ti).
  assert (Ec : with_bc c (Some "UHTR") = c) by (destruct c; cbn in *; subst; reflexivity).
  assert (Ebs : boreholes_of c = bs) by (unfold boreholes_of; rewrite Es; auto).
  set (thr := time_threshold r (c_alpha c) (o_thr (c_options c))).
  destruct (C90_detailed link uw c thr l A) as (g' & E' & _ & K); auto.
  - exists r. rewrite Ebs. auto.
  - apply (radii_threshold bs); auto.
  - rewrite Ec. auto.
  - rewrite Ebs. auto.
  - rewrite Ebs. apply duplicates_field; auto.
  - rewrite Ec, Ebs in *. rewrite E in E'. injection E' as <-. auto.
Qed.

Lemma started_le f f' thr t : 0 < thr -> (forall t, 0 < t -> f' t <= f t) -> started f' thr t <= started f thr t.
Proof.
  intros T L. unfold started. destruct (Rleb t thr) eqn:E.
  - unfold Rdiv. apply Rmult_le_compat_r; [left; apply Rinv_0_lt_compat; auto|]. apply Rmult_le_compat_r; [apply Rmax_r|auto].
  - apply L. apply Rleb_false in E. lra.
Qed.
Lemma started_lt f f' thr t : 0 < thr -> 0 < t -> (forall t, 0 < t -> f' t < f t) -> started f' thr t < started f thr t.
Proof.
  intros T P L. unfold started. destruct (Rleb t thr) eqn:E.
  - unfold Rdiv. apply Rmult_lt_compat_r; [apply Rinv_0_lt_compat; auto|]. apply Rmult_lt_compat_r; [rewrite Rmax_left; lra|auto].
  - apply L. auto.
Qed.

Lemma further_radii bs bs' : further bs bs' -> map br bs' = map br bs.
Proof.
  intros (El & E & _). apply (nth_ext _ _ (br no_bore) (br no_bore)). { rewrite !map_length. auto. }
  intros i Hi. rewrite map_length in Hi. rewrite !(map_nth br). apply E. rewrite <- El. auto.
Qed.

Lemma further_gfunction link uw c bs bs' l g g' : c_source c = GFun_Model.Field bs -> c_bc c = Some "UHTR" -> c_method c = "detailed" -> 0 < c_alpha c -> positive_threshold (c_options c) ->
  segmented bs (segments_of c) (ratios_of c) -> good_ratios (ratios_of c) -> upright bs -> upright bs' -> further bs bs' ->
  gfunction link uw (with_time c (VArr l)) = Some (G1 g) -> gfunction link uw (with_time (with_boreholes c bs') (VArr l)) = Some (G1 g') ->
  forall k, (k < List.length l)%nat -> nth k g' 0 <= nth k g 0 /\ (some_further bs bs' -> 0 < nth k l 0 -> nth k g' 0 < nth k g 0).
Proof.
  intros Es Eb Em A P Sg Gr U U' F E E' k Hk. destruct (uhtr_facts link uw c bs l _ Es Eb E) as (N & D & _).
  destruct (lmax (map br bs)) as [r|] eqn:Er. 2: { unfold find_duplicates in D. rewrite Er in D. discriminate. }
  assert (El : List.length bs' = List.length bs) by apply F.
  assert (Ebs : boreholes_of c = bs) by (unfold boreholes_of; rewrite Es; auto).
  assert (ES : segments_of (with_boreholes c bs') = segments_of c) by (unfold segments_of; rewrite Ebs; cbn; rewrite El; auto).
  assert (ER : ratios_of (with_boreholes c bs') = ratios_of c) by (unfold ratios_of; rewrite ES, Ebs; cbn; rewrite El; auto).
  rewrite (uhtr_values link uw c bs l g r Es Eb Em A P Sg Gr U Er E k Hk).
  rewrite (uhtr_values link uw (with_boreholes c bs') bs' l g' r eq_refl Eb Em A P); auto.
  2: { unfold segmented in *. rewrite ES, ER, El. auto. }
  2: { rewrite ER. auto. }
  2: { rewrite (further_radii bs bs' F). auto. }
  cbn [with_boreholes c_alpha c_options].
  pose proof (radii_threshold bs r (c_alpha c) (c_options c) U A Er P) as Tp. pose proof (duplicates_field bs U D) as V.
  split; [apply started_le|intros Sf Pt; apply started_lt]; auto; intros t Ht; [apply mean_further|apply mean_further_strict]; auto.
Qed.

Lemma deeper_gfunction link uw c bs d l g g' : c_source c = GFun_Model.Field bs -> c_bc c = Some "UHTR" -> c_method c = "detailed" -> 0 < c_alpha c -> positive_threshold (c_options c) ->
  segmented bs (segments_of c) (ratios_of c) -> good_ratios (ratios_of c) -> upright bs -> 0 < d ->
  gfunction link uw (with_time c (VArr l)) = Some (G1 g) -> gfunction link uw (with_time (with_boreholes c (map (deeper d) bs)) (VArr l)) = Some (G1 g') ->
  forall k, (k < List.length l)%nat -> nth k g 0 <= nth k g' 0 /\ (0 < nth k l 0 -> nth k g 0 < nth k g' 0).
Proof.
  intros Es Eb Em A P Sg Gr U Pd E E' k Hk. set (bs' := map (deeper d) bs) in *. destruct (uhtr_facts link uw c bs l _ Es Eb E) as (N & D & _).
  destruct (lmax (map br bs)) as [r|] eqn:Er. 2: { unfold find_duplicates in D. rewrite Er in D. discriminate. }
  assert (El : List.length bs' = List.length bs) by (unfold bs'; apply map_length).
  assert (Ebs : boreholes_of c = bs) by (unfold boreholes_of; rewrite Es; auto).
  assert (ES : segments_of (with_boreholes c bs') = segments_of c) by (unfold segments_of; rewrite Ebs; cbn; rewrite El; auto).
  assert (ER : ratios_of (with_boreholes c bs') = ratios_of c) by (unfold ratios_of; rewrite ES, Ebs; cbn; rewrite El; auto).
  assert (U' : upright bs').
  { intros b Hb. unfold bs' in Hb. apply in_map_iff in Hb as (b1 & <- & Hb). destruct (U b1 Hb) as (? & ? & ? & ?). cbn. repeat split; auto; lra. }
  rewrite (uhtr_values link uw c bs l g r Es Eb Em A P Sg Gr U Er E k Hk).
  rewrite (uhtr_values link uw (with_boreholes c bs') bs' l g' r eq_refl Eb Em A P); auto.
  2: { unfold segmented in *. rewrite ES, ER, El. auto. }
  2: { rewrite ER. auto. }
  2: { unfold bs'. rewrite map_map. auto. }
  cbn [with_boreholes c_alpha c_options].
  pose proof (radii_threshold bs r (c_alpha c) (c_options c) U A Er P) as Tp.
  assert (K : forall t, 0 < t -> field_mean (c_alpha c) t bs < field_mean (c_alpha c) t bs') by (intros t Ht; apply mean_deeper; auto).
  split; [apply started_le|intros Pt; apply started_lt]; auto; intros t Ht; specialize (K t Ht); lra.
Qed.
