(** The g-function of a field whose boreholes are in another order. *)
From Coq Require Import String Permutation.
From Verif Require Import Base LinAlg FLS_Model.
From Verif Require Import Bore_Model Bore_Spec Bore_Proofs Net_Model Solve_Model Detailed_Model Detailed_Spec Detailed_Proofs Detailed_Sol_Proofs Sim_Model Eq_Model GFun_Model GFun_Spec Sym_Spec Sym_Perm_Proofs Sym_Move_Proofs.
Local Open Scope R_scope.

Lemma permutation_index {A} (d : A) l l' : Permutation l l' ->
  exists sg, Permutation sg (seq 0 (List.length l)) /\ forall i, (i < List.length l)%nat -> nth i l' d = nth (nth i sg 0%nat) l d.
Proof.
  intros P. assert (E : l = map (fun k => nth k l d) (seq 0 (List.length l))).
  { apply (list_eq_nth d). { rewrite map_length, seq_length. auto. } intros i Hi. rewrite nth_map_seq by auto. auto. }
  rewrite E in P at 1. apply Permutation_sym in P. destruct (Permutation_map_inv _ _ P) as [sg [E' P']].
  exists sg. split; [apply Permutation_sym; auto|]. intros i Hi. rewrite E' at 1.
  apply (nth_map (fun k => nth k l d)). rewrite <- (Permutation_length P'), seq_length. auto.
Qed.

Section Plan.
  Context {A B : Type}.
  Lemma combine_fst (l : list A) (r : list B) : List.length l = List.length r -> map fst (combine l r) = l.
  Proof. revert r. induction l as [|x l IH]; intros [|y r] L; cbn in *; try lia; auto. rewrite IH by lia. auto. Qed.
  Lemma combine_snd (l : list A) (r : list B) : List.length l = List.length r -> map snd (combine l r) = r.
  Proof. revert r. induction l as [|x l IH]; intros [|y r] L; cbn in *; try lia; auto. rewrite IH by lia. auto. Qed.
End Plan.

Lemma segments_plan bs : forall ns rs, borehole_segments bs ns rs = flat_map (fun p => segments (fst p) (fst (snd p)) (Some (snd (snd p)))) (combine bs (combine ns rs)).
Proof. induction bs as [|b bs IH]; intros [|n ns] [|r rs]; cbn [borehole_segments combine flat_map fst snd]; auto. rewrite IH. auto. Qed.

Section Two.
  Variables (bs bs' : list bore) (ns ns' : list nat) (rs rs' : list (list R)).
  Hypothesis W : segmented bs ns rs.
  Hypothesis W' : segmented bs' ns' rs'.
  Hypothesis P : Permutation (combine bs (combine ns rs)) (combine bs' (combine ns' rs')).

  Lemma len_plan b n r : segmented b n r -> List.length (combine n r) = List.length b /\ List.length (combine b (combine n r)) = List.length b.
  Proof. intros [A [B _]]. rewrite !combine_length, A, B, !Nat.min_id. auto. Qed.
  Lemma perm_bs : Permutation bs bs'.
  Proof.
    destruct (len_plan _ _ _ W) as [A _], (len_plan _ _ _ W') as [B _]. rewrite <- (combine_fst bs (combine ns rs)), <- (combine_fst bs' (combine ns' rs')) by auto. apply Permutation_map. auto.
  Qed.
  Lemma perm_nr : Permutation (combine ns rs) (combine ns' rs').
  Proof.
    destruct (len_plan _ _ _ W) as [A _], (len_plan _ _ _ W') as [B _]. rewrite <- (combine_snd bs (combine ns rs)), <- (combine_snd bs' (combine ns' rs')) by auto. apply Permutation_map. auto.
  Qed.
  Lemma perm_ns : Permutation ns ns'.
  Proof.
    destruct W as [A [B _]], W' as [A' [B' _]]. rewrite <- (combine_fst ns rs), <- (combine_fst ns' rs') by congruence. apply Permutation_map, perm_nr.
  Qed.
  Lemma perm_rs : Permutation rs rs'.
  Proof.
    destruct W as [A [B _]], W' as [A' [B' _]]. rewrite <- (combine_snd ns rs), <- (combine_snd ns' rs') by congruence. apply Permutation_map, perm_nr.
  Qed.
  Lemma perm_segments : Permutation (borehole_segments bs ns rs) (borehole_segments bs' ns' rs').
  Proof. rewrite !segments_plan. apply Permutation_flat_map. auto. Qed.

  Lemma perm_ratios : good_ratios rs -> good_ratios rs'.
  Proof. intros G r Hr. apply G. apply (Permutation_in _ (Permutation_sym perm_rs)). auto. Qed.
  Lemma perm_upright : upright bs -> upright bs'.
  Proof. intros G r Hr. apply G. apply (Permutation_in _ (Permutation_sym perm_bs)). auto. Qed.
  Lemma perm_radii : lmax (map br bs') = lmax (map br bs).
  Proof.
    destruct (lmax (map br bs)) as [r|] eqn:E.
    - apply lmax_radius in E. apply lmax_radius. destruct E as [(b & Ib & Eb) K]. split.
      + exists b. split; auto. apply (Permutation_in _ perm_bs). auto.
      + intros x Hx. apply K. apply (Permutation_in _ (Permutation_sym perm_bs)). auto.
    - pose proof perm_bs as Q. assert (Eb : bs = []) by (destruct bs; [auto|discriminate]). rewrite Eb in Q. apply Permutation_nil in Q. rewrite Q. reflexivity.
  Qed.
  Lemma perm_duplicates : find_duplicates bs = Some [] -> find_duplicates bs' = Some [].
  Proof.
    intros D. destruct (lmax (map br bs)) as [r|] eqn:Er. 2: { unfold find_duplicates in D. rewrite Er in D. discriminate. }
    pose proof perm_radii as Er'. rewrite Er in Er'. apply lmax_radius in Er, Er'.
    destruct (find_duplicates_spec bs r Er) as (ps & E & _ & K). rewrite D in E. injection E as <-.
    destruct (find_duplicates_spec bs' r Er') as (ps' & E' & _ & K'). rewrite E'. destruct ps' as [|[i j] l]; auto. exfalso.
    destruct (proj1 (K' i j) (or_introl eq_refl)) as [Hij L].
    destruct (permutation_index b0 _ _ perm_bs) as [sg [Ps Es]]. rewrite <- (Permutation_length perm_bs) in Hij.
    set (n := List.length bs) in *. pose proof (pi_lt n sg Ps i ltac:(lia)) as Li. pose proof (pi_lt n sg Ps j ltac:(lia)) as Lj.
    assert (N : pi sg i <> pi sg j). { intros Q. apply (pi_inj n sg Ps) in Q; lia. }
    rewrite (Es i), (Es j) in L by lia. fold (pi sg i) (pi sg j) in L.
    assert (Sy : forall x y, plane_dist x y = plane_dist y x) by (intros x y; unfold plane_dist; f_equal; ring).
    destruct (Nat.lt_ge_cases (pi sg i) (pi sg j)) as [Q|Q].
    - apply (proj2 (K (pi sg i) (pi sg j))). split; auto.
    - apply (proj2 (K (pi sg j) (pi sg i))). split; [lia|]. rewrite Sy. auto.
  Qed.
  Lemma perm_checks : check_segments bs ns rs = true -> check_segments bs' ns' rs' = true.
  Proof.
    unfold check_segments. rewrite <- (Permutation_length perm_bs), <- (Permutation_length perm_ns). intros K. repeat (apply andb_true_iff in K as [K ?]). repeat (apply andb_true_iff; split); auto.
    - apply forallb_forall. intros x Hx. match goal with Q : forallb _ ns = true |- _ => apply (proj1 (forallb_forall _ _) Q) end. apply (Permutation_in _ (Permutation_sym perm_ns)). auto.
    - apply forallb_forall. intros x Hx. match goal with Q : forallb _ (combine rs ns) = true |- _ => apply (proj1 (forallb_forall _ _) Q) end.
      assert (Sw : forall (l : list nat) (r : list (list R)), combine r l = map (fun p => (snd p, fst p)) (combine l r)) by (induction l as [|? ? IH]; intros [|? ?]; cbn; auto; rewrite IH; auto).
      rewrite Sw in *. apply (Permutation_in _ (Permutation_map _ (Permutation_sym perm_nr))). auto.
  Qed.
  Lemma duplicates_field f : upright f -> find_duplicates f = Some [] -> vertical_field f.
  Proof.
    intros U D. split; [exact U|]. intros a b Ha Hb N. destruct (lmax (map br f)) as [r|] eqn:Er. 2: { unfold find_duplicates in D. rewrite Er in D. discriminate. }
    apply lmax_radius in Er. destruct (find_duplicates_spec f r Er) as (ps & E & _ & K). rewrite D in E. injection E as <-.
    apply Rle_trans with r. { apply Er. apply nth_In. auto. } apply Rnot_lt_le. intros L.
    assert (Sy : forall x y, planar x y = planar y x) by (intros x y; unfold planar; f_equal; ring).
    destruct (Nat.lt_ge_cases a b) as [Q|Q].
    - apply (proj2 (K a b)). split; [lia|]. exact L.
    - apply (proj2 (K b a)). split; [lia|]. rewrite Sy in L. exact L.
  Qed.

  Section Systems.
    Variables (alpha : R) (uw : list (R * R)).
    Hypothesis V : vertical_field bs.
    Hypothesis V' : vertical_field bs'.
    Hypothesis G : good_ratios rs.
    Let h t := Some (detailed_matrix (line_kernel alpha t uw) bs ns rs).
    Let h' t := Some (detailed_matrix (line_kernel alpha t uw) bs' ns' rs').
    Lemma perm_sources : n_sources bs' ns' rs' = n_sources bs ns rs.
    Proof. unfold n_sources, bore_segments. symmetry. apply Permutation_length, perm_segments. Qed.

    Lemma perm_system : exists sg, Permutation sg (seq 0 (n_sources bs ns rs))
      /\ (forall i, (i < n_sources bs ns rs)%nat -> segment_length bs' ns' rs' i = 1 * segment_length bs ns rs (pi sg i))
      /\ forall tl i j k, (i < n_sources bs ns rs)%nat -> (j < n_sources bs ns rs)%nat -> at_times h' tl i j k = at_times h tl (pi sg i) (pi sg j) k.
    Proof.
      destruct (permutation_index no_bore _ _ perm_segments) as [sg [Ps Es]]. exists sg. split; [exact Ps|]. split.
      - intros i Hi. unfold segment_length, bore_segments. rewrite Rmult_1_l. f_equal. exact (Es i Hi).
      - intros tl i j k Hi Hj. unfold at_times, h, h'. pose proof (pi_lt (n_sources bs ns rs) sg Ps i Hi) as Li. pose proof (pi_lt (n_sources bs ns rs) sg Ps j Hj) as Lj.
        assert (N : n_sources bs ns rs = list_sum ns) by (apply (segments_all bs ns rs W)). assert (N' : n_sources bs ns rs = list_sum ns') by (rewrite <- perm_sources; apply (segments_all bs' ns' rs' W')).
        rewrite (matrix_response bs' ns' rs' W' V' (perm_ratios G)) by (rewrite <- N'; auto). rewrite (matrix_response bs ns rs W V G) by (rewrite <- N; auto). unfold bore_segments. f_equal; [exact (Es j Hj)|exact (Es i Hi)].
    Qed.
  End Systems.
End Two.

Section Calls.
  Variables (link : list R -> tree) (uw : list (R * R)).

  Lemma reordered_some c c' g : reordered c c' -> lower (c_method c) = "detailed"%string ->
    segmented (boreholes_of c) (segments_of c) (ratios_of c) -> segmented (boreholes_of c') (segments_of c') (ratios_of c') -> good_ratios (ratios_of c) -> upright (boreholes_of c) ->
    gfunction link uw c = Some g -> gfunction link uw c' = Some g.
  Proof.
    intros ([bs Ec] & [bs' Ec'] & Pl & Ea & Et & Em & Eb & E1 & E2 & E3 & Eo) Dt W W' G U.
    destruct c as [src alpha tm me bc mb mn cp o], c' as [src' alpha' tm' me' bc' mb' mn' cp' o'].
    cbn [c_source c_alpha c_time c_method c_bc c_mb c_mn c_cp c_options] in *. subst src src' alpha' tm' me' bc' mb' mn' cp'.
    unfold plan_of, ratios_of in *. unfold segments_of in *. cbn [boreholes_of c_source c_options] in *.
    set (ns := format_segments (List.length bs) (o_n o)) in *. set (rs := format_ratios (List.length bs) ns (o_r o)) in *.
    set (ns' := format_segments (List.length bs') (o_n o')) in *. set (rs' := format_ratios (List.length bs') ns' (o_r o')) in *.
    unfold gfunction, construct, resolve. cbn [c_source c_alpha c_time c_method c_bc c_mb c_mn c_cp c_options].
    set (b := match bc with Some s => s | None => "UBWT"%string end).
    rewrite Dt. change (String.eqb "detailed" "equivalent") with false. rewrite !andb_false_r.
    unfold check. cbn [q_bs q_net q_method q_bc q_mb q_mn q_cp c_time].
    destruct (find_duplicates bs) as [[|? ?]|] eqn:D. 2,3: rewrite !andb_false_r; cbn [andb]; discriminate.
    rewrite (perm_duplicates _ _ _ _ _ _ W W' Pl D). rewrite <- (Permutation_length (perm_bs _ _ _ _ _ _ W W' Pl)).
    destruct (_ && _) ; [|discriminate].
    unfold make_solver. cbn [q_bs q_net q_method q_bc q_mb q_mn q_cp]. fold ns rs ns' rs'.
    destruct (solver_flows mb mn) as [[k rows]|]; [|discriminate].
    change (check_flows (mkrequest bs' None me b mb mn cp) rows) with (check_flows (mkrequest bs None me b mb mn cp) rows). destruct (check_flows _ rows); [|discriminate]. cbn [andb].
    destruct (check_segments bs ns rs) eqn:Ck; [|discriminate]. rewrite (perm_checks _ _ _ _ _ _ W W' Pl Ck). rewrite Dt. change (String.eqb "detailed" "detailed") with true. cbv iota.
    assert (Ev : evaluate link uw (mkcall (GFun_Model.Field bs) alpha tm me bc mb mn cp o) (mkrequest bs None me b mb mn cp, mksolver ns rs k rows None) tm = Some g ->
                 evaluate link uw (mkcall (GFun_Model.Field bs') alpha tm me bc mb mn cp o') (mkrequest bs' None me b mb mn cp, mksolver ns' rs' k rows None) tm = Some g).
    { unfold evaluate. destruct (times tm) as [t|]; [|discriminate]. cbn [q_bs q_net q_method q_bc q_mb q_mn q_cp c_alpha c_options v_k v_rows]. rewrite (perm_radii _ _ _ _ _ _ W W' Pl).
      destruct (lmax (map br bs)) as [r|]; [|discriminate]. unfold make_system. cbn [q_bs q_net q_method q_bc q_mb q_mn q_cp c_alpha c_options]. rewrite Dt. change (String.eqb "detailed" "detailed") with true. cbv iota.
      rewrite Eo. set (thr := time_threshold r alpha (o_thr o)). unfold solve, detailed_system. cbn [y_n y_H y_h y_Hi y_flow q_bs q_net v_n v_r c_alpha].
      assert (Df : forall (f : R -> Mx) l, defined_at (fun t0 => Some (f t0)) l = true) by (intros f l; apply forallb_forall; intros; reflexivity).
      rewrite !Df. destruct (perm_system _ _ _ _ _ _ W W' Pl alpha uw (duplicates_field _ U D) (duplicates_field _ (perm_upright _ _ _ _ _ _ W W' Pl U) (perm_duplicates _ _ _ _ _ _ W W' Pl D)) G) as [sg [Ps [EH ET]]].
      rewrite (perm_sources _ _ _ _ _ _ Pl). destruct (String.eqb b "UHTR").
      - rewrite (order_uhtr _ _ Ps _ _ EH _ _ _ _ ET). auto.
      - destruct (String.eqb b "UBWT").
        + destruct (solve_ubwt _ _ (at_times (fun t0 => Some (detailed_matrix (line_kernel alpha t0 uw) bs ns rs))) t thr) as [x|] eqn:Ex; [|discriminate].
          destruct (order_ubwt _ _ Ps _ _ EH _ _ _ _ ET _ Ex) as [x' [-> Sx]]. cbn [option_map]. rewrite Sx. auto.
        + destruct rows as [|row rows]; [discriminate|]. cbn [map]. unfold no_flow. cbn. discriminate. }
    destruct tm; auto; discriminate.
  Qed.

  Lemma reordered_gfunction c c' : reordered c c' -> lower (c_method c) = "detailed"%string ->
    segmented (boreholes_of c) (segments_of c) (ratios_of c) -> segmented (boreholes_of c') (segments_of c') (ratios_of c') -> good_ratios (ratios_of c) -> upright (boreholes_of c) ->
    gfunction link uw c' = gfunction link uw c.
  Proof.
    intros Re Dt W W' G U. destruct Re as (R1 & R2 & R3 & R4 & R5 & R6 & R7 & R8 & R9 & R10 & R11).
    assert (Re : reordered c c') by (repeat split; auto).
    assert (Re' : reordered c' c) by (repeat split; auto; apply Permutation_sym; auto).
    destruct (gfunction link uw c) as [g|] eqn:E. { apply (reordered_some c c'); auto. }
    destruct (gfunction link uw c') as [g|] eqn:E'; auto. rewrite <- E. symmetry. apply (reordered_some c' c); auto.
    - rewrite R6. auto.
    - apply (perm_ratios _ _ _ _ _ _ W W' R3). auto.
    - apply (perm_upright _ _ _ _ _ _ W W' R3). auto.
  Qed.
End Calls.

Lemma repeat_plan {A} (bs : list bore) (p : A) : combine bs (repeat p (List.length bs)) = map (fun b => (b, p)) bs.
Proof. induction bs; cbn; auto. rewrite IHbs. auto. Qed.
Lemma combine_repeat {A B} (x : A) (y : B) n : combine (repeat x n) (repeat y n) = repeat (x, y) n.
Proof. induction n; cbn; auto. rewrite IHn. auto. Qed.
Lemma map_same {A B} (f : A -> B) x n : map f (repeat x n) = repeat (f x) n.
Proof. induction n; cbn; auto. rewrite IHn. auto. Qed.

Lemma nth_copies {A} (x : A) d n i : (i < n)%nat -> nth i (repeat x n) d = x.
Proof. revert i. induction n; intros [|i] Hi; cbn; try lia; auto. apply IHn. lia. Qed.
Lemma same_plan c bs n : c_source c = GFun_Model.Field bs -> same_segments (c_options c) n ->
  exists r, List.length r = n /\ segments_of c = repeat n (List.length bs) /\ ratios_of c = repeat r (List.length bs)
    /\ forall bs', segments_of (with_boreholes c bs') = repeat n (List.length bs') /\ ratios_of (with_boreholes c bs') = repeat r (List.length bs').
Proof.
  intros Es [En Er]. unfold ratios_of, segments_of, boreholes_of. rewrite Es, En. cbn [with_boreholes c_source c_options]. cbn [format_segments].
  destruct (o_r (c_options c)) as [r| |f|l]; [exists r|exists (repeat (1 / INR n) n)|exists (f n)|contradiction]; cbn [format_ratios]; rewrite ?map_same.
  - repeat split; auto. rewrite En. reflexivity.
  - split; [apply repeat_length|]. split; auto. split; auto. intros bs'. rewrite En. cbn [format_segments]. rewrite map_same. auto.
  - split; auto. split; auto. split; auto. intros bs'. rewrite En. cbn [format_segments]. rewrite map_same. auto.
Qed.

Lemma same_reordered c bs bs' n : c_source c = GFun_Model.Field bs -> Permutation bs bs' -> same_segments (c_options c) n ->
  reordered c (with_boreholes c bs') /\ segmented (boreholes_of c) (segments_of c) (ratios_of c)
  /\ segmented (boreholes_of (with_boreholes c bs')) (segments_of (with_boreholes c bs')) (ratios_of (with_boreholes c bs')).
Proof.
  intros Es P Ss. destruct (same_plan c bs n Es Ss) as (r & Lr & A & B & K). destruct (K bs') as [A' B'].
  assert (Eb : boreholes_of c = bs) by (unfold boreholes_of; rewrite Es; auto). change (boreholes_of (with_boreholes c bs')) with bs'.
  split; [|split].
  - split; [eauto|]. split; [exists bs'; auto|]. split; [|repeat split; auto].
    unfold plan_of. rewrite A, A', B, B', Eb. change (boreholes_of (with_boreholes c bs')) with bs'. rewrite !combine_repeat, !repeat_plan. apply Permutation_map. auto.
  - rewrite A, B, Eb. split; [apply repeat_length|]. split; [apply repeat_length|]. intros b Hb. rewrite nth_copies, nth_copies by auto. auto.
  - rewrite A', B'. split; [apply repeat_length|]. split; [apply repeat_length|]. intros b Hb. rewrite nth_copies, nth_copies by auto. auto.
Qed.
