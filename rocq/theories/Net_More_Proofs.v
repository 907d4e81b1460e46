(* Statements about networks assembled from the lemmas of the other files. *)
From Coq Require Import Reals Lra Lia List ZArith Bool Permutation Sorted FunctionalExtensionality.
From Verif Require Import Base LinAlg Net_Model Net_Spec Net_Proofs Net_Coef_Proofs Net_Heat_Proofs Net_Cache_Proofs.
Import ListNotations.
Local Open Scope R_scope.

Lemma every_all P N ps F g : wf N -> good_args N ps g F -> every_pipe P N ps F -> all_pipes P N ps F.
Proof.
  intros W [_ [Hp _]] H i Hi. apply H. apply nth_error_nth'. lia.
Qed.

(* Two strictly increasing lists with the same members are the same. *)
Lemma sorted_perm_eq (l l' : list nat) : StronglySorted lt l -> StronglySorted lt l' -> Permutation l l' -> l = l'.
Proof.
  revert l'; induction l as [|a l IH]; intros l' S S' P.
  - apply Permutation_nil in P. auto.
  - destruct l' as [|b l']; [apply Permutation_sym, Permutation_nil in P; discriminate|].
    inversion S as [|? ? S1 F1]; inversion S' as [|? ? S2 F2]; subst.
    rewrite Forall_forall in F1, F2.
    assert (a = b).
    { assert (Ia : In a (b :: l')) by (apply (Permutation_in _ P); left; auto).
      assert (Ib : In b (a :: l)) by (apply (Permutation_in _ (Permutation_sym P)); left; auto).
      destruct Ia as [|Ia]; auto. destruct Ib as [|Ib]; auto.
      specialize (F1 _ Ib). specialize (F2 _ Ia). lia. }
    subst b. f_equal. apply IH; auto. eapply Permutation_cons_inv; eauto.
Qed.

Lemma seq_sorted a n : StronglySorted lt (seq a n).
Proof.
  revert a; induction n as [|n IH]; intro a; simpl; [constructor|]. constructor; auto.
  apply Forall_forall. intros x Hx. apply in_seq in Hx. lia.
Qed.

Lemma filter_sorted (f : nat -> bool) l : StronglySorted lt l -> StronglySorted lt (filter f l).
Proof.
  induction 1 as [|a l S IH F]; simpl; [constructor|]. destruct (f a); auto. constructor; auto.
  apply Forall_forall. intros x Hx. apply filter_In in Hx. rewrite Forall_forall in F. apply F. tauto.
Qed.

Lemma map_sorted (E : nat -> nat) n : (forall j k, (j < k)%nat -> (k < n)%nat -> (E j < E k)%nat) ->
  forall a m, (a + m <= n)%nat -> StronglySorted lt (map E (seq a m)).
Proof.
  intros H a m; revert a; induction m as [|m IH]; intros a L; simpl; [constructor|]. constructor.
  - apply IH. lia.
  - apply Forall_forall. intros x Hx. apply in_map_iff in Hx. destruct Hx as [k [<- Hk]].
    apply in_seq in Hk. apply H; lia.
Qed.

Lemma iOut_sorted N rev : wf N -> StronglySorted lt (iOutlets N rev).
Proof.
  intros [_ [E1 [E2 _]]]. unfold iOutlets. rewrite E1, E2. destruct rev; apply filter_sorted, seq_sorted.
Qed.

Lemma well_mixed_paired N F E : wf N -> ends N (f_rev F) E -> well_mixed N F E -> paired N F.
Proof.
  intros W HE [Hr|[[x Hx]|Ho]].
  - apply paired_reversed; auto.
  - eapply paired_equal; eauto.
  - assert (P := ends_perm N (f_rev F) E W HE).
    assert (Eq : map E (seq 0 (nInlets N)) = iOutlets N (f_rev F)).
    { apply sorted_perm_eq; auto; [|apply iOut_sorted; auto]. apply (map_sorted E (nInlets N)); auto. }
    intros k Hk. rewrite <- Eq. rewrite nth_map_seq by auto.
    destruct (HE k Hk) as [H1 [H2 _]]. rewrite (root_circ N (E k) k W H1 Hk H2). auto.
Qed.

Lemma outlet_mixture N ps g F E t Tb a o : wf N -> good_args N ps g F ->
  ends N (f_rev F) E -> well_mixed N F E ->
  fresh N ps NetOutlet g = Some a -> fresh N ps Outlet g = Some o ->
  let K := seg_total (f_seg F) in
  apply_coefs K a t Tb O
  = sumn (nInlets N) (fun k => Rabs (nth k (f_m F) 0) * apply_coefs K o t Tb (E k)) / total_flow N F.
Proof.
  intros W G HE HM Ha Ho K. rewrite (fresh_direct N ps _ g F W G) in Ha; rewrite (fresh_direct N ps _ g F W G) in Ho. cbn in Ha, Ho.
  rewrite Ho in Ha. inversion Ha; subst a; clear Ha.
  assert (Lm := proj1 (format_facts N g F W (proj1 G))).
  unfold K. rewrite (outlet_by_list N F _ o t Tb W Lm eq_refl).
  unfold total_flow. f_equal. apply (paired_sum N F E (apply_coefs (seg_total (f_seg F)) o t Tb) W Lm); auto.
  eapply well_mixed_paired; eauto.
Qed.

(* What the code computes, without condition *)
Lemma outlet_listed N ps g F t Tb a o : wf N -> good_args N ps g F ->
  fresh N ps NetOutlet g = Some a -> fresh N ps Outlet g = Some o ->
  let K := seg_total (f_seg F) in
  apply_coefs K a t Tb O
  = sumn (nInlets N) (fun k => Rabs (nth k (f_m F) 0) * apply_coefs K o t Tb (nth k (iOutlets N (f_rev F)) O)) / total_flow N F.
Proof.
  intros W G Ha Ho K. rewrite (fresh_direct N ps _ g F W G) in Ha; rewrite (fresh_direct N ps _ g F W G) in Ho. cbn in Ha, Ho.
  rewrite Ho in Ha. inversion Ha; subst a; clear Ha.
  assert (Lm := proj1 (format_facts N g F W (proj1 G))).
  apply (outlet_by_list N F _ o t Tb W Lm eq_refl).
Qed.

Lemma fresh_some_all N ps g F : wf N -> good_args N ps g F ->
  exists a o qb qf h no, fresh N ps Inlet g = Some a /\ fresh N ps Outlet g = Some o
   /\ fresh N ps BoreHeat g = Some qb /\ fresh N ps FluidHeat g = Some qf /\ fresh N ps NetHeat g = Some h
   /\ fresh N ps NetOutlet g = Some no.
Proof.
  intros W G. destruct (coef_inlet_some N ps F W) as [a Ea]. destruct (coef_outlet_some N ps F W) as [o Eo].
  exists a, o, (coef_qb N ps F a), (coef_qf N ps F a), (coef_net_heat N (coef_qf N ps F a)),
    (coef_net_outlet N (mixing (iOutlets N (f_rev F)) (f_m F)) o).
  rewrite !(fresh_direct N ps _ g F W G). cbn. rewrite Ea, Eo. repeat split.
Qed.

Lemma heat_circuits N ps g F E t Tb cp h o : wf N -> good_args N ps g F -> ends N (f_rev F) E ->
  In cp (g_cp g) -> fresh N ps NetHeat g = Some h -> fresh N ps Outlet g = Some o ->
  let K := seg_total (f_seg F) in
  apply_coefs K h t Tb O
  = sumn (nInlets N) (fun k => Rabs (nth k (f_m F) 0) * cp * (apply_coefs K o t Tb (E k) - t)).
Proof.
  intros W G HE Hcp Hh Ho K. rewrite (fresh_direct N ps _ g F W G) in Hh; rewrite (fresh_direct N ps _ g F W G) in Ho. cbn in Hh, Ho.
  destruct (coef_inlet N ps F) as [a|] eqn:Ea; [|discriminate]. inversion Hh; subst h; clear Hh.
  apply (heat_by_circuit N ps g F a o t Tb E cp W G Ea Ho Hcp HE).
Qed.

Lemma heat_balance N ps g F E t Tb cp h no : wf N -> good_args N ps g F -> ends N (f_rev F) E ->
  well_mixed N F E -> total_flow N F <> 0 ->
  In cp (g_cp g) -> fresh N ps NetHeat g = Some h -> fresh N ps NetOutlet g = Some no ->
  let K := seg_total (f_seg F) in
  apply_coefs K h t Tb O = total_flow N F * cp * (apply_coefs K no t Tb O - t).
Proof.
  intros W G HE HM HT Hcp Hh Hn K.
  destruct (fresh_some_all N ps g F W G) as [_ [o [_ [_ [_ [_ [_ [Ho _]]]]]]]].
  assert (X1 := heat_circuits N ps g F E t Tb cp h o W G HE Hcp Hh Ho). cbv zeta in X1. fold K in X1.
  assert (X2 := outlet_mixture N ps g F E t Tb no o W G HE HM Hn Ho). cbv zeta in X2. fold K in X2.
  rewrite X1, X2.
  transitivity (cp * (sumn (nInlets N) (fun k => Rabs (nth k (f_m F) 0) * apply_coefs K o t Tb (E k)) - t * total_flow N F)).
  - unfold total_flow. rewrite <- (sumn_scal _ t), <- sumn_minus, <- sumn_scal. apply sumn_ext. intros; lra.
  - field. auto.
Qed.

Lemma heat_sum N ps g F t Tb h qf : wf N -> good_args N ps g F ->
  fresh N ps NetHeat g = Some h -> fresh N ps FluidHeat g = Some qf ->
  let K := seg_total (f_seg F) in
  apply_coefs K h t Tb O = sumn (nB N) (apply_coefs K qf t Tb).
Proof.
  intros W G Hh Hq K. rewrite (fresh_direct N ps _ g F W G) in Hh; rewrite (fresh_direct N ps _ g F W G) in Hq. cbn in Hh, Hq.
  destruct (coef_inlet N ps F) as [a|]; [|discriminate]. inversion Hh; inversion Hq; subst.
  apply net_heat_apply.
Qed.

Lemma heat_sum_segments N ps g F t Tb h qb : wf N -> good_args N ps g F ->
  every_pipe pipe_balanced N ps F ->
  fresh N ps NetHeat g = Some h -> fresh N ps BoreHeat g = Some qb ->
  let K := seg_total (f_seg F) in
  apply_coefs K h t Tb O = sumn K (apply_coefs K qb t Tb).
Proof.
  intros W G HP Hh Hq K. rewrite (fresh_direct N ps _ g F W G) in Hh; rewrite (fresh_direct N ps _ g F W G) in Hq. cbn in Hh, Hq.
  destruct (coef_inlet N ps F) as [a|]; [|discriminate]. inversion Hh; inversion Hq; subst.
  unfold K. rewrite (heat_segments N ps g F a t Tb W G); [|eapply every_all; eauto]. apply net_heat_apply.
Qed.

(* Uniform temperature *)
Lemma equilibrium N ps g F T a o qb qf h no : wf N -> good_args N ps g F ->
  every_pipe pipe_neutral N ps F ->
  fresh N ps Inlet g = Some a -> fresh N ps Outlet g = Some o ->
  fresh N ps BoreHeat g = Some qb -> fresh N ps FluidHeat g = Some qf ->
  fresh N ps NetHeat g = Some h -> fresh N ps NetOutlet g = Some no ->
  let K := seg_total (f_seg F) in
  let U := fun _ : nat => T in
  (forall i, (i < nB N)%nat -> apply_coefs K a T U i = T /\ apply_coefs K o T U i = T
                               /\ apply_coefs K qf T U i = 0)
  /\ (forall k, (k < K)%nat -> apply_coefs K qb T U k = 0)
  /\ apply_coefs K h T U O = 0
  /\ (total_flow N F <> 0 -> apply_coefs K no T U O = T).
Proof.
  intros W G HP Ha Ho Hb Hq Hh Hn K U.
  assert (AP := every_all _ _ _ _ _ W G HP).
  assert (L := outlet_listed N ps g F T U no o W G Hn Ho). cbv zeta in L. fold K in L.
  assert (Hs := heat_sum N ps g F T U h qf W G Hh Hq). cbv zeta in Hs. fold K in Hs.
  rewrite (fresh_direct N ps _ g F W G) in Ha; rewrite (fresh_direct N ps _ g F W G) in Ho; rewrite (fresh_direct N ps _ g F W G) in Hb; rewrite (fresh_direct N ps _ g F W G) in Hq. cbn in Ha, Ho, Hb, Hq. rewrite Ha in Hb, Hq.
  inversion Hb; inversion Hq; subst qb qf; clear Hb Hq.
  assert (UT := uniform_temperatures N ps g F a o T W G AP Ha Ho). cbv zeta in UT. fold K in UT.
  assert (QF : forall i, (i < nB N)%nat -> apply_coefs K (coef_qf N ps F a) T U i = 0).
  { intros i Hi. assert (Q := qf_apply N ps g F a T U i W G Hi). cbv zeta in Q. fold K in Q. rewrite Q.
    fold U in UT. rewrite (proj1 (UT i Hi)). unfold U. rewrite (bore_outlet_uniform N ps F i T AP Hi). lra. }
  split; [|split; [|split]].
  - intros i Hi. split; [apply UT; auto|]. split; [apply UT; auto|auto].
  - destruct (good_lengths _ _ _ _ W G) as [_ [_ [_ [L4 _]]]].
    assert (Sg : forall k, (k < K)%nat -> exists i s, (i < nB N)%nat /\ (s < nth i (f_seg F) O)%nat /\ k = (seg_off (f_seg F) i + s)%nat).
    { unfold K. rewrite <- L4. clear. generalize (f_seg F). induction l as [|n l IH]; intros k Hk.
      - unfold seg_total in Hk. simpl in Hk. lia.
      - rewrite seg_total_cons in Hk. destruct (Nat.lt_ge_cases k n) as [Hl|Hl].
        + exists O, k. simpl. split; [lia|auto].
        + destruct (IH (k - n)%nat) as [i [s [H1 [H2 H3]]]]; [lia|].
          exists (S i), s. simpl. split; [lia|]. split; auto. lia. }
    intros k Hk. destruct (Sg k Hk) as [i [s [Hi [Hsl ->]]]].
    assert (Q := qb_apply N ps g F a T U i s W G Hi Hsl). cbv zeta in Q. fold K in Q. rewrite Q.
    fold U in UT; rewrite (proj1 (UT i Hi)). unfold U. rewrite sumn_scal_r, <- Rmult_plus_distr_r.
    rewrite (proj2 (AP i Hi) s Hsl). lra.
  - rewrite Hs. apply sumn_zero. auto.
  - intro HT. rewrite L. transitivity (T * total_flow N F / total_flow N F); [|field; auto].
    f_equal. unfold total_flow. rewrite <- sumn_scal. apply sumn_ext. intros k Hk.
    assert (Hlt : (nth k (iOutlets N (f_rev F)) O < nB N)%nat).
    { destruct (iOut_facts N (f_rev F) W) as [_ [Li I]]. apply I. apply nth_In. lia. }
    fold U in UT. rewrite (proj2 (UT _ Hlt)). lra.
Qed.

(* History *)
Lemma good_the_fmt N ps g : good_call N ps g -> good_args N ps g (the_fmt N g).
Proof. intros [F G]. unfold the_fmt. rewrite (proj1 G). auto. Qed.

Lemma history_gen N ps l k g : wf N ->
  (forall h, In h (g :: map snd l) -> good_call N ps h) ->
  (forall h1 h2, In h1 (g :: map snd l) -> In h2 (g :: map snd l) -> told_apart h1 h2) ->
  (k = NetOutlet -> forall h1 h2, In h1 (g :: map snd l) -> In h2 (g :: map snd l) ->
     mixing (iOutlets N (f_rev (the_fmt N h1))) (f_m (the_fmt N h1))
     = mixing (iOutlets N (f_rev (the_fmt N h2))) (f_m (the_fmt N h2))) ->
  snd (call N ps k g (calls N ps l init_state)) = fresh N ps k g.
Proof.
  intros W HG HT HM.
  rewrite (fresh_direct N ps k g (the_fmt N g) W) by (apply good_the_fmt, HG; left; auto).
  apply (call_direct N ps (fun h => In h (g :: map snd l)) (the_fmt N)); auto.
  - intros h Hh. apply good_the_fmt. auto.
  - intros k' g' Hin. right. apply in_map_iff. exists (k', g'). auto.
  - left; auto.
Qed.

Lemma history_same N ps l k g : wf N -> good_call N ps g ->
  (forall h, In h (map snd l) -> h = g) ->
  snd (call N ps k g (calls N ps l init_state)) = fresh N ps k g.
Proof.
  intros W HG Hs. apply history_gen; auto.
  - intros h [<-|Hh]; auto. rewrite (Hs h Hh). auto.
  - intros h1 h2 [<-|H1] [<-|H2]; try rewrite (Hs _ H1); try rewrite (Hs _ H2); apply told_apart_refl.
  - intros _ h1 h2 [<-|H1] [<-|H2]; try rewrite (Hs _ H1); try rewrite (Hs _ H2); auto.
Qed.

