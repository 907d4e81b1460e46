From Coq Require Import String.
From Verif Require Import Base LinAlg FLS_Model.
From Verif Require Import Bore_Model Bore_Proofs Net_Model Net_Spec Solve_Model Solve_Spec Solve_Rec_Proofs Detailed_Model Detailed_Spec Detailed_Proofs Sim_Model Eq_Model GFun_Model GFun_Spec GFun_Eval_Proofs
  Prof_Model Prof_Spec Prof_Proofs Prof_Call_Proofs Prof_Main_Proofs Prof_Field_Proofs Prof_Fig_Proofs Prof_Depth_Proofs Prof_Shape_Proofs.
Local Open Scope string_scope.
Local Open Scope R_scope.

Definition excluded (h : bool) : string := if h then "UHTR" else "UBWT".

Section Calls.
  Variables (link : list R -> tree) (uw : list (R * R)) (c : call).
  Definition fig_t (h : bool) (iB : option (list nat)) (n : nat) := if h then heat_figure link uw true c iB n else temperature_figure link uw true c iB n.
  Definition fig_d (h : bool) (t : option R) (iB : option (list nat)) (n : nat) := if h then heat_profile_figure link uw true c t iB n else temperature_profile_figure link uw true c t iB n.

  Lemma fig_t_on h V iB n : evaluated link uw c = Some V -> fig_t h iB n = time_figure V (over_time h V) iB n.
  Proof. intros E. unfold fig_t, heat_figure, temperature_figure, on, over_time. rewrite E. destruct h; auto. Qed.
  Lemma fig_d_on h V t iB n : evaluated link uw c = Some V -> fig_d h t iB n = depth_figure V (over_depth h V t) iB n.
  Proof. intros E. unfold fig_d, heat_profile_figure, temperature_profile_figure, on, over_depth. rewrite E. destruct h; auto. Qed.
  Lemma fig_t_eval h iB n f : fig_t h iB n = Some f -> exists V, evaluated link uw c = Some V.
  Proof. unfold fig_t, heat_figure, temperature_figure, on. destruct (evaluated link uw c); eauto. destruct h; discriminate. Qed.
  Lemma fig_d_eval h t iB n f : fig_d h t iB n = Some f -> exists V, evaluated link uw c = Some V.
  Proof. unfold fig_d, heat_profile_figure, temperature_profile_figure, on. destruct (evaluated link uw c); eauto. destruct h; discriminate. Qed.

  (** what is stored, and the boundary condition *)
  Lemma stored_kind V : evaluated link uw c = Some V ->
    match b_stored V with Uniform _ => boundary c = "UHTR" | Wall _ _ => boundary c = "UBWT" | Mixed _ _ => boundary c = "MIFT" end.
  Proof.
    intros E. destruct (evaluated_parts _ _ _ _ E) as (q & s & y & g' & r & K & _ & _ & _ & _ & _ & _ & _ & _ & _ & St). pose proof (bc_resolved _ _ _ K) as B. rewrite <- B.
    destruct (construct_parts _ _ _ K) as (_ & _ & _ & _ & _ & Xb & _). cbn [existsb] in Xb. rewrite orb_false_r in Xb.
    unfold solve_stored in St. destruct (String.eqb_spec (q_bc q) "UHTR") as [->|N1]; [injection St as <-; auto|].
    destruct (String.eqb_spec (q_bc q) "UBWT") as [->|N2]; [destruct (solve_ubwt _ _ _ _ _); [injection St as <-; auto|discriminate St]|].
    cbn [orb] in Xb. apply String.eqb_eq in Xb.
    destruct (Net_Model.all_some _); [|discriminate St]. destruct (solve_mift _ _ _ _ _ _ _ _); [|discriminate St]. injection St as <-. auto.
  Qed.

  Lemma call_rows h V : evaluated link uw c = Some V -> boundary c <> excluded h -> exists rows, rows_of h V = Some rows /\ forall q, In q rows -> List.length q = List.length (b_time V).
  Proof.
    intros E Nb. pose proof (stored_kind V E) as K. destruct (evaluated_parts _ _ _ _ E) as (q & s & y & g' & r & _ & _ & _ & _ & _ & _ & _ & _ & _ & _ & St).
    pose proof (stored_lengths _ _ _ _ _ _ _ St) as L. unfold rows_of, excluded in *. destruct h, (b_stored V); try contradiction; eexists; (split; [reflexivity|]); try (intros q' [<-|[]]; tauto); destruct L as (_ & _ & L1 & L2); auto.
  Qed.

  Lemma one_flow V g i : evaluated link uw c = Some V -> gfunction link uw c = Some (G1 g) -> (exists rw, heat_rates V i = Some rw) \/ (exists rw, temperatures V i = Some rw) -> b_k V = O.
  Proof.
    intros E G R. destruct (evaluated_parts _ _ _ _ E) as (q & s & y & g' & r & K & G' & Ee & Et & El & Ey & _ & Ek & _ & _ & St).
    rewrite G in G'. injection G' as <-. unfold heat_rates, temperatures, there in R.
    destruct (b_stored V) as [T|Q T|Q T] eqn:D; [destruct (Nat.eqb_spec (b_k V) 0); auto; destruct R as [[rw R]|[rw R]]; discriminate R..|].
    unfold evaluate in Ee. rewrite Et, El, Ey in Ee. unfold solve in Ee. destruct (defined_at _ _); [|discriminate Ee].
    pose proof (stored_kind V E) as B. rewrite D in B. rewrite (bc_resolved _ _ _ K), B in Ee. cbn [String.eqb Ascii.eqb Bool.eqb] in Ee.
    destruct (v_rows s); [discriminate Ee|]. destruct (Net_Model.all_some _); [|discriminate Ee]. destruct (solve_mift _ _ _ _ _ _ _ _) as [[[g0 Q0] T0]|]; [|discriminate Ee].
    destruct (Nat.eqb_spec (v_k s) 0); [congruence|discriminate Ee].
  Qed.

  Lemma some_time V : evaluated link uw c = Some V -> (0 < List.length (b_time V))%nat.
  Proof.
    intros E. destruct (evaluated_parts _ _ _ _ E) as (q & s & y & g' & r & _ & _ & _ & T & _). unfold times in T. destruct (numbers (c_time c)) as [[|a l]|]; try discriminate T.
    destruct (increasing _); [|discriminate T]. injection T as <-. cbn. lia.
  Qed.

  Section Each.
    Hypothesis Ea : each_borehole c.
    Hypothesis Sg : segmented (boreholes_of c) (segments_of c) (ratios_of c).
    Hypothesis Gr : good_ratios (ratios_of c).
    Variables (h : bool) (t : list R).
    Hypothesis Ht : has_times c t.
    Hypothesis Nb : boundary c <> excluded h.
    Variables (iB iB' : option (list nat)) (n i : nat) (ft fp : figure) (cv pr : curve).
    Hypothesis Ft : fig_t h iB n = Some ft.
    Hypothesis It : In (i, cv) ft.
    Hypothesis Ip : In (i, pr) fp.

    Lemma each_last : fig_d h None iB' n = Some fp -> shows (nth i (boreholes_of c) no_bore) (nth i (ratios_of c) []) pr (height cv (List.length t - 1)).
    Proof.
      intros Fp. destruct (fig_t_eval _ _ _ _ Ft) as [V E]. destruct (each_parts _ _ _ _ E Ea) as (B1 & B2 & B3 & _). destruct (call_rows h V E Nb) as [rows [Er Lr]].
      rewrite (fig_t_on h V _ _ E) in Ft. rewrite (fig_d_on h V _ _ _ E) in Fp. pose proof (some_time V E) as Nt. destruct (evaluated_parts _ _ _ _ E) as (q & s & y & g' & r & _ & _ & _ & T & _).
      unfold has_times in Ht. rewrite Ht in T. injection T as ->. rewrite <- B1, <- B3. rewrite <- B1, <- B2, <- B3 in Sg. rewrite <- B3 in Gr.
      exact (depth_last V Sg Gr h rows Er i n cv pr iB iB' ft fp Ft It Ip Nt Fp).
    Qed.

    Lemma each_at g x p z : gfunction link uw c = Some (G1 g) -> strictly t -> within_step t p x z -> fig_d h (Some z) iB' n = Some fp ->
      shows (nth i (boreholes_of c) no_bore) (nth i (ratios_of c) []) pr (between cv p x).
    Proof.
      intros G St Ws Fp. destruct (fig_t_eval _ _ _ _ Ft) as [V E]. destruct (each_parts _ _ _ _ E Ea) as (B1 & B2 & B3 & _). destruct (call_rows h V E Nb) as [rows [Er Lr]].
      rewrite (fig_t_on h V _ _ E) in Ft. rewrite (fig_d_on h V _ _ _ E) in Fp. destruct (evaluated_parts _ _ _ _ E) as (q & s & y & g' & r & _ & _ & _ & T & _).
      unfold has_times in Ht. rewrite Ht in T. injection T as ->. rewrite <- B1, <- B3. rewrite <- B1, <- B2, <- B3 in Sg. rewrite <- B3 in Gr.
      assert (K : b_k V = O).
      { apply (one_flow V g i E G). destruct (time_figure_curves _ _ _ _ _ Ft) as [_ C]. destruct (C i cv It) as [_ [rw [_ [R _]]]]. unfold over_time in R. destruct h; eauto. }
      exact (depth_at V Sg Gr h rows Er i n cv pr iB iB' ft fp Ft It Ip z p x K St Ws Fp).
    Qed.
  End Each.

  (** ** Existence of the profiles *)
  Lemma last_exists h g n : each_borehole c -> segmented (boreholes_of c) (segments_of c) (ratios_of c) -> good_ratios (ratios_of c) -> boundary c <> excluded h ->
    gfunction link uw c = Some g -> plain c \/ fluid c -> flow_index g n -> exists fp, fig_d h None None n = Some fp.
  Proof.
    intros Ea Sg Gr Nb G Ok N. destruct (evaluated_some _ _ _ _ G) as [V E]. destruct (each_parts _ _ _ _ E Ea) as (B1 & B2 & B3 & _). destruct (call_rows h V E Nb) as [rows [Er Lr]].
    pose proof (flow_rows _ _ _ _ _ _ E G Ok N) as Fr. rewrite (fig_d_on h V _ _ _ E). rewrite <- B1, <- B2, <- B3 in Sg. rewrite <- B3 in Gr.
    apply depth_some_gen. intros i I. apply in_seq in I. assert (Hi : (i < List.length (b_bores V))%nat) by lia. split; auto.
    assert (X : over_depth h V None i = Some (profile V i (map (last_values (own V i)) rows)) /\ (n < List.length rows)%nat).
    { unfold over_depth, heat_profile, temperature_profile. unfold rows_of in Er.
      destruct h, (b_stored V); try discriminate Er; injection Er as <-; rewrite (proj2 (Nat.ltb_lt _ _) Hi); try (destruct Fr as [-> ->]; cbn; auto; fail); tauto. }
    destruct X as [X Hn]. rewrite X. destruct (profile V i _) as [x rw] eqn:P. exists x, rw. split; auto.
    destruct (profile_shows V Sg Gr i (last (nth n rows []) zero_vec) _ n x rw Hi P) as [y [F1 [F2 _]]]; [|eauto].
    rewrite nth_error_map, (nth_error_nth' rows [] Hn). reflexivity.
  Qed.

  Lemma at_exists h g t p x z : each_borehole c -> segmented (boreholes_of c) (segments_of c) (ratios_of c) -> good_ratios (ratios_of c) -> boundary c <> excluded h ->
    gfunction link uw c = Some (G1 g) -> plain c \/ fluid c -> has_times c t -> strictly t -> within_step t p x z -> exists fp, fig_d h (Some z) None 0 = Some fp.
  Proof.
    intros Ea Sg Gr Nb G Ok Ht St Ws. destruct (evaluated_some _ _ _ _ G) as [V E]. destruct (each_parts _ _ _ _ E Ea) as (B1 & B2 & B3 & _). destruct (call_rows h V E Nb) as [rows [Er Lr]].
    pose proof (flow_rows _ _ _ _ _ O E G Ok eq_refl) as Fr. rewrite (fig_d_on h V _ _ _ E). rewrite <- B1, <- B2, <- B3 in Sg. rewrite <- B3 in Gr.
    destruct (evaluated_parts _ _ _ _ E) as (q & s & y & g' & r & _ & _ & _ & T & _). unfold has_times in Ht. rewrite Ht in T. injection T as ->.
    destruct (figures_some link uw c _ V None O G Ok eq_refl E) as [[f1 F1] [f2 F2]]; [intros l j X; discriminate X|].
    apply depth_some_gen. intros i I. apply in_seq in I. assert (Hi : (i < List.length (b_bores V))%nat) by lia. split; auto.
    assert (K : b_k V = O).
    { apply (one_flow V g i E G). left. unfold heat_figure, on in F1. rewrite E in F1. unfold time_figure in F1. destruct (Net_Model.all_some _) as [d|] eqn:D; [|discriminate F1].
      apply all_some_F2 in D. cbn [requested] in D. destruct (F2_data _ _ _ i i D) as [b [_ B]]; [|eauto]. rewrite (nth_error_nth' _ O) by (rewrite seq_length; auto). now rewrite seq_nth. }
    assert (X : exists vs, Net_Model.all_some (map (values_at V z (own V i)) rows) = Some vs /\ over_depth h V (Some z) i = Some (profile V i vs) /\ (0 < List.length rows)%nat).
    { destruct (all_some_ex (values_at V z (own V i)) rows) as [vs Ev]; [intros q' I'; rewrite (values_step V z p x _ _ St Ws (Lr q' I')); eauto|]. exists vs. split; auto.
      unfold over_depth, heat_profile, temperature_profile. unfold rows_of in Er.
      destruct h, (b_stored V); try discriminate Er; injection Er as <-; rewrite (proj2 (Nat.ltb_lt _ _) Hi), K; cbn [Nat.eqb andb]; cbn [map Net_Model.all_some List.length] in *;
        try (destruct (values_at _ _ _ _) as [v|]; cbn in Ev |- *; [injection Ev as <-; auto|discriminate Ev]); rewrite Ev; cbn; tauto. }
    destruct X as [vs [Ev [X Hn]]]. rewrite X. destruct (profile V i _) as [zz rw] eqn:P. exists zz, rw. split; auto.
    apply all_some_F2 in Ev. destruct (F2_data _ _ _ _ _ Ev (nth_error_nth' rows [] Hn)) as [b [C1 C2]].
    rewrite (values_step V z p x _ _ St Ws (Lr _ (nth_In rows [] Hn))) in C2. injection C2 as <-.
    destruct (profile_shows V Sg Gr i _ _ O zz rw Hi P C1) as [yy [G1 [G2 _]]]. eauto.
  Qed.
End Calls.
