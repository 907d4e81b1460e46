(** Boreholes that are the same: one U-tube, separate circuits, opposite flows. *)
From Coq Require Import Psatz FunctionalExtensionality.
From Coquelicot Require Import Coquelicot.
From Verif Require Import Base LinAlg LinInv Bore_Model Bore_Proofs Net_Model Net_Spec Pipe_Model Pipe_Spec Pipe_Proofs Pipe_Main_Proofs Pipe_Unique_Proofs
  Multi_Model Multi_Spec Multi_Ode_Proofs Multi_Profile_Proofs Multi_Energy_Proofs Multi_Setup_Proofs Multi_Main_Proofs Multi_Query_Proofs.
Local Open Scope R_scope.

(** ** One U-tube *)
Section Single.
  Variables (u : multi) (x c : R) (k : nat) (r : option (list R)) (v : utube).
  Hypothesis (U1 : x_n u = 1%nat) (Hx : x <> 0) (Hc : 0 < c) (P : passive_circuit u) (HP : 0 < bH (x_b u)) (SS : segment_shares k r).
  Hypothesis (Rm : reversals_meant u (x :: nil)).
  Hypothesis (Vb : u_b v = x_b u) (Vr : u_reversible v = x_reversible u) (Vn : no_short v).
  Hypothesis (VR : forall i j, (i < 2)%nat -> (j < 2)%nat -> u_Rd v i j = Res (x_Rd u i j)).
  Local Notation m := (x :: nil).
  Local Notation cp := (c :: nil).
  Local Notation d := (down u m 0).
  Local Notation e := (up u m 0).

  Lemma single_inlets : n_inlets u = 1%nat.
  Proof. unfold n_inlets. rewrite U1. destruct (x_kind u); auto. Qed.
  Lemma single_usable : usable u m cp.
  Proof.
    unfold usable. rewrite U1, single_inlets. split; [lia|split; [auto|split; [auto|]]]. intros i Hi. assert (i = O) by lia. subst. cbn. auto.
  Qed.
  Lemma single_flow i : (i < 1)%nat -> flow_at u m i = x.
  Proof. intros Hi. assert (i = O) by lia. subst. unfold flow_at. destruct (x_kind u); auto. Qed.
  Lemma single_rate : tube_rate u m cp 0 = Rabs x * c.
  Proof. unfold tube_rate. rewrite U1. cbn. destruct (x_kind u); auto. field. Qed.
  Lemma single_legs : legs v x d e.
  Proof.
    unfold legs, down, Multi_Spec.up. rewrite single_flow, Vr, U1 by lia. destruct (Rltb x 0) eqn:E.
    - apply Rltb_true in E. right. repeat split; auto. destruct Rm as [R|R]; auto. rewrite single_inlets in R. specialize (R O ltac:(lia)). cbn in R. lra.
    - apply Rltb_false in E. left. repeat split; auto. left. lra.
  Qed.
  Lemma single_pair : (d = 0%nat /\ e = 1%nat) \/ (d = 1%nat /\ e = 0%nat).
  Proof. destruct single_legs as [(A & B & _)|(A & B & _)]; auto. Qed.
  Lemma single_cond i j : (i < 2)%nat -> (j < 2)%nat -> cond v i j = conductance u i j.
  Proof. intros. unfold cond. rewrite VR by auto. auto. Qed.
  Lemma single_gain tb T p q : (p = 0%nat /\ q = 1%nat) \/ (p = 1%nat /\ q = 0%nat) ->
    gain u tb T p = conductance u p p * (tb - T p) + conductance u p q * (T q - T p).
  Proof. unfold gain. rewrite U1. cbn [Nat.mul Nat.add sumn]. intros [[-> ->]|[-> ->]]; cbn [Nat.eqb]; ring. Qed.
  Lemma single_sym : conductance u 0 1 = conductance u 1 0.
  Proof. unfold conductance. destruct P as [S _]. rewrite U1 in S. destruct (S 0%nat 1%nat ltac:(lia) ltac:(lia)) as [_ ->]. auto. Qed.

  Lemma single_conducting : conducting v d e.
  Proof.
    destruct P as [_ Q]. unfold dissipation in Q. rewrite U1 in Q. cbn [Nat.mul Nat.add sumn Nat.eqb] in Q.
    assert (A : conducting v 0 1).
    { unfold conducting. rewrite !single_cond by lia. pose proof single_sym as Sy.
      set (a := conductance u 0 0) in *. set (b := conductance u 1 1) in *. set (t := conductance u 0 1) in *. rewrite <- Sy in Q.
      assert (Q1 : 0 < a + b).
      { assert (X : exists p, (p < 2)%nat /\ (fun _ : nat => 1) p <> 0) by (exists O; split; [lia|lra]). pose proof (Q _ X) as Z. cbn in Z. lra. }
      assert (Q2 : 0 < b + t).
      { assert (X : exists p, (p < 2)%nat /\ (fun i : nat => match i with O => 0 | _ => 1 end) p <> 0) by (exists 1%nat; split; [lia|lra]). pose proof (Q _ X) as Z. cbn in Z. lra. }
      split; auto.
      assert (X : exists p, (p < 2)%nat /\ (fun i : nat => match i with O => b + t | _ => t end) p <> 0) by (exists O; split; [lia|lra]). pose proof (Q _ X) as Q3. cbn in Q3.
      assert (E : 0 < (b + t) * (a * b + t * (a + b))) by lra. nra. }
    destruct single_pair as [[-> ->]|[-> ->]]; auto. unfold conducting in *. rewrite !single_cond in * by lia. pose proof single_sym. rewrite <- H. lra.
  Qed.

  Lemma single_good : good_flow v x c k r d e.
  Proof.
    split; [apply single_legs|]. split; [auto|]. split; [apply single_conducting|]. split; [auto|]. split; [rewrite Vb; auto|]. exact (shares_good (x_b u) k r SS).
  Qed.

  Lemma single_profile Tin Tb : fluid_profile u m cp k r Tin Tb (fun p z => get_temperature v (Tin O) k Tb x c r z p).
  Proof.
    pose proof single_good as G. destruct (boundary v x c k r d e G (Tin O) Tb) as [B0 [BH _]]. rewrite Vb in BH.
    unfold fluid_profile. rewrite U1. split; [|split; [|split]].
    - intros l z Hl Hz i Hi. rewrite U1 in Hi. assert (i = O) by lia. subst i.
      assert (Dl : forall j, depth_of (x_b u) k r j = depth v k r j) by (intros; unfold depth_of, depth; rewrite Vb; auto). rewrite !Dl in Hz.
      destruct (energy v x c k r d e G (Tin O) Tb l z Hl Hz) as (a & b & D1 & D2 & E1 & E2). exists a, b. split; [auto|split; [auto|]].
      rewrite single_rate. assert (d < 2 /\ e < 2)%nat as [Ld Le] by (destruct single_pair as [[-> ->]|[-> ->]]; lia).
      rewrite !single_cond in E1, E2 by auto. rewrite (single_gain _ _ d e single_pair).
      assert (Pr : (e = 0%nat /\ d = 1%nat) \/ (e = 1%nat /\ d = 0%nat)) by (destruct single_pair; tauto).
      rewrite (single_gain _ _ e d Pr). split; [exact E1|]. rewrite E2. f_equal. f_equal.
      destruct single_pair as [[-> ->]|[-> ->]]; rewrite single_sym; auto.
    - intros p z Hp Hz. destruct (profile_continuous v x c k r d e G (Tin O) Tb z) as [C1 C2].
      assert (p = d \/ p = e) as [-> | ->] by (destruct single_pair as [[-> ->]|[-> ->]]; lia); auto.
    - intros i Hi. assert (i = O) by lia. subst i. cbv beta. unfold entering. rewrite U1. cbn [nth Nat.sub Nat.eqb].
      transitivity (Tin O); [exact B0|]. destruct (x_kind u); auto. destruct (Rltb x 0); auto.
    - intros i Hi. assert (i = O) by lia. subst i. exact BH.
  Qed.

  Lemma single_leaving y : leaving u m y 0 = y O.
  Proof. unfold leaving. rewrite U1. cbn [nth sumn INR Nat.sub]. destruct (x_kind u); auto; [field|destruct (Rltb x 0); auto]. Qed.

  Lemma single_same eig (EO : eig_ok eig u m cp) Tin Tb :
    (forall z, 0 <= z <= bH (x_b u) -> exists w, q_temperature eig u Tin k Tb m cp r z = Some w /\ forall p, (p < 2)%nat -> w p = get_temperature v (Tin O) k Tb x c r z p)
    /\ (exists w, q_outlet eig u Tin k Tb m cp r = Some w /\ w O = get_outlet_temperature v (Tin O) k Tb x c r)
    /\ (exists w, q_heat eig u Tin k Tb m cp r = Some w /\ forall l, (l < k)%nat -> w l = get_borehole_heat v (Tin O) k Tb x c r l)
    /\ (exists w, q_fluid eig u Tin k Tb m cp r = Some w /\ w O = get_fluid_heat v (Tin O) k Tb x c r).
  Proof.
    pose proof single_good as G. pose proof single_usable as Us. destruct (solved eig u m cp k r Us Rm P HP SS EO Tin Tb) as (T & F & _ & QT & (out & Eo & Oo) & (qh & Eh & Oh)).
    assert (Un : forall p z, (p < 2)%nat -> 0 <= z <= bH (x_b u) -> T p z = get_temperature v (Tin O) k Tb x c r z p).
    { intros p z Hp Hz. apply (profile_unique u m cp k r Us P HP SS Tin Tb _ _ F (single_profile Tin Tb)); auto. rewrite U1. auto. }
    assert (Le : (d < 2 /\ e < 2)%nat) by (destruct single_pair as [[-> ->]|[-> ->]]; lia).
    assert (Out : out O = get_outlet_temperature v (Tin O) k Tb x c r).
    { rewrite Oo by (rewrite single_inlets; lia). rewrite single_leaving. rewrite Un by (try lra; tauto).
      destruct (boundary v x c k r d e G (Tin O) Tb) as [_ [_ B]]. exact B. }
    split; [|split; [|split]].
    - intros z Hz. destruct (QT z) as [w [Ew Ow]]. exists w. split; auto. intros p Hp. rewrite Ow by (rewrite U1; auto). auto.
    - exists out. auto.
    - exists qh. split; auto. intros l Hl. rewrite Oh by auto. unfold leg_heat, stream. rewrite U1. cbn [sumn]. rewrite single_rate.
      assert (Pr : 0 < x \/ u_reversible v = true).
      { destruct Rm as [R|R]; [right; rewrite Vr; auto|]. rewrite single_inlets in R. specialize (R O ltac:(lia)). cbn in R. auto. }
      rewrite (heat_legs v x c k r d e G (Tin O) Tb l Pr).
      rewrite Vb, !(sh_depth (x_b u) k r SS) by lia.
      pose proof (de_range (x_b u) k r HP SS) as Rg.
      pose proof (Rg l ltac:(lia)). pose proof (Rg (S l) ltac:(lia)). rewrite !Un by tauto. ring.
    - destruct (fluid_eq eig u m cp k r Us Rm P HP SS EO Tin Tb) as (o' & q & Eo' & Eq & Q). rewrite Eo in Eo'. injection Eo' as <-. exists q. split; auto.
      rewrite Q by (rewrite single_inlets; lia). rewrite Out. rewrite Pipe_Main_Proofs.fluid_eq. reflexivity.
  Qed.
End Single.

(** ** Separate circuits fed alike *)
Section Apart.
  Variables (u : multi) (x c : R) (k : nat) (r : option (list R)).
  Hypothesis (K : x_kind u = InParallel) (Hn : (0 < x_n u)%nat) (Hx : x <> 0) (Hc : 0 < c) (P : passive_circuit u) (HP : 0 < bH (x_b u)) (SS : segment_shares k r).
  Hypothesis (Rm : reversals_meant u (x :: nil)).
  Local Notation n := (x_n u).
  Local Notation ms := (repeat (x / INR n) n).
  Local Notation w := (separated u).

  Let In : 0 < INR n := lt_0_INR _ Hn.

  Lemma ms_nth i : (i < n)%nat -> nth i ms 0 = x / INR n.
  Proof. intros Hi. rewrite nth_indep with (d' := x / INR n) by (rewrite repeat_length; auto). apply nth_repeat. Qed.
  Lemma share_sign : Rltb (x / INR n) 0 = Rltb x 0.
  Proof.
    destruct (Rltb x 0) eqn:E.
    - apply Rltb_true in E. apply Rltb_true. apply Rmult_lt_reg_r with (INR n); auto. unfold Rdiv. rewrite Rmult_assoc, Rinv_l by lra. lra.
    - apply Rltb_false in E. apply Rltb_false. apply Rmult_le_pos; auto. left. apply Rinv_0_lt_compat. auto.
  Qed.
  Lemma apart_usable : usable w ms (c :: nil).
  Proof.
    split; [auto|]. split; [apply repeat_length|]. split; [auto|]. cbn. intros i Hi. rewrite ms_nth by auto. split; auto. apply Rmult_integral_contrapositive. split; auto. apply Rinv_neq_0_compat. lra.
  Qed.
  Lemma par_inlets : n_inlets u = 1%nat. Proof. unfold n_inlets. rewrite K. auto. Qed.
  Lemma par_usable : usable u (x :: nil) (c :: nil).
  Proof. unfold usable. rewrite par_inlets. split; [lia|split; [auto|split; [auto|]]]. intros i Hi. assert (i = O) by lia. subst. cbn. auto. Qed.
  Lemma apart_meant : reversals_meant w ms.
  Proof.
    destruct Rm as [R|R]; [left; auto|]. right. cbn. intros i Hi. rewrite ms_nth by auto. rewrite par_inlets in R. specialize (R O ltac:(lia)). cbn in R. apply Rdiv_lt_0_compat; auto.
  Qed.
  Lemma apart_legs i : (i < n)%nat -> down w ms i = down u (x :: nil) i /\ up w ms i = up u (x :: nil) i.
  Proof.
    intros Hi. unfold down, up, flow_at. cbn [separated x_kind x_n]. rewrite K, ms_nth by auto. cbn [nth]. rewrite share_sign. auto.
  Qed.
  Lemma apart_rate i : (i < n)%nat -> tube_rate w ms (c :: nil) i = tube_rate u (x :: nil) (c :: nil) i.
  Proof.
    intros Hi. unfold tube_rate. cbn [separated x_kind x_n capacity_at nth]. rewrite K, ms_nth by auto. f_equal. unfold Rdiv. rewrite Rabs_mult. f_equal.
    apply Rabs_pos_eq. left. apply Rinv_0_lt_compat. auto.
  Qed.

  Lemma apart_profile Tin Tb T : fluid_profile w ms (c :: nil) k r (fun _ => Tin) Tb T -> fluid_profile u (x :: nil) (c :: nil) k r (fun _ => Tin) Tb T.
  Proof.
    intros (A1 & A2 & A3 & A4). cbn [separated x_b x_n] in *. split; [|split; [|split]]; auto.
    - intros l z Hl Hz i Hi. destruct (A1 l z Hl Hz i Hi) as (a & b & D1 & D2 & E1 & E2). destruct (apart_legs i Hi) as [L1 L2]. rewrite L1, L2, apart_rate in * by auto.
      exists a, b. auto.
    - intros i Hi. specialize (A3 i Hi). destruct (apart_legs i Hi) as [L1 L2]. rewrite L1 in A3. rewrite A3. unfold entering. rewrite K. auto.
    - intros i Hi. specialize (A4 i Hi). destruct (apart_legs i Hi) as [L1 L2]. rewrite L1, L2 in A4. auto.
  Qed.

  Lemma apart_passive : passive_circuit w.
  Proof. exact P. Qed.

  Lemma apart_same eig eig' (EO : eig_ok eig u (x :: nil) (c :: nil)) (EO' : eig_ok eig' w ms (c :: nil)) Tin Tb :
    (forall z, 0 <= z <= bH (x_b u) -> exists a b, q_temperature eig u (fun _ => Tin) k Tb (x :: nil) (c :: nil) r z = Some a /\ q_temperature eig' w (fun _ => Tin) k Tb ms (c :: nil) r z = Some b
       /\ forall p, (p < 2 * n)%nat -> a p = b p)
    /\ (exists a b, q_outlet eig u (fun _ => Tin) k Tb (x :: nil) (c :: nil) r = Some a /\ q_outlet eig' w (fun _ => Tin) k Tb ms (c :: nil) r = Some b /\ a O = sumn n b / INR n)
    /\ (exists a b, q_heat eig u (fun _ => Tin) k Tb (x :: nil) (c :: nil) r = Some a /\ q_heat eig' w (fun _ => Tin) k Tb ms (c :: nil) r = Some b /\ forall l, (l < k)%nat -> a l = b l).
  Proof.
    destruct (solved eig u _ _ k r par_usable Rm P HP SS EO (fun _ => Tin) Tb) as (T & F & _ & QT & (o1 & E1 & O1) & (h1 & G1 & H1)).
    destruct (solved eig' w _ _ k r apart_usable apart_meant apart_passive HP SS EO' (fun _ => Tin) Tb) as (S & F' & _ & QS & (o2 & E2 & O2) & (h2 & G2 & H2)).
    assert (Un : forall p z, (p < 2 * n)%nat -> 0 <= z <= bH (x_b u) -> T p z = S p z)
      by (intros; apply (profile_unique u _ _ k r par_usable P HP SS _ _ _ _ F (apart_profile _ _ _ F')); auto).
    split; [|split].
    - intros z Hz. destruct (QT z) as [a [Ea Oa]]. destruct (QS z) as [b [Eb Ob]]. exists a, b. repeat split; auto. intros p Hp. rewrite Oa, Ob by auto. apply Un; auto.
    - exists o1, o2. repeat split; auto. rewrite O1 by (rewrite par_inlets; lia). unfold leaving at 1. rewrite K. f_equal. apply sumn_ext. intros i Hi. rewrite O2 by auto.
      unfold leaving. cbn [separated x_kind]. destruct (apart_legs i Hi) as [_ L2]. cbv beta. rewrite L2. apply Un; [apply legs_lt; auto|lra].
    - exists h1, h2. repeat split; auto. intros l Hl. rewrite H1, H2 by auto. unfold leg_heat. cbn [separated x_b].
      assert (St : forall j, (j <= k)%nat -> stream u (down u (x :: nil)) (up u (x :: nil)) (tube_rate u (x :: nil) (c :: nil)) T (depth_of (x_b u) k r j)
        = stream w (down w ms) (up w ms) (tube_rate w ms (c :: nil)) S (depth_of (x_b u) k r j)); [|rewrite !St by lia; auto].
      intros j Hj. unfold stream. cbn [separated x_n]. apply sumn_ext. intros i Hi. destruct (apart_legs i Hi) as [-> ->]. rewrite apart_rate by auto.
      pose proof (de_range (x_b u) k r HP SS j Hj).
      destruct (legs_lt u (x :: nil) i Hi). rewrite !Un by auto. auto.
  Qed.
End Apart.
