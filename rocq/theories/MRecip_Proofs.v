(** Reciprocity of several U-tubes. *)
From Coq Require Import Psatz FunctionalExtensionality List.
From Coquelicot Require Import Coquelicot.
From Verif Require Import Base LinAlg LinInv Bore_Model Pipe_Proofs Pipe_Unique_Proofs Multi_Model Multi_Spec Multi_Ode_Proofs Multi_Profile_Proofs Multi_Energy_Proofs
  Multi_Setup_Proofs Multi_Main_Proofs Multi_Query_Proofs.
Local Open Scope R_scope.

Section Cross.
  Variables (u : multi) (dn up : nat -> nat) (M : nat -> R).
  Local Notation n := (x_n u).
  Hypothesis (U : passive_circuit u).
  Hypothesis (Leg : forall i, (i < n)%nat -> (dn i = i /\ up i = (i + n)%nat) \/ (dn i = (i + n)%nat /\ up i = i)).

  Lemma gain_sum tb T : sumn (2 * n) (gain u tb T) = sumn (2 * n) (fun p => conductance u p p * (tb - T p)).
  Proof. unfold gain. rewrite sumn_plus, (exchange_zero u U). ring. Qed.

  (** the exchanges between the pipes are symmetric *)
  Lemma exchange_cross (x y : nat -> R) :
    sumn (2 * n) (fun p => y p * sumn (2 * n) (fun q => if Nat.eqb q p then 0 else conductance u p q * (x q - x p)))
    = sumn (2 * n) (fun p => x p * sumn (2 * n) (fun q => if Nat.eqb q p then 0 else conductance u p q * (y q - y p))).
  Proof.
    apply Rminus_diag_uniq. rewrite <- sumn_minus.
    rewrite (sumn_ext _ _ (fun p => sumn (2 * n) (fun q => if Nat.eqb q p then 0 else conductance u p q * (y p * x q - x p * y q)))).
    - set (S := sumn _ _). assert (S = - S); [|lra]. unfold S at 1. rewrite sumn_swap. unfold S. rewrite <- sumn_opp. apply sumn_ext. intros p Hp.
      rewrite <- sumn_opp. apply sumn_ext. intros q Hq. rewrite (Nat.eqb_sym p q). destruct (Nat.eqb q p); [ring|]. rewrite (cond_sym u U q p) by auto. ring.
    - intros p Hp. rewrite <- !sumn_scal, <- sumn_minus. apply sumn_ext. intros q Hq. destruct (Nat.eqb q p); ring.
  Qed.

  Lemma gain_cross tb sb T S : sumn (2 * n) (fun p => S p * gain u tb T p - T p * gain u sb S p)
    = sb * sumn (2 * n) (gain u tb T) - tb * sumn (2 * n) (gain u sb S).
  Proof.
    rewrite !gain_sum, <- !sumn_scal, <- sumn_minus. unfold gain.
    rewrite (sumn_ext _ _ (fun p => (sb * (conductance u p p * (tb - T p)) - tb * (conductance u p p * (sb - S p)))
       + (S p * sumn (2 * n) (fun q => if Nat.eqb q p then 0 else conductance u p q * (T q - T p))
          - T p * sumn (2 * n) (fun q => if Nat.eqb q p then 0 else conductance u p q * (S q - S p))))) by (intros; ring).
    rewrite sumn_plus, (sumn_minus _ (fun p => S p * _)), exchange_cross. ring.
  Qed.

  Definition cross (T S : nat -> R -> R) (z : R) : R := sumn n (fun i => M i * (T (dn i) z * S (dn i) z - T (up i) z * S (up i) z)).

  Lemma cross_derive T S tb sb z : flows u dn up M T tb z -> flows u up dn M S sb z ->
    is_derive (cross T S) z (sb * sumn (2 * n) (gain u tb (fun p => T p z)) - tb * sumn (2 * n) (gain u sb (fun p => S p z))).
  Proof.
    intros F G. rewrite <- gain_cross, (legs_sum u dn up Leg). unfold cross.
    apply (is_derive_sumn n (fun i z => M i * (T (dn i) z * S (dn i) z - T (up i) z * S (up i) z))). intros i Hi.
    destruct (F i Hi) as (d & e & D1 & D2 & E1 & E2). destruct (G i Hi) as (d' & e' & D1' & D2' & E1' & E2').
    rewrite <- E1, <- E2, <- E1', <- E2'.
    pose proof (is_derive_minus _ _ z _ _ (is_derive_mult _ _ z _ _ D1 D2' Rmult_comm) (is_derive_mult _ _ z _ _ D2 D1' Rmult_comm)) as D3.
    pose proof (is_derive_scal _ z (M i) _ D3) as D4.
    match type of D4 with is_derive _ _ ?x => match goal with |- is_derive _ _ ?y => replace y with x; [exact D4|] end end.
    change (M i * ((d * S (dn i) z + T (dn i) z * e') - (e * S (up i) z + T (up i) z * d'))
      = S (dn i) z * (M i * d) - T (dn i) z * (- M i * e') + (S (up i) z * (- M i * e) - T (up i) z * (M i * d'))). ring.
  Qed.

  Section Segments.
    Variables (k : nat) (x : nat -> R) (T S : nat -> R -> R) (Tb Sb : nat -> R).
    Hypothesis (X : forall l, (l < k)%nat -> x l <= x (Datatypes.S l)).
    Hypothesis (CT : forall p z, (p < 2 * n)%nat -> x O <= z <= x k -> continuous (T p) z).
    Hypothesis (CS : forall p z, (p < 2 * n)%nat -> x O <= z <= x k -> continuous (S p) z).
    Hypothesis (FT : forall l z, (l < k)%nat -> x l < z < x (Datatypes.S l) -> flows u dn up M T (Tb l) z).
    Hypothesis (FS : forall l z, (l < k)%nat -> x l < z < x (Datatypes.S l) -> flows u up dn M S (Sb l) z).

    Lemma leg_swap : forall i, (i < n)%nat -> (up i = i /\ dn i = (i + n)%nat) \/ (up i = (i + n)%nat /\ dn i = i).
    Proof. intros i Hi. destruct (Leg i Hi) as [[-> ->]|[-> ->]]; auto. Qed.

    Lemma cross_cont z : x O <= z <= x k -> continuous (cross T S) z.
    Proof.
      intros Hz. unfold cross.
      assert (A : forall j, (j <= n)%nat -> continuous (fun z => sumn j (fun i => M i * (T (dn i) z * S (dn i) z - T (up i) z * S (up i) z))) z).
      { induction j as [|j IH]; intros Hj; cbn [sumn]; [apply continuous_const|].
        destruct (leg_bounds u dn up Leg j ltac:(lia)) as [B1 B2].
        apply (continuous_plus (fun z => sumn j (fun i => M i * (T (dn i) z * S (dn i) z - T (up i) z * S (up i) z)))); [apply IH; lia|].
        apply (continuous_mult (fun _ => M j)); [apply continuous_const|].
        apply (continuous_minus (fun z => T (dn j) z * S (dn j) z)); [apply (continuous_mult (T (dn j)))|apply (continuous_mult (T (up j)))]; auto. }
      apply A. auto.
    Qed.

    Lemma cross_segment l : (l < k)%nat -> cross T S (x (Datatypes.S l)) - cross T S (x l)
      = Sb l * (stream u dn up M T (x (Datatypes.S l)) - stream u dn up M T (x l)) - Tb l * (stream u up dn M S (x (Datatypes.S l)) - stream u up dn M S (x l)).
    Proof.
      intros Hl.
      set (f := fun z => cross T S z - (Sb l * stream u dn up M T z - Tb l * stream u up dn M S z)).
      assert (Fd : forall z, x l < z < x (Datatypes.S l) -> is_derive f z 0).
      { intros z Hz. pose proof (cross_derive T S (Tb l) (Sb l) z (FT l z Hl Hz) (FS l z Hl Hz)) as D1.
        pose proof (stream_derive u dn up M Leg T (Tb l) z (FT l z Hl Hz)) as D2. pose proof (stream_derive u up dn M leg_swap S (Sb l) z (FS l z Hl Hz)) as D2'.
        pose proof (is_derive_minus _ _ z _ _ D1 (is_derive_minus _ _ z _ _ (is_derive_scal _ z (Sb l) _ D2) (is_derive_scal _ z (Tb l) _ D2'))) as D3.
        match type of D3 with is_derive _ _ ?x => replace 0 with x; [exact D3|] end.
        match goal with |- minus ?p (minus ?q ?w) = _ => change (p - (q - w) = 0) end. ring. }
      destruct (MVT_gen f (x l) (x (Datatypes.S l)) (fun _ => 0)) as [c [Hc E]].
      - intros z. rewrite Rmin_left, Rmax_right by auto. apply Fd.
      - intros z. rewrite Rmin_left, Rmax_right by auto. intros Hz. apply continuity_pt_filterlim.
        assert (Rz : x O <= z <= x k) by (apply (seg_range k x X l); auto; lra).
        apply (continuous_minus (cross T S)); [apply cross_cont; auto|].
        apply (continuous_minus (fun z => Sb l * stream u dn up M T z)).
        + apply (continuous_mult (fun _ => Sb l)); [apply continuous_const|apply (stream_cont u dn up M Leg k x T CT); auto].
        + apply (continuous_mult (fun _ => Tb l)); [apply continuous_const|apply (stream_cont u up dn M leg_swap k x S CS); auto].
      - unfold f in E. lra.
    Qed.

    Lemma cross_total : cross T S (x k) - cross T S (x O)
      = sumn k (fun l => Sb l * (stream u dn up M T (x (Datatypes.S l)) - stream u dn up M T (x l)))
        - sumn k (fun l => Tb l * (stream u up dn M S (x (Datatypes.S l)) - stream u up dn M S (x l))).
    Proof.
      rewrite <- (sumn_telescope k (fun l => cross T S (x l))), <- sumn_minus. apply sumn_ext. intros l Hl. apply cross_segment; auto.
    Qed.
  End Segments.
End Cross.

(** ** All flows reversed *)
Definition back (m : list R) : list R := map Ropp m.
Lemma back_nth m i : nth i (back m) 0 = - nth i m 0.
Proof. unfold back. replace 0 with (- 0) at 1 by ring. apply map_nth. Qed.

Section Back.
  Variables (u : multi) (m cp : list R).
  Hypothesis (Us : usable u m cp).
  Local Notation n := (x_n u).

  Lemma back_usable : usable u (back m) cp.
  Proof.
    destruct Us as (A & B & C & D). repeat split; auto.
    - unfold back. rewrite map_length. auto.
    - rewrite back_nth. destruct (D i H). lra.
    - apply D; auto.
  Qed.
  Lemma flow_nonzero i : (i < n)%nat -> flow_at u m i <> 0.
  Proof. intros Hi. destruct Us as (A & B & C & D). unfold flow_at, n_inlets in *. destruct (x_kind u); apply D; lia. Qed.
  Lemma flow_back i : flow_at u (back m) i = - flow_at u m i.
  Proof. unfold flow_at. destruct (x_kind u); apply back_nth. Qed.
  Lemma back_ltb x : x <> 0 -> Rltb (- x) 0 = negb (Rltb x 0).
  Proof.
    intros N. destruct (Rltb x 0) eqn:E; cbn.
    - apply Rltb_true in E. apply Rltb_false. lra.
    - apply Rltb_false in E. apply Rltb_true. lra.
  Qed.
  Lemma down_back i : (i < n)%nat -> down u (back m) i = up u m i.
  Proof. intros Hi. unfold down, Multi_Spec.up. rewrite flow_back, back_ltb by (apply flow_nonzero; auto). destruct (Rltb _ 0); auto. Qed.
  Lemma up_back i : (i < n)%nat -> up u (back m) i = down u m i.
  Proof. intros Hi. unfold down, Multi_Spec.up. rewrite flow_back, back_ltb by (apply flow_nonzero; auto). destruct (Rltb _ 0); auto. Qed.
  Lemma rate_back i : tube_rate u (back m) cp i = tube_rate u m cp i.
  Proof. unfold tube_rate. rewrite !back_nth, !Rabs_Ropp. auto. Qed.

  Lemma flows_back S tb z : balance u (back m) cp tb S z -> flows u (up u m) (down u m) (tube_rate u m cp) S tb z.
  Proof.
    intros F i Hi. destruct (F i Hi) as (d & e & D1 & D2 & E1 & E2). rewrite down_back, up_back, rate_back in * by auto. exists d, e. auto.
  Qed.

  Lemma series_sum k (x y : nat -> R) t s :
    sumn (S k) (fun i => x i * (if Nat.eqb i k then s else y (i + 1)%nat) - (match i with O => t | S j => x j end) * y i) = x k * s - t * y 0%nat.
  Proof.
    set (f := fun i => match i with O => t * y 0%nat | S j => x j * (if Nat.eqb j k then s else y (S j)) end).
    rewrite (sumn_ext _ _ (fun i => f (S i) - f i)).
    - rewrite sumn_telescope. unfold f. rewrite Nat.eqb_refl. ring.
    - intros i Hi. unfold f. rewrite Nat.add_1_r. destruct i as [|i]; [ring|]. replace (Nat.eqb i k) with false by (symmetry; apply Nat.eqb_neq; lia). ring.
  Qed.

  Lemma head_cross (Tin Sin x y : nat -> R) :
    sumn n (fun i => tube_rate u m cp i * (x i * entering u (back m) Sin y i - entering u m Tin x i * y i))
    = sumn (n_inlets u) (fun o => inlet_rate m cp o * (leaving u m x o * Sin o - Tin o * leaving u (back m) y o)).
  Proof.
    assert (Hn : (0 < n)%nat) by (destruct Us; auto). assert (In : 0 < INR n) by (apply lt_0_INR; auto).
    pose proof (flow_nonzero 0 Hn) as F0.
    unfold entering, leaving, n_inlets, tube_rate, inlet_rate, flow_at in *. destruct (x_kind u) eqn:K.
    - destruct (one_cp u m cp Us ltac:(congruence)) as (x0 & c & -> & -> & Hx & _). cbn [sumn nth capacity_at].
      rewrite sumn_scal, sumn_minus, sumn_scal. rewrite (sumn_ext n (fun i => x i * Sin 0%nat) (fun i => Sin 0%nat * x i)) by (intros; ring).
      rewrite sumn_scal. field. lra.
    - destruct (one_cp u m cp Us ltac:(congruence)) as (x0 & c & -> & -> & Hx & _). cbn [sumn nth capacity_at back map] in *. rewrite Rplus_0_l, sumn_scal. f_equal.
      rewrite back_ltb by auto. destruct n as [|k] eqn:E; [lia|]. replace (S k - 1)%nat with k by lia. destruct (Rltb x0 0); cbn [negb].
      + rewrite (sumn_ext _ _ (fun i => - (y i * (if Nat.eqb i k then Tin 0%nat else x (i + 1)%nat) - (match i with O => Sin 0%nat | S j => y j end) * x i))) by (intros; ring).
        rewrite sumn_opp, series_sum. ring.
      + rewrite series_sum. ring.
    - apply sumn_ext. intros i Hi. ring.
  Qed.

  Variables (k : nat) (r : option (list R)).
  Hypothesis (P : passive_circuit u) (HP : 0 < bH (x_b u)) (SS : segment_shares k r).

  Lemma heat_back S l : leg_heat u (back m) cp k r S l
    = stream u (up u m) (down u m) (tube_rate u m cp) S (depth_of (x_b u) k r (Datatypes.S l)) - stream u (up u m) (down u m) (tube_rate u m cp) S (depth_of (x_b u) k r l).
  Proof.
    unfold leg_heat, stream. f_equal; apply sumn_ext; intros i Hi; rewrite down_back, up_back, rate_back by auto; auto.
  Qed.

  Lemma profiles_cross Tin Sin Tb Sb T S : fluid_profile u m cp k r Tin Tb T -> fluid_profile u (back m) cp k r Sin Sb S ->
    sumn k (fun l => Sb l * leg_heat u m cp k r T l) - sumn k (fun l => Tb l * leg_heat u (back m) cp k r S l)
    = sumn (n_inlets u) (fun o => inlet_rate m cp o * (leaving u m (fun i => T (up u m i) 0) o * Sin o - Tin o * leaving u (back m) (fun i => S (up u (back m) i) 0) o)).
  Proof.
    intros (A1 & A2 & A3 & A4) (B1 & B2 & B3 & B4). rewrite <- head_cross.
    pose proof (de_0 (x_b u) k r SS) as D0. pose proof (de_k (x_b u) k r SS) as Dk.
    rewrite (sumn_ext k (fun l => Tb l * leg_heat u (back m) cp k r S l) _ (fun l Hl => f_equal (Rmult (Tb l)) (heat_back S l))). unfold leg_heat at 1.
    rewrite <- (cross_total u (down u m) (up u m) (tube_rate u m cp) P (legs_of u m) k (depth_of (x_b u) k r) T S Tb Sb).
    - rewrite D0, Dk. unfold cross.
      rewrite (sumn_zero n (fun i => _ * (T _ (bH (x_b u)) * _ - _))).
      + rewrite Rminus_0_l, <- sumn_opp. apply sumn_ext. intros i Hi.
        rewrite (A3 i Hi). rewrite <- (down_back i Hi). rewrite (B3 i Hi). rewrite (up_back i Hi), (down_back i Hi). ring.
      + intros i Hi. rewrite (A4 i Hi). pose proof (B4 i Hi) as Q. rewrite down_back, up_back in Q by auto. rewrite Q. ring.
    - intros l Hl. apply de_step; auto.
    - intros p z. rewrite D0, Dk. auto.
    - intros p z. rewrite D0, Dk. auto.
    - exact A1.
    - intros l z Hl Hz. apply flows_back, B1; auto.
  Qed.
End Back.

(** ** Circuits that are the same seen from the outlet *)
From Verif Require Import Multi_Turn_Proofs.

Section Mirror.
  Variables (u : multi) (x c : R) (k : nat) (r : option (list R)).
  Hypothesis (K : x_kind u <> Separate) (Hn : (0 < x_n u)%nat) (Hx : 0 < x) (Hc : 0 < c)
    (P : passive_circuit u) (HP : 0 < bH (x_b u)) (SS : segment_shares k r).
  Hypothesis (Sy : forall p q, (p < 2 * x_n u)%nat -> (q < 2 * x_n u)%nat -> x_Rd u (opposite (x_n u) p) (opposite (x_n u) q) = x_Rd u p q).
  Local Notation n := (x_n u).
  Local Notation w := (turned u).
  Local Notation cp := (c :: nil).

  Lemma mirror_gain tb y p : (p < 2 * n)%nat -> gain w tb y p = gain u tb y p.
  Proof.
    intros Hp. unfold gain, conductance. cbn [turned x_Rd x_n]. rewrite Sy by auto. f_equal. apply sumn_ext. intros q Hq. rewrite Sy by auto. auto.
  Qed.
  Lemma mirror_profile Tin Tb S : fluid_profile u (x :: nil) cp k r Tin Tb S -> fluid_profile w (x :: nil) cp k r Tin Tb S.
  Proof.
    intros (A1 & A2 & A3 & A4). split; [|split; [exact A2|split; [exact A3|exact A4]]].
    intros l z Hl Hz i Hi. destruct (A1 l z Hl Hz i Hi) as (d & e & D1 & D2 & E1 & E2). exists d, e.
    split; [exact D1|]. split; [exact D2|]. destruct (leg_bounds u _ _ (legs_of u (x :: nil)) i Hi) as [B1 B2].
    split; [etransitivity; [exact E1|]|etransitivity; [exact E2|]]; symmetry; apply mirror_gain; auto.
  Qed.

  Lemma mirror_back Tin Tb S : fluid_profile u (x :: nil) cp k r Tin Tb S ->
    fluid_profile u (- x :: nil) cp k r Tin Tb (fun p => S (opposite n p))
    /\ (forall l, leg_heat u (- x :: nil) cp k r (fun p => S (opposite n p)) l = leg_heat u (x :: nil) cp k r S l)
    /\ leaving u (- x :: nil) (fun i => S (opposite n (up u (- x :: nil) i)) 0) 0 = leaving u (x :: nil) (fun i => S (up u (x :: nil) i) 0) 0.
  Proof.
    intros F. assert (L : - x < 0) by lra. pose proof (mirror_profile Tin Tb S F) as F'.
    split; [|split].
    - eapply turn_profile; eauto. replace (- - x) with x by ring. exact F'.
    - intros l. unfold leg_heat, stream.
      assert (Q : forall z, sumn n (fun i => tube_rate u (- x :: nil) cp i * (S (opposite n (down u (- x :: nil) i)) z - S (opposite n (up u (- x :: nil) i)) z))
        = sumn n (fun i => tube_rate u (x :: nil) cp i * (S (down u (x :: nil) i) z - S (up u (x :: nil) i) z))).
      { intros z. rewrite <- (sumn_rev n (fun i => tube_rate u (x :: nil) cp i * _)). apply sumn_ext. intros i Hi.
        edestruct (turn_legs u (- x)) as [-> ->]; eauto. replace (- - x) with x by ring.
        change (down w (x :: nil)) with (down u (x :: nil)). change (up w (x :: nil)) with (up u (x :: nil)).
        f_equal. unfold tube_rate. cbn [nth]. rewrite Rabs_Ropp. destruct (x_kind u); try reflexivity; congruence. }
      rewrite !Q. auto.
    - erewrite turn_leaving; eauto. replace (- - x) with x by ring. auto.
  Qed.
End Mirror.
