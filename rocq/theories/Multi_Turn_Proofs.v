(** A reversed flow is the flow in the borehole with its pipes numbered backwards. *)
From Coq Require Import Psatz FunctionalExtensionality.
From Coquelicot Require Import Coquelicot.
From Verif Require Import Base LinAlg LinInv Bore_Model Bore_Proofs Pipe_Proofs
  Multi_Model Multi_Spec Multi_Ode_Proofs Multi_Profile_Proofs Multi_Energy_Proofs Multi_Setup_Proofs Multi_Main_Proofs Multi_Query_Proofs.
Local Open Scope R_scope.

Section Turn.
  Variables (u : multi) (x c : R) (k : nat) (r : option (list R)).
  Hypothesis (K : x_kind u <> Separate) (Hn : (0 < x_n u)%nat) (Hx : x < 0) (Hr : x_reversible u = true) (Hc : 0 < c)
    (P : passive_circuit u) (HP : 0 < bH (x_b u)) (SS : segment_shares k r).
  Local Notation n := (x_n u).
  Local Notation w := (turned u).
  Local Notation opp := (opposite (x_n u)).
  Local Notation m := (x :: nil).
  Local Notation m' := (- x :: nil).
  Local Notation cp := (c :: nil).

  Lemma opp_lt p : (p < 2 * n)%nat -> (opp p < 2 * n)%nat. Proof. unfold opposite. lia. Qed.
  Lemma opp_opp p : (p < 2 * n)%nat -> opp (opp p) = p. Proof. unfold opposite. lia. Qed.
  Lemma opp_eqb p q : (p < 2 * n)%nat -> (q < 2 * n)%nat -> Nat.eqb (opp p) (opp q) = Nat.eqb p q.
  Proof.
    intros Hp Hq. unfold opposite. destruct (Nat.eqb p q) eqn:E; [apply Nat.eqb_eq in E; subst; apply Nat.eqb_refl|].
    apply Nat.eqb_neq in E. apply Nat.eqb_neq. lia.
  Qed.
  Lemma opp_sum f : sumn (2 * n) (fun p => f (opp p)) = sumn (2 * n) f.
  Proof. exact (sumn_rev (2 * n) f). Qed.
  Lemma turn_cond p q : conductance w p q = conductance u (opp p) (opp q).
  Proof. auto. Qed.

  Lemma turn_gain tb S p : (p < 2 * n)%nat -> gain u tb (fun p => S (opp p)) p = gain w tb S (opp p).
  Proof.
    intros Hp. unfold gain. cbn [turned x_n]. rewrite turn_cond, opp_opp by auto. f_equal.
    rewrite <- (opp_sum (fun q => if Nat.eqb q (opp p) then 0 else conductance w (opp p) q * (S q - S (opp p)))). apply sumn_ext. intros q Hq.
    rewrite opp_eqb, turn_cond, !opp_opp by auto. auto.
  Qed.

  Lemma turn_dissipation y : dissipation w y = dissipation u (fun p => y (opp p)).
  Proof.
    unfold dissipation. cbn [turned x_n]. f_equal; [|f_equal].
    - rewrite <- (opp_sum (fun p => conductance w p p * y p ^ 2)). apply sumn_ext. intros p Hp. rewrite turn_cond, opp_opp by auto. auto.
    - rewrite <- (opp_sum (fun p => sumn (2 * n) (fun q => if Nat.eqb q p then 0 else conductance w p q * (y q - y p) ^ 2))). apply sumn_ext. intros p Hp.
      rewrite <- (opp_sum (fun q => if Nat.eqb q (opp p) then 0 else conductance w (opp p) q * (y q - y (opp p)) ^ 2)). apply sumn_ext. intros q Hq.
      rewrite opp_eqb, turn_cond, !opp_opp by auto. auto.
  Qed.

  Lemma turn_passive : passive_circuit w.
  Proof.
    destruct P as [P1 P2]. split.
    - cbn [turned x_n x_Rd]. intros p q Hp Hq. apply P1; apply opp_lt; auto.
    - intros y [p [Hp Ny]]. rewrite turn_dissipation. apply P2. exists (opp p). split; [apply opp_lt; auto|]. rewrite opp_opp; auto.
  Qed.

  Lemma ins : n_inlets u = 1%nat /\ n_inlets w = 1%nat.
  Proof. unfold n_inlets. cbn. destruct (x_kind u); auto. congruence. Qed.
  Lemma turn_usable : usable u m cp /\ usable w m' cp.
  Proof.
    destruct ins as [I1 I2]. unfold usable. rewrite I1, I2. cbn [turned x_n]. split; (split; [auto|split; [auto|split; [auto|]]]); intros i Hi; assert (i = O) by lia; subst; cbn; split; auto; lra.
  Qed.
  Lemma turn_meant : reversals_meant u m /\ reversals_meant w m'.
  Proof. split; left; auto. Qed.

  Lemma flow_u i : flow_at u m i = x.
  Proof. unfold flow_at. destruct (x_kind u); auto. congruence. Qed.
  Lemma flow_w i : flow_at w m' i = - x.
  Proof. unfold flow_at. cbn [turned x_kind]. destruct (x_kind u); auto. congruence. Qed.
  Lemma legs_u i : down u m i = (i + n)%nat /\ up u m i = i.
  Proof. unfold down, up. rewrite flow_u. replace (Rltb x 0) with true by (symmetry; apply Rltb_true; auto). auto. Qed.
  Lemma legs_w i : down w m' i = i /\ up w m' i = (i + n)%nat.
  Proof. unfold down, up. rewrite flow_w. replace (Rltb (- x) 0) with false by (symmetry; apply Rltb_false; lra). auto. Qed.
  Lemma turn_legs i : (i < n)%nat -> opp (down u m i) = down w m' (n - 1 - i) /\ opp (up u m i) = up w m' (n - 1 - i).
  Proof. intros Hi. destruct (legs_u i) as [-> ->]. destruct (legs_w (n - 1 - i)) as [-> ->]. unfold opposite. lia. Qed.
  Lemma turn_rate i j : tube_rate u m cp i = tube_rate w m' cp j.
  Proof. unfold tube_rate. cbn [turned x_kind x_n nth]. rewrite Rabs_Ropp. destruct (x_kind u); auto. congruence. Qed.

  Lemma turn_profile Tin Tb S : fluid_profile w m' cp k r Tin Tb S -> fluid_profile u m cp k r Tin Tb (fun p => S (opp p)).
  Proof.
    intros (A1 & A2 & A3 & A4). cbn [turned x_b x_n] in *. split; [|split; [|split]].
    - intros l z Hl Hz i Hi. destruct (A1 l z Hl Hz (n - 1 - i)%nat ltac:(cbn; lia)) as (a & b & D1 & D2 & E1 & E2). destruct (turn_legs i Hi) as [L1 L2]. destruct (legs_lt u m i Hi).
      exists a, b. rewrite L1, L2. rewrite (turn_gain (Tb l) (fun q => S q z) (down u m i)), (turn_gain (Tb l) (fun q => S q z) (up u m i)), L1, L2, (turn_rate i (n - 1 - i)) by auto. auto.
    - intros p z Hp Hz. apply A2; auto. apply opp_lt. auto.
    - intros i Hi. pose proof turn_legs as TL. destruct (TL i Hi) as [L1 L2]. rewrite L1. rewrite A3 by lia. unfold entering. cbn [turned x_kind x_n nth]. destruct (x_kind u) eqn:EK; [auto| |congruence].
      replace (Rltb x 0) with true by (symmetry; apply Rltb_true; auto). replace (Rltb (- x) 0) with false by (symmetry; apply Rltb_false; lra).
      destruct (Nat.eqb i (n - 1)) eqn:E.
      + apply Nat.eqb_eq in E. replace (n - 1 - i)%nat with O by lia. auto.
      + apply Nat.eqb_neq in E. destruct (TL (i + 1)%nat ltac:(lia)) as [_ ->]. replace (n - 1 - i)%nat with (Datatypes.S (n - 1 - (i + 1))) by lia. auto.
    - intros i Hi. destruct (turn_legs i Hi) as [-> ->]. apply A4. lia.
  Qed.

  Lemma turn_leaving (S : nat -> R -> R) : leaving u m (fun i => S (opp (up u m i)) 0) 0 = leaving w m' (fun i => S (up w m' i) 0) 0.
  Proof.
    pose proof turn_legs as TL. unfold leaving. cbn [turned x_kind x_n nth]. destruct (x_kind u) eqn:E; [|clear E|congruence].
    - f_equal. rewrite <- (sumn_rev n (fun i => S (up w m' i) 0)). apply sumn_ext. intros i Hi. destruct (TL i Hi) as [_ ->]. auto.
    - replace (Rltb x 0) with true by (symmetry; apply Rltb_true; auto). replace (Rltb (- x) 0) with false by (symmetry; apply Rltb_false; lra).
      destruct (TL O Hn) as [_ ->]. do 2 f_equal. lia.
  Qed.

  Lemma turn_same eig eig' (EO : eig_ok eig u m cp) (EO' : eig_ok eig' w m' cp) Tin Tb :
    (forall z, 0 <= z <= bH (x_b u) -> exists a b, q_temperature eig u Tin k Tb m cp r z = Some a /\ q_temperature eig' w Tin k Tb m' cp r z = Some b
       /\ forall p, (p < 2 * n)%nat -> a p = b (opp p))
    /\ (exists a b, q_outlet eig u Tin k Tb m cp r = Some a /\ q_outlet eig' w Tin k Tb m' cp r = Some b /\ a O = b O)
    /\ (exists a b, q_heat eig u Tin k Tb m cp r = Some a /\ q_heat eig' w Tin k Tb m' cp r = Some b /\ forall l, (l < k)%nat -> a l = b l).
  Proof.
    destruct turn_usable as [U1 U2]. destruct turn_meant as [M1 M2]. destruct ins as [I1 I2].
    destruct (solved eig u _ _ k r U1 M1 P HP SS EO Tin Tb) as (T & F & _ & QT & (o1 & E1 & O1) & (h1 & G1 & H1)).
    destruct (solved eig' w _ _ k r U2 M2 turn_passive HP SS EO' Tin Tb) as (S & F' & _ & QS & (o2 & E2 & O2) & (h2 & G2 & H2)).
    assert (Un : forall p z, (p < 2 * n)%nat -> 0 <= z <= bH (x_b u) -> T p z = S (opp p) z)
      by (intros; apply (profile_unique u _ _ k r U1 P HP SS _ _ _ _ F (turn_profile _ _ _ F')); auto).
    split; [|split].
    - intros z Hz. destruct (QT z) as [a [Ea Oa]]. destruct (QS z) as [b [Eb Ob]]. exists a, b. split; [auto|split; [auto|]]. intros p Hp. rewrite Oa, Ob by (try apply opp_lt; auto). apply Un; auto.
    - exists o1, o2. split; [auto|split; [auto|]]. rewrite O1, O2 by lia. rewrite <- turn_leaving. unfold leaving. destruct (x_kind u) eqn:E.
      + f_equal. apply sumn_ext. intros i Hi. apply Un; [apply legs_lt; auto|lra].
      + destruct (Rltb _ 0); apply Un; try lra; apply legs_lt; lia.
      + congruence.
    - exists h1, h2. split; [auto|split; [auto|]]. intros l Hl. rewrite H1, H2 by auto. unfold leg_heat. cbn [turned x_b].
      assert (St : forall j, (j <= k)%nat -> stream u (down u m) (up u m) (tube_rate u m cp) T (depth_of (x_b u) k r j) = stream w (down w m') (up w m') (tube_rate w m' cp) S (depth_of (x_b u) k r j));
        [|rewrite !St by lia; auto].
      intros j Hj. pose proof (de_range (x_b u) k r HP SS j Hj). unfold stream. cbn [turned x_n].
      rewrite <- (sumn_rev n (fun i => tube_rate w m' cp i * _)). apply sumn_ext. intros i Hi. destruct (legs_lt u m i Hi). rewrite !Un by auto.
      destruct (turn_legs i Hi) as [-> ->]. rewrite (turn_rate i (n - 1 - i)). auto.
  Qed.
End Turn.

(** ** Positive flows *)
Lemma format_flag b u m cp : length m = n_inlets u -> (forall i, (i < n_inlets u)%nat -> 0 < nth i m 0) -> format (flagged b u) m cp = format u m cp.
Proof.
  intros L Pm. assert (Z : forall i, Rltb (nth i m 0) 0 = false).
  { intros i. apply Rltb_false. destruct (Nat.lt_ge_cases i (n_inlets u)) as [H|H]; [specialize (Pm i H); lra|rewrite nth_overflow by lia; lra]. }
  unfold format. cbn [flagged x_n x_kind x_reversible]. destruct (x_kind u).
  - destruct m as [|x [|y m]]; auto. pose proof (Z O) as Z0. cbn in Z0. rewrite Z0. auto.
  - destruct m as [|x [|y m]]; auto. pose proof (Z O) as Z0. cbn in Z0. rewrite Z0. auto.
  - replace (fun i => (Rltb (nth i m 0) 0 && b)%bool) with (fun i => (Rltb (nth i m 0) 0 && x_reversible u)%bool) by (extensionality i; rewrite Z; auto). auto.
Qed.

Lemma queries_flag b eig u m cp Tin k Tb r : length m = n_inlets u -> (forall i, (i < n_inlets u)%nat -> 0 < nth i m 0) ->
  (forall z, q_temperature eig (flagged b u) Tin k Tb m cp r z = q_temperature eig u Tin k Tb m cp r z)
  /\ q_outlet eig (flagged b u) Tin k Tb m cp r = q_outlet eig u Tin k Tb m cp r
  /\ q_heat eig (flagged b u) Tin k Tb m cp r = q_heat eig u Tin k Tb m cp r.
Proof.
  intros L Pm. pose proof (format_flag b u m cp L Pm) as F.
  assert (T : forall z, m_temperature eig (flagged b u) m cp k r z = m_temperature eig u m cp k r z).
  { intros z. unfold m_temperature, prepare. rewrite F. reflexivity. }
  split; [|split].
  - intros z. unfold q_temperature. rewrite T. reflexivity.
  - unfold q_outlet, m_outlet, prepare. rewrite F. reflexivity.
  - unfold q_heat, m_heat. rewrite F, T. replace (m_temperature eig (flagged b u) m cp k r) with (m_temperature eig u m cp k r) by (extensionality z; rewrite T; auto). reflexivity.
Qed.
