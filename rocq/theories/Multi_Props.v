(** Boreholes with several U-tubes: C95 - C107. *)
From Coq Require Import Psatz FunctionalExtensionality List.
From Coquelicot Require Import Coquelicot.
From Verif Require Import Base LinAlg LinInv Bore_Model Net_Model Net_Spec Pipe_Model Pipe_Spec
  Multi_Model Multi_Spec Multi_Setup_Proofs Multi_Main_Proofs Multi_Query_Proofs Multi_Max_Proofs Multi_Sym_Proofs Multi_Turn_Proofs Multi_Net_Proofs Multi_Ex_Proofs.
Local Open Scope R_scope.

(** ** C95: the fluid temperatures obey the energy balances *)
Theorem C95_profile : forall eig u m cp k r Tin Tb,
  usable u m cp -> reversals_meant u m -> passive_circuit u -> 0 < bH (x_b u) -> segment_shares k r -> eig_ok eig u m cp ->
  exists T, fluid_profile u m cp k r Tin Tb T
    /\ (forall z, exists v, q_temperature eig u Tin k Tb m cp r z = Some v /\ forall p, (p < 2 * x_n u)%nat -> v p = T p z)
    /\ (exists v, q_outlet eig u Tin k Tb m cp r = Some v /\ forall o, (o < n_inlets u)%nat -> v o = leaving u m (fun i => T (up u m i) 0) o)
    /\ (exists v, q_heat eig u Tin k Tb m cp r = Some v /\ forall l, (l < k)%nat ->
          v l = RInt (fun z => sumn (2 * x_n u) (fun p => conductance u p p * (Tb l - T p z))) (depth_of (x_b u) k r l) (depth_of (x_b u) k r (S l))).
Proof.
  intros eig u m cp k r Tin Tb Us Rm P HP SS EO. destruct (solved eig u m cp k r Us Rm P HP SS EO Tin Tb) as (T & F & Ct & QT & QO & (h & Eh & Hh)).
  exists T. split; [auto|split; [auto|split; [auto|]]]. exists h. split; [auto|]. intros l Hl. rewrite Hh by auto. eapply leg_heat_wall; eauto.
Qed.
Print Assumptions C95_profile.

Theorem C95_unique : forall u m cp k r Tin Tb S T,
  usable u m cp -> passive_circuit u -> 0 < bH (x_b u) -> segment_shares k r ->
  fluid_profile u m cp k r Tin Tb S -> fluid_profile u m cp k r Tin Tb T ->
  forall p z, (p < 2 * x_n u)%nat -> 0 <= z <= bH (x_b u) -> S p z = T p z.
Proof. intros. eapply profile_unique; eauto. Qed.
Print Assumptions C95_unique.

Lemma ex_shares : segment_shares 3 (Some (1/2 :: 1/3 :: 1/6 :: nil)).
Proof. split; [auto|]. split; [|cbn; lra]. cbn. intros x [<- | [<- | [<- | []]]]; lra. Qed.

Example C95_example : forall q s, s = 1 \/ s = -1 ->
  usable (two_tubes q true) (two_flow q s) (1 :: nil) /\ reversals_meant (two_tubes q true) (two_flow q s) /\ passive_circuit (two_tubes q true)
  /\ 0 < bH (x_b (two_tubes q true)) /\ segment_shares 3 (Some (1/2 :: 1/3 :: 1/6 :: nil)) /\ eig_ok ex_eig (two_tubes q true) (two_flow q s) (1 :: nil).
Proof.
  intros q s Hs. split; [apply two_usable; auto|]. split; [apply two_meant; auto|]. split; [apply positive_passive, two_positive|]. split; [cbn; lra|].
  split; [exact ex_shares|apply two_eig; auto].
Qed.

(** ** C96: the answers do not depend on the choice of the eigenvectors *)
Theorem C96_eigenvectors : forall eig eig' u m cp k r Tin Tb,
  usable u m cp -> reversals_meant u m -> passive_circuit u -> 0 < bH (x_b u) -> segment_shares k r -> eig_ok eig u m cp -> eig_ok eig' u m cp ->
  (forall z, 0 <= z <= bH (x_b u) -> exists v w, q_temperature eig u Tin k Tb m cp r z = Some v /\ q_temperature eig' u Tin k Tb m cp r z = Some w
     /\ forall p, (p < 2 * x_n u)%nat -> v p = w p)
  /\ (exists v w, q_outlet eig u Tin k Tb m cp r = Some v /\ q_outlet eig' u Tin k Tb m cp r = Some w /\ forall o, (o < n_inlets u)%nat -> v o = w o)
  /\ (exists v w, q_heat eig u Tin k Tb m cp r = Some v /\ q_heat eig' u Tin k Tb m cp r = Some w /\ forall l, (l < k)%nat -> v l = w l).
Proof.
  intros eig eig' u m cp k r Tin Tb Us Rm P HP SS EO EO'.
  destruct (solved eig u m cp k r Us Rm P HP SS EO Tin Tb) as (T & F & _ & QT & (o & Eo & Ho) & (h & Eh & Hh)).
  destruct (solved eig' u m cp k r Us Rm P HP SS EO' Tin Tb) as (S & F' & _ & QS & (o' & Eo' & Ho') & (h' & Eh' & Hh')).
  pose proof (profile_unique u m cp k r Us P HP SS _ _ _ _ F F') as Un. split; [|split].
  - intros z Hz. destruct (QT z) as [v [Ev Hv]]. destruct (QS z) as [w [Ew Hw]]. exists v, w. split; [auto|split; [auto|]]. intros p Hp. rewrite Hv, Hw by auto. auto.
  - exists o, o'. split; [auto|split; [auto|]]. intros i Hi. rewrite Ho, Ho' by auto.
    assert (E : forall j, (j < x_n u)%nat -> T (up u m j) 0 = S (up u m j) 0) by (intros j Hj; apply Un; [apply legs_lt; auto|lra]).
    assert (Hn : (0 < x_n u)%nat) by apply Us.
    unfold leaving. unfold n_inlets in Hi. destruct (x_kind u); [f_equal; apply sumn_ext; auto|destruct (Rltb _ 0); apply E; lia|apply E; auto].
  - exists h, h'. split; [auto|split; [auto|]]. intros l Hl. rewrite Hh, Hh' by auto. unfold leg_heat, Multi_Energy_Proofs.stream.
    pose proof (de_range (x_b u) k r HP SS l ltac:(lia)). pose proof (de_range (x_b u) k r HP SS (Datatypes.S l) ltac:(lia)).
    f_equal; apply sumn_ext; intros i Hi; destruct (legs_lt u m i Hi); rewrite !Un by auto; auto.
Qed.
Print Assumptions C96_eigenvectors.

(** the eigenvectors of the example, scaled *)
Definition scaled (s : spectrum) : spectrum := mkspectrum (s_L s) (fun i k => Cmult (RtoC 2) (s_V s i k)) (fun k j => Cmult (RtoC (1/2)) (s_W s k j)).
Definition scaled_eig (N : nat) (A : Mx) : option spectrum := option_map scaled (ex_eig N A).

Example C96_example : forall q, eig_ok ex_eig (two_tubes q true) (two_flow q 1) (1 :: nil) /\ eig_ok scaled_eig (two_tubes q true) (two_flow q 1) (1 :: nil)
  /\ ex_eig <> scaled_eig.
Proof.
  intros q. assert (E := two_eig q true 1 (or_introl eq_refl)). split; [exact E|]. split.
  - intros g G. destruct (E g G) as (s & Es & D1 & D2 & D3). exists (scaled s). split; [unfold scaled_eig; rewrite Es; auto|].
    assert (CM : forall n c (f : nat -> Complex.C), csum n (fun i => Cmult (RtoC c) (f i)) = Cmult (RtoC c) (csum n f)).
    { intros n c f. unfold csum, Cmult, RtoC. cbn. f_equal; [rewrite Rmult_0_l, Rminus_0_r|rewrite Rmult_0_l, Rplus_0_r]; rewrite <- sumn_scal; apply sumn_ext; intros; match goal with |- ?a = ?b => change (@eq R a b) end; unfold Re, Im; ring. }
    assert (CE : forall n (f h : nat -> Complex.C), (forall i, (i < n)%nat -> f i = h i) -> csum n f = csum n h) by (intros n f h X; unfold csum; f_equal; apply sumn_ext; intros; rewrite X by auto; auto).
    split; [|split]; intros i j Hi Hj; cbn [scaled s_L s_V s_W].
    + rewrite <- Cmult_assoc, <- D1, <- CM by auto. apply CE. intros. ring.
    + rewrite <- D2 by auto. apply CE. intros. unfold Cmult, RtoC. cbn. f_equal; field.
    + rewrite <- D3 by auto. apply CE. intros. unfold Cmult, RtoC. cbn. f_equal; field.
  - intros X. pose proof (f_equal (fun f => f 4%nat (fun _ _ => 0)) X) as Y. unfold scaled_eig, ex_eig in Y. cbn in Y. pose proof (f_equal (fun o => match o with Some s => Re (s_V s O O) | None => 0 end) Y) as Z. cbn in Z. lra.
Qed.

(** ** C97: the heat taken from the wall is the heat that the fluid carries away *)
Theorem C97_heat_balance : forall eig u m cp k r Tin Tb,
  usable u m cp -> reversals_meant u m -> passive_circuit u -> 0 < bH (x_b u) -> segment_shares k r -> eig_ok eig u m cp ->
  exists out h q total, q_outlet eig u Tin k Tb m cp r = Some out /\ q_heat eig u Tin k Tb m cp r = Some h
    /\ q_fluid eig u Tin k Tb m cp r = Some q /\ q_total eig u Tin k Tb m cp r = Some total
    /\ (forall o, (o < n_inlets u)%nat -> q o = Rabs (nth o m 0) * capacity_at cp o * (out o - Tin o))
    /\ total = sumn (n_inlets u) q /\ sumn k h = total.
Proof.
  intros eig u m cp k r Tin Tb Us Rm P HP SS EO. destruct (solved eig u m cp k r Us Rm P HP SS EO Tin Tb) as (T & F & _ & _ & (o & Eo & Ho) & (h & Eh & Hh)).
  destruct (fluid_eq eig u m cp k r Us Rm P HP SS EO Tin Tb) as (o' & q & Eo' & Eq & Hq). rewrite Eo in Eo'. injection Eo' as <-.
  exists o, h, q, (sumn (n_inlets u) q). split; [auto|split; [auto|split; [auto|]]]. split; [unfold q_total; rewrite Eq; auto|].
  split; [intros i Hi; rewrite Hq by auto; reflexivity|]. split; [auto|].
  rewrite (sumn_ext k h (leg_heat u m cp k r T)) by auto. rewrite (leg_heat_total u m cp k r Us SS _ _ T F). unfold carried. apply sumn_ext. intros i Hi. rewrite Hq, Ho by auto. reflexivity.
Qed.
Print Assumptions C97_heat_balance.

(** ** C98: equilibrium *)
Theorem C98_equilibrium : forall eig u m cp k r Tin Tb t,
  usable u m cp -> reversals_meant u m -> passive_circuit u -> 0 < bH (x_b u) -> segment_shares k r -> eig_ok eig u m cp ->
  (forall o, (o < n_inlets u)%nat -> Tin o = t) -> (forall l, (l < k)%nat -> Tb l = t) ->
  (forall z, 0 <= z <= bH (x_b u) -> exists v, q_temperature eig u Tin k Tb m cp r z = Some v /\ forall p, (p < 2 * x_n u)%nat -> v p = t)
  /\ (exists v, q_outlet eig u Tin k Tb m cp r = Some v /\ forall o, (o < n_inlets u)%nat -> v o = t)
  /\ (exists v, q_heat eig u Tin k Tb m cp r = Some v /\ forall l, (l < k)%nat -> v l = 0).
Proof.
  intros eig u m cp k r Tin Tb t Us Rm P HP SS EO I B.
  destruct (solved eig u m cp k r Us Rm P HP SS EO Tin Tb) as (T & F & _ & QT & (o & Eo & Ho) & (h & Eh & Hh)).
  pose proof (profile_unique u m cp k r Us P HP SS _ _ _ _ F (profile_still u m cp k r t Tin Tb I B)) as Un. cbv beta in Un. split; [|split].
  - intros z Hz. destruct (QT z) as [v [Ev Hv]]. exists v. split; [auto|]. intros p Hp. rewrite Hv by auto. auto.
  - exists o. split; [auto|]. intros i Hi. rewrite Ho by auto.
    assert (t <= leaving u m (fun i => T (up u m i) 0) i <= t); [|lra]. apply (leaving_between u m cp Us); auto.
    intros j Hj. rewrite Un; [lra|apply legs_lt; auto|lra].
  - exists h. split; [auto|]. intros l Hl. rewrite Hh by auto. unfold leg_heat, Multi_Energy_Proofs.stream.
    pose proof (de_range (x_b u) k r HP SS l ltac:(lia)). pose proof (de_range (x_b u) k r HP SS (Datatypes.S l) ltac:(lia)).
    rewrite !sumn_zero; [ring| |]; intros i Hi; destruct (legs_lt u m i Hi); rewrite !Un by auto; ring.
Qed.
Print Assumptions C98_equilibrium.

(** ** C99: heat exchange dissipates *)
Theorem C99_passive : forall eig u m cp k r Tin Tb t,
  usable u m cp -> reversals_meant u m -> passive_circuit u -> 0 < bH (x_b u) -> segment_shares k r -> eig_ok eig u m cp ->
  exists out h, q_outlet eig u Tin k Tb m cp r = Some out /\ q_heat eig u Tin k Tb m cp r = Some h
    /\ 1/2 * sumn (n_inlets u) (fun o => Rabs (nth o m 0) * capacity_at cp o * ((out o - t) ^ 2 - (Tin o - t) ^ 2)) <= sumn k (fun l => (Tb l - t) * h l).
Proof.
  intros eig u m cp k r Tin Tb t Us Rm P HP SS EO. destruct (solved eig u m cp k r Us Rm P HP SS EO Tin Tb) as (T & F & _ & _ & (o & Eo & Ho) & (h & Eh & Hh)).
  exists o, h. split; [auto|split; [auto|]]. rewrite (sumn_ext k _ (fun l => (Tb l - t) * leg_heat u m cp k r T l)) by (intros l Hl; rewrite Hh by auto; auto).
  eapply Rle_trans; [|exact (leg_heat_passive u m cp k r Us P HP SS t _ _ T F)]. right. f_equal. apply sumn_ext. intros i Hi. rewrite Ho by auto. reflexivity.
Qed.
Print Assumptions C99_passive.

(** ** C100: the inlet temperatures for given heat extraction rates *)
Theorem C100_inlet : forall eig u m cp k r Q Tb,
  usable u m cp -> reversals_meant u m -> passive_circuit u -> 0 < bH (x_b u) -> segment_shares k r -> eig_ok eig u m cp ->
  exists Tin q, q_inlet eig u Q k Tb m cp r = Some Tin /\ q_fluid eig u Tin k Tb m cp r = Some q /\ forall o, (o < n_inlets u)%nat -> q o = Q o.
Proof. intros. apply inlet_inverts; auto. Qed.
Print Assumptions C100_inlet.

(** ** C101: one U-tube *)
Theorem C101_single : forall eig u (v : utube) x c k r Tin Tb,
  x_n u = 1%nat -> x <> 0 -> 0 < c -> passive_circuit u -> 0 < bH (x_b u) -> segment_shares k r -> reversals_meant u (x :: nil) ->
  u_b v = x_b u -> u_reversible v = x_reversible u -> no_short v ->
  (forall i j, (i < 2)%nat -> (j < 2)%nat -> u_Rd v i j = Res (x_Rd u i j)) ->
  eig_ok eig u (x :: nil) (c :: nil) ->
  (forall z, 0 <= z <= bH (x_b u) -> exists w, q_temperature eig u Tin k Tb (x :: nil) (c :: nil) r z = Some w /\ forall p, (p < 2)%nat -> w p = get_temperature v (Tin O) k Tb x c r z p)
  /\ (exists w, q_outlet eig u Tin k Tb (x :: nil) (c :: nil) r = Some w /\ w O = get_outlet_temperature v (Tin O) k Tb x c r)
  /\ (exists w, q_heat eig u Tin k Tb (x :: nil) (c :: nil) r = Some w /\ forall l, (l < k)%nat -> w l = get_borehole_heat v (Tin O) k Tb x c r l)
  /\ (exists w, q_fluid eig u Tin k Tb (x :: nil) (c :: nil) r = Some w /\ w O = get_fluid_heat v (Tin O) k Tb x c r).
Proof. intros. apply single_same; auto. Qed.
Print Assumptions C101_single.

Example C101_example : let v := mkutube (fun i j => Res (one_Rd i j)) ex_bore true in
  no_short v /\ passive_circuit (one_tube true) /\ reversals_meant (one_tube true) (-1 :: nil) /\ eig_ok ex_eig (one_tube true) (-1 :: nil) (1 :: nil).
Proof.
  cbv zeta. split; [|split; [apply positive_passive, one_positive|split; [left; auto|apply one_eig; auto]]].
  intros i j q. cbn. intros E. injection E as <-. unfold one_Rd. destruct (Nat.eqb i j); lra.
Qed.

(** ** C102: independent U-tubes fed alike are U-tubes in parallel *)
Theorem C102_independent : forall eig eig' u x c k r Tin Tb,
  x_kind u = InParallel -> (0 < x_n u)%nat -> x <> 0 -> 0 < c -> passive_circuit u -> 0 < bH (x_b u) -> segment_shares k r -> reversals_meant u (x :: nil) ->
  let ms := repeat (x / INR (x_n u)) (x_n u) in
  eig_ok eig u (x :: nil) (c :: nil) -> eig_ok eig' (separated u) ms (c :: nil) ->
  (forall z, 0 <= z <= bH (x_b u) -> exists a b, q_temperature eig u (fun _ => Tin) k Tb (x :: nil) (c :: nil) r z = Some a
     /\ q_temperature eig' (separated u) (fun _ => Tin) k Tb ms (c :: nil) r z = Some b /\ forall p, (p < 2 * x_n u)%nat -> a p = b p)
  /\ (exists a b, q_outlet eig u (fun _ => Tin) k Tb (x :: nil) (c :: nil) r = Some a /\ q_outlet eig' (separated u) (fun _ => Tin) k Tb ms (c :: nil) r = Some b
     /\ a O = sumn (x_n u) b / INR (x_n u))
  /\ (exists a b, q_heat eig u (fun _ => Tin) k Tb (x :: nil) (c :: nil) r = Some a /\ q_heat eig' (separated u) (fun _ => Tin) k Tb ms (c :: nil) r = Some b
     /\ forall l, (l < k)%nat -> a l = b l).
Proof. intros. apply apart_same; auto. Qed.
Print Assumptions C102_independent.

Example C102_example : eig_ok ex_eig (two_tubes InParallel true) (2 :: nil) (1 :: nil)
  /\ eig_ok ex_eig (separated (two_tubes InParallel true)) (repeat (2 / INR 2) 2) (1 :: nil).
Proof.
  split.
  - replace (2 :: nil) with (two_flow InParallel 1) by (cbn; f_equal; lra). apply two_eig. auto.
  - replace (repeat (2 / INR 2) 2) with (two_flow Separate 1) by (cbn; repeat f_equal; lra). apply (two_eig Separate). auto.
Qed.

(** ** C103: reversed flows *)
Theorem C103_reversed : forall eig eig' u x c k r Tin Tb,
  x_kind u <> Separate -> (0 < x_n u)%nat -> x < 0 -> x_reversible u = true -> 0 < c -> passive_circuit u -> 0 < bH (x_b u) -> segment_shares k r ->
  eig_ok eig u (x :: nil) (c :: nil) -> eig_ok eig' (turned u) (- x :: nil) (c :: nil) ->
  (forall z, 0 <= z <= bH (x_b u) -> exists a b, q_temperature eig u Tin k Tb (x :: nil) (c :: nil) r z = Some a
     /\ q_temperature eig' (turned u) Tin k Tb (- x :: nil) (c :: nil) r z = Some b /\ forall p, (p < 2 * x_n u)%nat -> a p = b (opposite (x_n u) p))
  /\ (exists a b, q_outlet eig u Tin k Tb (x :: nil) (c :: nil) r = Some a /\ q_outlet eig' (turned u) Tin k Tb (- x :: nil) (c :: nil) r = Some b /\ a O = b O)
  /\ (exists a b, q_heat eig u Tin k Tb (x :: nil) (c :: nil) r = Some a /\ q_heat eig' (turned u) Tin k Tb (- x :: nil) (c :: nil) r = Some b
     /\ forall l, (l < k)%nat -> a l = b l).
Proof. intros. apply turn_same; auto. Qed.
Print Assumptions C103_reversed.

Example C103_example : eig_ok ex_eig (two_tubes InSeries true) (-1 :: nil) (1 :: nil) /\ eig_ok ex_eig (turned (two_tubes InSeries true)) (- -1 :: nil) (1 :: nil).
Proof.
  split; [apply (two_eig InSeries); auto|]. replace (- -1 :: nil) with (two_flow InSeries 1) by (cbn; f_equal; lra).
  intros g G. change (format (turned (two_tubes InSeries true)) (two_flow InSeries 1) (1 :: nil)) with (format (two_tubes InSeries true) (two_flow InSeries 1) (1 :: nil)) in G.
  pose proof (two_system InSeries true 1 (or_introl eq_refl) g G) as E. exists (two_s 1).
  assert (X : forall i j, (i < 4)%nat -> (j < 4)%nat -> system_mx (turned (two_tubes InSeries true)) g i j = system_mx (two_tubes InSeries true) g i j).
  { intros i j Hi Hj. destruct i as [|[|[|[|i]]]]; try lia; destruct j as [|[|[|[|j]]]]; try lia; reflexivity. }
  split.
  - cbn [turned two_tubes x_n Nat.mul Nat.add]. unfold ex_eig. cbn [Nat.eqb]. do 2 f_equal. change (mkmulti _ _ _ _ _) with (turned (two_tubes InSeries true)). rewrite X, E by lia. cbn. rlt. lra.
  - apply two_decomposes. intros i j Hi Hj. rewrite X by auto. apply E; auto.
Qed.

(** ** C104: a borehole that is not reversible uses the flow rate without its sign *)
Theorem C104_sign_refuted : exists eig u cp Tin Tb a b,
  x_reversible u = false /\ positive_circuit u /\ 0 < bH (x_b u) /\ usable u (-1 :: nil) cp /\ usable u (1 :: nil) cp
  /\ eig_ok eig u (-1 :: nil) cp /\ eig_ok eig u (1 :: nil) cp
  /\ q_outlet eig u Tin 1 Tb (-1 :: nil) cp None = Some a /\ q_outlet eig u Tin 1 Tb (1 :: nil) cp None = Some b
  /\ a O <> b O /\ Tin O < a O /\ Tb O < Tin O.
Proof.
  destruct one_reversed as [a [Ea Ha]].
  assert (SS : segment_shares 1 None) by (cbn; lia). assert (HP : 0 < bH (x_b (one_tube false))) by (cbn; lra).
  assert (Rm : reversals_meant (one_tube false) (1 :: nil)) by (right; cbn; intros i Hi; assert (i = O) by lia; subst; cbn; lra).
  destruct (solved ex_eig (one_tube false) _ _ 1 None (one_usable false 1 (or_introl eq_refl)) Rm (positive_passive _ (one_positive false)) HP SS (one_eig false 1 (or_introl eq_refl)) (fun _ => 1) (fun _ => 0))
    as (T & F & _ & _ & (b & Eb & Hb) & _).
  exists ex_eig, (one_tube false), (1 :: nil), (fun _ => 1), (fun _ => 0), a, b.
  split; [auto|split; [apply one_positive|split; [auto|split; [apply one_usable; auto|split; [apply one_usable; auto|split; [apply one_eig; auto|split; [apply one_eig; auto|]]]]]]].
  split; [auto|split; [auto|]]. split; [|split; lra].
  assert (0 <= b O <= 1); [|lra]. rewrite Hb by (cbn; lia).
  apply (leaving_between (one_tube false) _ _ (one_usable false 1 (or_introl eq_refl))); [cbn; lia|]. intros i Hi.
  apply (between (one_tube false) _ _ 1 None (one_usable false 1 (or_introl eq_refl)) (one_positive false) HP SS 0 1 _ _ T F); try (intros; lra). apply legs_lt; auto.
Qed.
Print Assumptions C104_sign_refuted.

(** The part that holds: positive flows, for which the flag does not matter.  Missing:
    negative flows, where the claim is false. *)
Theorem C104_sign_partial : forall b eig u m cp Tin k Tb r,
  length m = n_inlets u -> (forall i, (i < n_inlets u)%nat -> 0 < nth i m 0) ->
  (forall z, q_temperature eig (flagged b u) Tin k Tb m cp r z = q_temperature eig u Tin k Tb m cp r z)
  /\ q_outlet eig (flagged b u) Tin k Tb m cp r = q_outlet eig u Tin k Tb m cp r
  /\ q_heat eig (flagged b u) Tin k Tb m cp r = q_heat eig u Tin k Tb m cp r.
Proof. intros. apply queries_flag; auto. Qed.
Print Assumptions C104_sign_partial.

Example C104_example : length (two_flow InSeries 1) = n_inlets (two_tubes InSeries false) /\ forall i, (i < n_inlets (two_tubes InSeries false))%nat -> 0 < nth i (two_flow InSeries 1) 0.
Proof. split; [auto|]. cbn. intros i Hi. assert (i = O) by lia. subst. cbn. lra. Qed.

(** ** C105: no fluid temperature leaves the range of the inlet and wall temperatures *)
Theorem C105_between : forall eig u m cp k r Tin Tb lo hi,
  usable u m cp -> reversals_meant u m -> positive_circuit u -> 0 < bH (x_b u) -> segment_shares k r -> eig_ok eig u m cp ->
  (forall o, (o < n_inlets u)%nat -> lo <= Tin o <= hi) -> (forall l, (l < k)%nat -> lo <= Tb l <= hi) ->
  (forall z, 0 <= z <= bH (x_b u) -> exists v, q_temperature eig u Tin k Tb m cp r z = Some v /\ forall p, (p < 2 * x_n u)%nat -> lo <= v p <= hi)
  /\ (exists v, q_outlet eig u Tin k Tb m cp r = Some v /\ forall o, (o < n_inlets u)%nat -> lo <= v o <= hi).
Proof.
  intros eig u m cp k r Tin Tb lo hi Us Rm C HP SS EO I B. destruct (solved eig u m cp k r Us Rm (positive_passive u C) HP SS EO Tin Tb) as (T & F & _ & QT & (o & Eo & Ho) & _).
  pose proof (between u m cp k r Us C HP SS lo hi Tin Tb T F I B) as X. split.
  - intros z Hz. destruct (QT z) as [v [Ev Hv]]. exists v. split; [auto|]. intros p Hp. rewrite Hv by auto. auto.
  - exists o. split; [auto|]. intros i Hi. rewrite Ho by auto. apply (leaving_between u m cp Us); auto. intros j Hj. apply X; [apply legs_lt; auto|lra].
Qed.
Print Assumptions C105_between.

Example C105_example : forall q rev, positive_circuit (two_tubes q rev) /\ usable (two_tubes q rev) (two_flow q 1) (1 :: nil) /\ reversals_meant (two_tubes q rev) (two_flow q 1)
  /\ eig_ok ex_eig (two_tubes q rev) (two_flow q 1) (1 :: nil).
Proof. intros q rev. split; [apply two_positive|split; [apply two_usable; auto|split; [apply two_meant; auto|apply two_eig; auto]]]. Qed.

(** ** C106: the effective resistance *)
Theorem C106_effective : forall eig u x c,
  x_kind u <> Separate -> usable u (x :: nil) (c :: nil) -> reversals_meant u (x :: nil) -> passive_circuit u -> 0 < bH (x_b u) -> eig_ok eig u (x :: nil) (c :: nil) ->
  exists R, m_effective eig u (x :: nil) (c :: nil) = Some R /\ 0 < R
    /\ forall tin t, exists out h, q_outlet eig u (fun _ => tin) 1 (fun _ => t) (x :: nil) (c :: nil) None = Some out
       /\ q_heat eig u (fun _ => tin) 1 (fun _ => t) (x :: nil) (c :: nil) None = Some h
       /\ h O * R = bH (x_b u) * (t - (tin + out O) / 2).
Proof. intros. apply effective; auto. Qed.
Print Assumptions C106_effective.

(** ** C107: in networks *)
Theorem C107_network : forall eig u x c k r,
  x_kind u <> Separate -> usable u (x :: nil) (c :: nil) -> reversals_meant u (x :: nil) -> passive_circuit u -> 0 < bH (x_b u) -> segment_shares k r ->
  eig_ok eig u (x :: nil) (c :: nil) ->
  pipe_neutral (multi_pipe eig u) x c k r /\ pipe_balanced (multi_pipe eig u) x c k r /\ pipe_passive (multi_pipe eig u) x c k r
  /\ Rabs (fst (p_out (multi_pipe eig u) x c k r)) < 1.
Proof.
  intros. split; [apply multi_neutral; auto|split; [apply multi_balanced; auto|split; [apply multi_passive; auto|apply out_contracts; auto]]].
Qed.
Print Assumptions C107_network.

Example C107_example : two_tubes InSeries false = mkmulti two_Rd ex_bore false 2 InSeries /\ x_kind (two_tubes InSeries false) <> Separate
  /\ usable (two_tubes InSeries false) (1 :: nil) (1 :: nil) /\ reversals_meant (two_tubes InSeries false) (1 :: nil) /\ passive_circuit (two_tubes InSeries false)
  /\ eig_ok ex_eig (two_tubes InSeries false) (1 :: nil) (1 :: nil).
Proof.
  split; [auto|]. split; [discriminate|]. split; [apply (two_usable InSeries); auto|]. split; [apply (two_meant InSeries); auto|].
  split; [apply positive_passive, two_positive|apply (two_eig InSeries); auto].
Qed.
