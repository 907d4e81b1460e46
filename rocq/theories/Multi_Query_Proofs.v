(** The queries in terms of the fluid temperatures. *)
From Coq Require Import Psatz FunctionalExtensionality.
From Coquelicot Require Import Coquelicot.
From Verif Require Import Base LinAlg LinInv Bore_Model Bore_Proofs Pipe_Proofs Pipe_Unique_Proofs Multi_Model Multi_Spec Multi_Ode_Proofs Multi_Profile_Proofs Multi_Energy_Proofs Multi_Setup_Proofs Multi_Main_Proofs.
Local Open Scope R_scope.

Section Queries.
  Variables (eig : nat -> Mx -> option spectrum) (u : multi) (m cp : list R) (k : nat) (r : option (list R)).
  Hypothesis (Us : usable u m cp) (Rm : reversals_meant u m) (P : passive_circuit u) (HP : 0 < bH (x_b u)) (SS : segment_shares k r) (EO : eig_ok eig u m cp).
  Local Notation n := (x_n u).
  Local Notation N := (2 * x_n u)%nat.
  Local Notation dn := (down u m).
  Local Notation up := (up u m).
  Local Notation H := (bH (x_b u)).

  Lemma heat_sum (g : inputs) (G : format u m cp = Some g) (T : nat -> R -> R) l : (l < k)%nat ->
    sumn N (fun p => g_m g p * g_cp g p * (T p (nth (S l) (segment_edges (x_b u) k r) 0) - T p (nth l (segment_edges (x_b u) k r) 0))) = leg_heat u m cp k r T l.
  Proof.
    intros Hl. rewrite !(sh_depth (x_b u) k r SS) by lia. rewrite (legs_sum u dn up (legs_of u m)). unfold leg_heat, stream. rewrite <- sumn_minus. apply sumn_ext. intros i Hi.
    destruct (g_rate u m cp Us g G i Hi) as [-> ->]. ring.
  Qed.

  Lemma solved Tin Tb : exists T, fluid_profile u m cp k r Tin Tb T
    /\ (forall p z, (p < N)%nat -> continuous (T p) z)
    /\ (forall z, exists v, q_temperature eig u Tin k Tb m cp r z = Some v /\ forall p, (p < N)%nat -> v p = T p z)
    /\ (exists v, q_outlet eig u Tin k Tb m cp r = Some v /\ forall o, (o < n_inlets u)%nat -> v o = leaving u m (fun i => T (up i) 0) o)
    /\ (exists v, q_heat eig u Tin k Tb m cp r = Some v /\ forall l, (l < k)%nat -> v l = leg_heat u m cp k r T l).
  Proof.
    destruct (format_some u m cp Us) as [g G]. destruct (EO g G) as [s [Es D]].
    destruct (returns_some u m cp k r g s Us Rm P HP SS G D) as [Y EY].
    set (T := fun p z => general N s (row_sums N (system_mx u g)) k (segment_edges (x_b u) k r) (T_head u k r g s Y Tin Tb) Tb z p).
    assert (QT : forall z, exists c, m_temperature eig u m cp k r z = Some c /\ forall p, (p < N)%nat -> apply2 u k c Tin Tb p = T p z).
    { intros z. unfold m_temperature, prepare. rewrite G, Es, EY. eexists. split; [reflexivity|]. intros p Hp.
      exact (temp_eq u k r g s Y Tin Tb z p _ Hp eq_refl). }
    exists T. split; [|split; [|split; [|split]]].
    - exact (head_profile u m cp k r g s Us Rm P HP SS G D Y Tin Tb EY).
    - intros p z Hp. apply (general_continuous N (system_mx u g) s _ k _ D). auto.
    - intros z. destruct (QT z) as [c [E F]]. unfold q_temperature. rewrite E. cbn [option_map]. eauto.
    - unfold q_outlet, m_outlet, prepare. rewrite G, Es, EY. cbn [option_map]. eexists. split; [reflexivity|]. intros o Ho.
      exact (out_eq u m cp k r g s Us Rm HP SS G D Y Tin Tb o _ Ho eq_refl).
    - unfold q_heat, m_heat. rewrite G. destruct (QT 0) as [c0 [E0 _]]. rewrite E0. cbn [option_map]. eexists. split; [reflexivity|]. intros l Hl.
      rewrite <- (heat_sum g G T l Hl). unfold apply2. cbn [fst snd].
      set (ed := segment_edges (x_b u) k r). destruct (QT (nth (S l) ed 0)) as [c1 [E1 F1]]. destruct (QT (nth l ed 0)) as [c2 [E2 F2]]. rewrite E1, E2.
      assert (L : forall (a b : nat -> R) (f1 f2 : Mx) q (x : nat -> R),
        sumn q (fun j => sumn N (fun p => g_m g p * g_cp g p * (f1 p j - f2 p j)) * x j) = sumn N (fun p => g_m g p * g_cp g p * (sumn q (fun j => f1 p j * x j) - sumn q (fun j => f2 p j * x j)))).
      { intros _ _ f1 f2 q x. rewrite (sumn_ext q _ (fun j => sumn N (fun p => g_m g p * g_cp g p * ((f1 p j - f2 p j) * x j)))).
        - rewrite sumn_swap. apply sumn_ext. intros p Hp. rewrite sumn_scal, <- sumn_minus. f_equal. apply sumn_ext. intros. ring.
        - intros j Hj. rewrite <- sumn_scal_r. apply sumn_ext. intros. ring. }
      rewrite !L by exact (fun _ => 0). rewrite <- sumn_plus. apply sumn_ext. intros p Hp. rewrite <- F1, <- F2 by auto. unfold apply2. ring.
  Qed.

  Lemma g_in g : format u m cp = Some g -> forall o, (o < n_inlets u)%nat -> Rabs (g_min g o) * g_cpin g o = inlet_rate m cp o.
  Proof.
    intros G o Ho. unfold inlet_rate. unfold format in G. unfold n_inlets in Ho. destruct (x_kind u) eqn:K.
    - destruct (one_cp u m cp Us ltac:(congruence)) as (x & c & -> & -> & _). injection G as <-. destruct o; [reflexivity|lia].
    - destruct (one_cp u m cp Us ltac:(congruence)) as (x & c & -> & -> & _). injection G as <-. destruct o; [reflexivity|lia].
    - destruct (Nat.eqb (length m) n); [|discriminate]. pose proof (cap_nth u cp o Ho K) as CN.
      destruct (if Nat.eqb _ 1 then _ else _) as [c|]; [|discriminate]. injection G as <-. cbn [g_min g_cpin]. rewrite (CN c eq_refl). auto.
  Qed.

  Lemma fluid_eq Tin Tb : exists out q, q_outlet eig u Tin k Tb m cp r = Some out /\ q_fluid eig u Tin k Tb m cp r = Some q
    /\ forall o, (o < n_inlets u)%nat -> q o = inlet_rate m cp o * (out o - Tin o).
  Proof.
    destruct (solved Tin Tb) as (T & _ & _ & _ & (out & Eo & _) & _). destruct (format_some u m cp Us) as [g G].
    unfold q_outlet in Eo. destruct (m_outlet eig u m cp k r) as [b|] eqn:E; [|discriminate].
    exists out, (fun o => sumn (n_inlets u) (fun j => ((if Nat.eqb o j then - (Rabs (g_min g o) * g_cpin g o) else 0) + Rabs (g_min g o) * g_cpin g o * fst b o j) * Tin j)
      + sumn k (fun l => Rabs (g_min g o) * g_cpin g o * snd b o l * Tb l)).
    unfold q_outlet, q_fluid, m_fluid. rewrite G, E. split; [auto|]. split; [reflexivity|]. intros o Ho. cbn [option_map] in Eo. injection Eo as <-.
    rewrite (g_in g G o Ho). unfold apply2. set (R := inlet_rate m cp o).
    rewrite (sumn_ext (n_inlets u) _ (fun j => R * (fst b o j * Tin j) - R * (id_mx o j * Tin j))).
    - rewrite (sumn_ext k _ (fun l => R * (snd b o l * Tb l))) by (intros; ring). rewrite sumn_minus, !sumn_scal, sumn_id by auto. ring.
    - intros j Hj. unfold id_mx. destruct (Nat.eqb o j); ring.
  Qed.

  (** no inlet temperatures leave the heat rates unchanged *)
  Lemma fluid_regular b : m_fluid eig u m cp k r = Some b -> nonsingular (n_inlets u) (fst b).
  Proof.
    intros E x Hx o Ho. destruct (solved x (fun _ => 0)) as (T & F & _ & _ & (out & Eo & Oo) & _). destruct (fluid_eq x (fun _ => 0)) as (out' & q & Eo' & Eq & Qo).
    rewrite Eo in Eo'. injection Eo' as <-. unfold q_fluid in Eq. rewrite E in Eq. cbn [option_map] in Eq. injection Eq as <-.
    assert (Q : forall o, (o < n_inlets u)%nat -> out o = x o).
    { intros j Hj. pose proof (Qo j Hj) as Z. unfold apply2 in Z. rewrite (Hx j Hj), (sumn_zero k) in Z by (intros; ring).
      destruct Us as (_ & _ & _ & V). destruct (V j Hj) as [V1 V2]. assert (0 < inlet_rate m cp j) by (unfold inlet_rate; apply Rmult_lt_0_compat; auto; apply Rabs_pos_lt; auto). nra. }
    assert (Z : forall p z, (p < N)%nat -> 0 <= z <= H -> T p z = 0).
    { intros p z Hp Hz. destruct (profile_work u m cp k r Us 0 _ _ T F) as [W0 WH]. destruct F as (A1 & A2 & A3 & A4).
      pose proof (de_0 (x_b u) k r SS) as D0. pose proof (de_k (x_b u) k r SS) as Dk.
      apply (zero_everywhere u dn up (tube_rate u m cp) P (legs_of u m) k (depth_of (x_b u) k r) T); try (rewrite ?D0, ?Dk); auto.
      - intros l Hl. apply de_step; auto.
      - eapply Rle_trans; [exact W0|]. right. rewrite sumn_zero; [ring|]. intros j Hj. rewrite <- (Oo j Hj), (Q j Hj). ring. }
    rewrite <- (Q o Ho), (Oo o Ho). assert (Hn : (0 < n)%nat) by (destruct Us; auto). unfold leaving. unfold n_inlets in Ho. destruct (x_kind u).
    - rewrite sumn_zero; [unfold Rdiv; ring|]. intros i Hi. apply Z; [apply legs_lt; auto|lra].
    - destruct (Rltb _ 0); apply Z; try lra; apply legs_lt; lia.
    - apply Z; try lra; apply legs_lt; lia.
  Qed.

  Lemma inlet_inverts Q Tb : exists Tin q, q_inlet eig u Q k Tb m cp r = Some Tin /\ q_fluid eig u Tin k Tb m cp r = Some q
    /\ forall o, (o < n_inlets u)%nat -> q o = Q o.
  Proof.
    destruct (fluid_eq (fun _ => 0) Tb) as (out & q & _ & E & _). unfold q_fluid in E. destruct (m_fluid eig u m cp k r) as [b|] eqn:F; [|discriminate].
    destruct (inv_some (n_inlets u) (fst b) (fluid_regular b F)) as [i I].
    exists (apply2 u k (i, fun p l => - sumn (n_inlets u) (fun q => i p q * snd b q l)) Q Tb).
    exists (apply2 u k b (apply2 u k (i, fun p l => - sumn (n_inlets u) (fun q => i p q * snd b q l)) Q Tb) Tb).
    split; [unfold q_inlet, m_inlet; rewrite F, I; reflexivity|]. split; [unfold q_fluid; rewrite F; reflexivity|]. intros o Ho.
    set (y := fun j => Q j - sumn k (fun l => snd b j l * Tb l)).
    assert (X : forall j, apply2 u k (i, fun p l => - sumn (n_inlets u) (fun q => i p q * snd b q l)) Q Tb j = sumn (n_inlets u) (fun q => i j q * y q)).
    { intros j. unfold apply2, y. cbn [fst snd].
      rewrite (sumn_ext (n_inlets u) (fun q => i j q * (Q q - sumn k (fun l => snd b q l * Tb l))) (fun q => i j q * Q q - sumn k (fun l => i j q * (snd b q l * Tb l)))) by (intros; rewrite sumn_scal; ring).
      rewrite sumn_minus. rewrite (sumn_swap (n_inlets u) k). unfold Rminus. f_equal. rewrite <- sumn_opp. apply sumn_ext. intros l Hl.
      rewrite Ropp_mult_distr_l_reverse. f_equal. rewrite <- sumn_scal_r. apply sumn_ext. intros. ring. }
    unfold apply2 at 1. rewrite (sumn_ext (n_inlets u) _ (fun j => fst b o j * sumn (n_inlets u) (fun q => i j q * y q))) by (intros; rewrite X; auto).
    assert (R : sumn (n_inlets u) (fun j => fst b o j * sumn (n_inlets u) (fun q => i j q * y q)) = y o).
    { rewrite (sumn_ext (n_inlets u) _ (fun j => sumn (n_inlets u) (fun q => fst b o j * i j q * y q))) by (intros; rewrite <- sumn_scal; apply sumn_ext; intros; ring).
      rewrite sumn_swap. rewrite (sumn_ext (n_inlets u) _ (fun q => id_mx o q * y q)); [apply sumn_id; auto|].
      intros q' Hq. rewrite sumn_scal_r. f_equal. apply (inv_right _ _ _ I); auto. }
    rewrite R. unfold y. ring.
  Qed.

  (** ** Heat from the wall *)
  Lemma gain_wall tb T : sumn N (gain u tb T) = sumn N (fun p => conductance u p p * (tb - T p)).
  Proof. unfold gain. rewrite sumn_plus, (exchange_zero u P). ring. Qed.

  Lemma leg_heat_wall Tin Tb T : fluid_profile u m cp k r Tin Tb T -> (forall p z, (p < N)%nat -> continuous (T p) z) -> forall l, (l < k)%nat ->
    leg_heat u m cp k r T l = RInt (fun z => sumn N (fun p => conductance u p p * (Tb l - T p z))) (depth_of (x_b u) k r l) (depth_of (x_b u) k r (S l)).
  Proof.
    intros (A1 & _) C l Hl. set (a := depth_of (x_b u) k r l). set (b := depth_of (x_b u) k r (S l)). set (h := fun z => sumn N _).
    assert (Hc : forall z, continuous h z).
    { intros z. apply (continuous_sumn N (fun p z => conductance u p p * (Tb l - T p z))). intros p Hp.
      apply (continuous_mult (fun _ => conductance u p p) (fun z => Tb l - T p z)); [apply continuous_const|].
      apply (continuous_minus (fun _ => Tb l) (T p)); [apply continuous_const|auto]. }
    assert (Hi : forall x y, ex_RInt h x y) by (intros; apply (ex_RInt_continuous (V := R_CompleteNormedModule)); auto).
    assert (Ab : a <= b) by (apply de_step; auto).
    assert (HD : forall z, is_derive (RInt h a) z (h z)).
    { intros z. apply (is_derive_RInt h (RInt h a) a z); [|auto]. exists (mkposreal 1 Rlt_0_1). intros y _. apply (RInt_correct h). auto. }
    set (S := stream u dn up (tube_rate u m cp) T).
    set (f := fun z => S z - RInt h a z).
    assert (Sc : forall z, continuous S z).
    { intros z. unfold S, stream. apply (continuous_sumn n (fun i z => tube_rate u m cp i * (T (dn i) z - T (up i) z))). intros i Hi'. destruct (legs_lt u m i Hi').
      apply (continuous_mult (fun _ => tube_rate u m cp i) (fun z => T (dn i) z - T (up i) z)); [apply continuous_const|]. apply (continuous_minus (T (dn i)) (T (up i))); auto. }
    destruct (MVT_gen f a b (fun _ => 0)) as [c [_ E]].
    - intros z. rewrite Rmin_left, Rmax_right by lra. intros Hz. unfold f.
      pose proof (stream_derive u dn up (tube_rate u m cp) (legs_of u m) T (Tb l) z (A1 l z Hl Hz)) as D1. rewrite gain_wall in D1.
      pose proof (is_derive_minus _ _ z _ _ D1 (HD z)) as D2. match type of D2 with is_derive _ _ ?v => replace 0 with v; [exact D2|] end.
      unfold h. match goal with |- minus ?p ?q = _ => change (p - q = 0) end. ring.
    - intros z _. apply continuity_pt_filterlim. apply (continuous_minus S (RInt h a)); auto. apply (ex_derive_continuous (RInt h a)). eexists. apply HD.
    - unfold f in E. rewrite RInt_point in E. change (zero : R) with 0 in E. unfold leg_heat. fold S. fold a b. lra.
  Qed.
End Queries.
