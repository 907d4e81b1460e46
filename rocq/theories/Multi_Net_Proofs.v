(** Boreholes with one inlet in networks, and their effective resistance. *)
From Coq Require Import Psatz FunctionalExtensionality.
From Coquelicot Require Import Coquelicot.
From Verif Require Import Base LinAlg LinInv Bore_Model Bore_Proofs Net_Model Net_Spec Pipe_Proofs
  Multi_Model Multi_Spec Multi_Ode_Proofs Multi_Profile_Proofs Multi_Energy_Proofs Multi_Setup_Proofs Multi_Main_Proofs Multi_Query_Proofs.
Local Open Scope R_scope.

Section Net.
  Variables (eig : nat -> Mx -> option spectrum) (u : multi) (m c : R).
  Hypothesis (K : x_kind u <> Separate) (Us : usable u (m :: nil) (c :: nil)) (Rm : reversals_meant u (m :: nil)) (P : passive_circuit u) (HP : 0 < bH (x_b u))
    (EO : eig_ok eig u (m :: nil) (c :: nil)).
  Local Notation n := (x_n u).
  Local Notation N := (2 * x_n u)%nat.
  Local Notation ms := (m :: nil).
  Local Notation cs := (c :: nil).
  Local Notation pp := (multi_pipe eig u).

  Lemma one_inlet : n_inlets u = 1%nat.
  Proof. unfold n_inlets. destruct (x_kind u); auto. congruence. Qed.

  Section Segments.
  Variables (k : nat) (r : option (list R)).
  Hypothesis (SS : segment_shares k r).

  Lemma pipe_solved tin Tb : exists T, fluid_profile u ms cs k r (fun _ => tin) Tb T
    /\ fst (p_out pp m c k r) * tin + sumn k (fun l => snd (p_out pp m c k r) l * Tb l) = leaving u ms (fun i => T (up u ms i) 0) O
    /\ forall l, (l < k)%nat -> fst (p_qb pp m c k r) l * tin + sumn k (fun j => snd (p_qb pp m c k r) l j * Tb j) = leg_heat u ms cs k r T l.
  Proof.
    destruct (solved eig u _ _ k r Us Rm P HP SS EO (fun _ => tin) Tb) as (T & F & _ & _ & (o & Eo & Ho) & (h & Eh & Hh)). exists T. split; [auto|].
    cbn [multi_pipe p_out p_qb]. unfold q_outlet in Eo. unfold q_heat in Eh.
    destruct (m_outlet eig u ms cs k r) as [co|]; [|discriminate]. destruct (m_heat eig u ms cs k r) as [ch|]; [|discriminate].
    cbn [option_map] in *. injection Eo as <-. injection Eh as <-. unfold apply2, mx_vec in *. rewrite one_inlet in *. cbn [fst snd]. split.
    - rewrite <- Ho by lia. cbn [sumn]. ring.
    - intros l Hl. rewrite <- Hh by auto. cbn [sumn]. ring.
  Qed.

  Lemma multi_passive : pipe_passive pp m c k r.
  Proof.
    intros t tin Tb. cbv zeta. destruct (pipe_solved tin Tb) as (T & F & -> & Q).
    rewrite (sumn_ext k _ (fun l => (Tb l - t) * leg_heat u ms cs k r T l)) by (intros l Hl; rewrite Q by auto; auto).
    eapply Rle_trans; [|exact (leg_heat_passive u ms cs k r Us P HP SS t _ _ T F)].
    rewrite one_inlet. cbn [sumn]. unfold inlet_rate. cbn. lra.
  Qed.

  Lemma multi_neutral : pipe_neutral pp m c k r.
  Proof.
    destruct (pipe_solved 1 (fun _ => 1)) as (T & F & Ou & Q).
    assert (Un : forall p z, (p < N)%nat -> 0 <= z <= bH (x_b u) -> T p z = 1).
    { intros p z Hp Hz. exact (profile_unique u _ _ k r Us P HP SS _ _ _ _ F (profile_still u ms cs k r 1 _ _ (fun _ _ => eq_refl) (fun _ _ => eq_refl)) p z Hp Hz). }
    assert (Hn : (0 < n)%nat) by apply Us.
    split.
    - assert (L : leaving u ms (fun i => T (up u ms i) 0) O = 1).
      { unfold leaving. destruct (x_kind u) eqn:E.
        - rewrite (sumn_ext n _ (fun _ => 1)) by (intros i Hi; apply Un; [apply legs_lt; auto|lra]). rewrite sumn_const. field. apply not_0_INR. lia.
        - destruct (Rltb _ 0); apply Un; try lra; apply legs_lt; lia.
        - apply Un; [apply legs_lt; auto|lra]. }
      rewrite L in Ou. rewrite <- Ou, Rmult_1_r. f_equal. apply sumn_ext. intros; ring.
    - intros l Hl. specialize (Q l Hl). rewrite Rmult_1_r in Q. rewrite (sumn_ext k (fun j => snd (p_qb pp m c k r) l j * 1) (snd (p_qb pp m c k r) l)) in Q by (intros; ring).
      rewrite Q. unfold leg_heat, stream.
      assert (Z : forall j, (j <= k)%nat -> sumn n (fun i => tube_rate u ms cs i * (T (down u ms i) (depth_of (x_b u) k r j) - T (up u ms i) (depth_of (x_b u) k r j))) = 0);
        [|rewrite !Z by lia; ring].
      intros j Hj. pose proof (de_range (x_b u) k r HP SS j Hj). apply sumn_zero. intros i Hi. destruct (legs_lt u ms i Hi). rewrite !Un by auto. ring.
  Qed.

  Lemma multi_total tin Tb : sumn k (fun l => fst (p_qb pp m c k r) l * tin + sumn k (fun j => snd (p_qb pp m c k r) l j * Tb j))
    = fst (p_qf pp m c k r) * tin + sumn k (fun l => snd (p_qf pp m c k r) l * Tb l).
  Proof.
    destruct (pipe_solved tin Tb) as (T & F & Ou & Q). 
    transitivity (sumn k (leg_heat u ms cs k r T)); [apply sumn_ext; exact Q|].
    pose proof (leg_heat_total u ms cs k r Us SS _ _ T F) as X. rewrite X. clear X.
    unfold carried. rewrite one_inlet. cbn [sumn nth capacity_at]. rewrite <- Ou. unfold p_qf. destruct (p_out pp m c k r) as [a b]. cbn [fst snd].
    rewrite (sumn_ext k (fun l => Rabs m * c * b l * Tb l) (fun l => Rabs m * c * (b l * Tb l))) by (intros; ring). rewrite sumn_scal. ring.
  Qed.

  Lemma multi_balanced : pipe_balanced pp m c k r.
  Proof.
    split; [|intros l Hl].
    - pose proof (multi_total 1 (fun _ => 0)) as Q.
      rewrite (sumn_ext k _ (fst (p_qb pp m c k r))) in Q.
      2:{ intros j _. rewrite (sumn_zero k (fun l => _ * 0)); [ring|intros; ring]. }
      rewrite (sumn_zero k (fun l => _ * 0)) in Q by (intros; ring). lra.
    - pose proof (multi_total 0 (fun j => if Nat.eqb j l then 1 else 0)) as Q.
      rewrite (sumn_ext k _ (fun j => snd (p_qb pp m c k r) j l)) in Q.
      2:{ intros j _. rewrite (sumn_single k l) by
            (auto; intros i Hi Hne; replace (Nat.eqb i l) with false by (symmetry; apply Nat.eqb_neq; lia); ring).
          rewrite Nat.eqb_refl. ring. }
      rewrite (sumn_single k l (fun j => snd (p_qf pp m c k r) j * _)) in Q by
            (auto; intros i Hi Hne; replace (Nat.eqb i l) with false by (symmetry; apply Nat.eqb_neq; lia); ring).
      rewrite Nat.eqb_refl in Q. lra.
  Qed.

  Lemma rate_in : 0 < Rabs m * c.
  Proof.
    destruct Us as (_ & _ & _ & Q). rewrite one_inlet in Q. destruct (Q O ltac:(lia)) as [Q1 Q2]. cbn in Q1, Q2.
    apply Rmult_lt_0_compat; auto. apply Rabs_pos_lt. auto.
  Qed.

  (** the fluid forgets its inlet temperature on the way *)
  Lemma out_contracts : Rabs (fst (p_out pp m c k r)) < 1.
  Proof.
    destruct (pipe_solved 1 (fun _ => 0)) as (T & F & Ou & _). rewrite (sumn_zero k (fun l => _ * 0)) in Ou by (intros; ring).
    set (a := fst (p_out pp m c k r)) in *. replace (a * 1 + 0) with a in Ou by ring.
    destruct (Rlt_dec (a ^ 2) 1) as [L|L].
    { apply Rabs_def1; nra. }
    exfalso. destruct (profile_work u ms cs k r Us 0 _ _ T F) as [W0 WH]. rewrite one_inlet in W0. cbn [sumn] in W0. rewrite <- Ou in W0.
    assert (W : work u (down u ms) (up u ms) (tube_rate u ms cs) 0 T 0 <= 0).
    { eapply Rle_trans; [exact W0|]. unfold inlet_rate. cbn [nth capacity_at]. pose proof rate_in. nra. }
    assert (Hn : (0 < n)%nat) by apply Us.
    assert (Z : forall p, (p < N)%nat -> T p 0 = 0).
    { intros p Hp. destruct F as (A1 & A2 & A3 & A4).
      pose proof (de_0 (x_b u) k r SS) as D0. pose proof (de_k (x_b u) k r SS) as Dk.
      apply (zero_everywhere u (down u ms) (up u ms) (tube_rate u ms cs) P (legs_of u ms) k (depth_of (x_b u) k r) T); try (rewrite ?D0, ?Dk); auto; try lra.
      intros l Hl. apply de_step; auto. }
    destruct F as (_ & _ & A3 & _).
    assert (E : exists i, (i < n)%nat /\ entering u ms (fun _ => 1) (fun j => T (up u ms j) 0) i = 1).
    { unfold entering. destruct (x_kind u); [exists O; auto| |exists O; auto]. destruct (Rltb _ 0); [exists (n - 1)%nat; rewrite Nat.eqb_refl; split; [lia|auto]|exists O; auto]. }
    destruct E as [i [Hi E]]. rewrite <- A3 in E by auto. rewrite Z in E by (apply legs_lt; auto). lra.
  Qed.
  End Segments.

  Lemma effective : exists R, m_effective eig u ms cs = Some R /\ 0 < R
    /\ forall tin t, exists out h, q_outlet eig u (fun _ => tin) 1 (fun _ => t) ms cs None = Some out /\ q_heat eig u (fun _ => tin) 1 (fun _ => t) ms cs None = Some h
       /\ h O * R = bH (x_b u) * (t - (tin + out O) / 2).
  Proof.
    assert (S1 : segment_shares 1 None) by (cbn; lia).
    pose proof (out_contracts 1 None S1) as CT. pose proof (multi_neutral 1 None S1) as [N1 N2]. pose proof (multi_balanced 1 None S1) as [B1 _].
    pose proof (rate_in) as RI. specialize (N2 O ltac:(lia)).
    unfold m_effective, q_outlet, q_heat. rewrite one_inlet. cbn [Nat.eqb].
    unfold p_qf in B1. cbn [multi_pipe p_out p_qb] in *. 
    destruct (solved eig u _ _ 1 None Us Rm P HP S1 EO (fun _ => 0) (fun _ => 0)) as (_ & _ & _ & _ & (o & Eo & _) & (h & Eh & _)).
    unfold q_outlet in Eo. unfold q_heat in Eh.
    destruct (m_outlet eig u ms cs 1 None) as [co|]; [|discriminate]. destruct (m_heat eig u ms cs 1 None) as [ch|]; [|discriminate]. clear Eo Eh.
    cbn [fst snd sumn] in *. set (a := fst co O O) in *. set (q := fst ch O O) in *.
    assert (Q : q = - (Rabs m * c) * (1 - a)) by lra. apply Rabs_def2 in CT. destruct CT as [C1 C2].
    assert (Pq : 0 < (Rabs m * c) * (1 - a)) by (apply Rmult_lt_0_compat; lra).
    set (M := Rabs m * c) in *. clearbody M.
    eexists. split; [reflexivity|]. split.
    - rewrite Q. replace (- (1 / 2) * bH (x_b u) * (1 + a) / (- M * (1 - a))) with (1/2 * bH (x_b u) * (1 + a) / (M * (1 - a))) by (field; lra).
      apply Rdiv_lt_0_compat; auto. apply Rmult_lt_0_compat; [|lra]. lra.
    - intros tin t. eexists. eexists. split; [reflexivity|]. split; [reflexivity|]. unfold apply2, mx_vec. rewrite one_inlet. cbn [sumn]. fold a q.
      assert (E1 : snd co O O = 1 - a) by lra. assert (E2 : snd ch O O = - q) by lra. rewrite E1, E2.
      replace (0 + q * tin + (0 + - q * t)) with (q * (tin - t)) by ring.
      assert (q <> 0) by lra. field. auto.
  Qed.
End Net.
