(** The general solution of the differential equations with the wall temperatures. *)
From Coq Require Import Psatz.
From Coquelicot Require Import Coquelicot.
From Verif Require Import Base LinAlg LinInv Bore_Model Pipe_Proofs Multi_Model Multi_Spec Multi_Ode_Proofs.
Local Open Scope R_scope.

Section General.
  Variables (N : nat) (A : Mx) (s : spectrum) (a : nat -> R) (k : nat) (ed : list R).
  Hypothesis (D : decomposes N A s).
  Hypothesis (L : forall j, (j < N)%nat -> s_L s j <> RtoC 0).
  Hypothesis (E0 : nth 0 ed 0 = 0).
  Hypothesis (E1 : forall l, (l < k)%nat -> nth l ed 0 <= nth (S l) ed 0).

  Lemma edges_mono i j : (i <= j <= k)%nat -> nth i ed 0 <= nth j ed 0.
  Proof. intros [H M]. induction H as [|j H IH]; [lra|]. specialize (IH ltac:(lia)). specialize (E1 j ltac:(lia)). lra. Qed.

  Definition general (T0 Tb : nat -> R) (z : R) (i : nat) : R :=
    sumn N (fun j => a_f0 N s z i j * T0 j) + sumn k (fun l => a_b N s a ed z i l * Tb l).

  Lemma general_0 T0 Tb i : (i < N)%nat -> general T0 Tb 0 i = T0 i.
  Proof.
    intros Hi. unfold general. rewrite (sumn_ext N _ (fun j => id_mx i j * T0 j)).
    - rewrite sumn_id by auto. rewrite (sumn_zero k); [ring|]. intros l Hl. rewrite a_b_modes.
      assert (Z : forall j, (j <= k)%nat -> dz 0 (nth j ed 0) = 0).
      { intros j Hj. unfold dz. pose proof (edges_mono 0 j ltac:(lia)). rewrite Rmax_right by lra. auto. }
      rewrite !Z by lia. ring.
    - intros j Hj. rewrite (a_f0_zero N A) by auto. auto.
  Qed.

  Lemma dz_continuous w z : continuous (fun z => dz z w) z.
  Proof.
    apply (continuous_ext (fun z => 1/2 * (z - w + Rabs (z - w)))).
    - intros x. unfold dz. destruct (Rle_dec 0 (x - w)).
      + rewrite Rabs_pos_eq, Rmax_left by lra. match goal with |- ?a = ?b => change (@eq R a b) end. lra.
      + rewrite Rabs_left, Rmax_right by lra. match goal with |- ?a = ?b => change (@eq R a b) end. lra.
    - assert (C : continuous (fun z => z - w) z) by (apply (ex_derive_continuous (fun z : R => z - w)); auto_derive; auto).
      apply (continuous_mult (fun _ => 1/2) (fun z => z - w + Rabs (z - w))); [apply continuous_const|].
      apply (continuous_plus (fun z => z - w) (fun z => Rabs (z - w))); [auto|]. apply (continuous_comp (fun z => z - w) Rabs); [auto|apply continuous_Rabs].
  Qed.

  Lemma modes_continuous c i z : (i < N)%nat -> continuous (fun z => modes N s c z i) z.
  Proof. intros Hi. apply (ex_derive_continuous (fun z => modes N s c z i)). eexists. apply (modes_derive N A s D); auto. Qed.

  Lemma general_continuous T0 Tb i z : (i < N)%nat -> continuous (fun z => general T0 Tb z i) z.
  Proof.
    intros Hi. unfold general.
    apply (continuous_plus (fun z => sumn N (fun j => a_f0 N s z i j * T0 j)) (fun z => sumn k (fun l => a_b N s a ed z i l * Tb l))).
    - apply (continuous_sumn N (fun j z => a_f0 N s z i j * T0 j)). intros j Hj.
      apply (continuous_mult (fun z => a_f0 N s z i j) (fun _ => T0 j)); [|apply continuous_const].
      apply (continuous_ext (fun z => modes N s (unit_mode s j) z i)); [intros; rewrite a_f0_modes; auto|]. apply modes_continuous; auto.
    - apply (continuous_sumn k (fun l z => a_b N s a ed z i l * Tb l)). intros l Hl.
      apply (continuous_mult (fun z => a_b N s a ed z i l) (fun _ => Tb l)); [|apply continuous_const].
      apply (continuous_ext (fun z => modes N s (wall_mode N s a) (dz z (nth (S l) ed 0)) i - modes N s (wall_mode N s a) (dz z (nth l ed 0)) i)); [intros; rewrite a_b_modes; auto|].
      apply (continuous_minus (fun z => modes N s (wall_mode N s a) (dz z (nth (S l) ed 0)) i) (fun z => modes N s (wall_mode N s a) (dz z (nth l ed 0)) i)).
      + apply (continuous_comp (fun z => dz z (nth (S l) ed 0)) (fun y => modes N s (wall_mode N s a) y i)); [apply dz_continuous|apply modes_continuous; auto].
      + apply (continuous_comp (fun z => dz z (nth l ed 0)) (fun y => modes N s (wall_mode N s a) y i)); [apply dz_continuous|apply modes_continuous; auto].
  Qed.

  (** derivative of one of the terms of the wall *)
  Lemma wall_derive w z i : (i < N)%nat -> z <> w ->
    is_derive (fun z => modes N s (wall_mode N s a) (dz z w) i) z
      (sumn N (fun j => A i j * modes N s (wall_mode N s a) (dz z w) j) - (if Rltb z w then a i else 0)).
  Proof.
    intros Hi Hz. destruct (Rltb z w) eqn:Lt.
    - apply Rltb_true in Lt. assert (Z : dz z w = 0) by (unfold dz; apply Rmax_right; lra).
      rewrite Z, (wall_source N A s D) by auto. replace (a i - a i) with 0 by ring.
      apply (is_derive_ext_loc (fun _ => modes N s (wall_mode N s a) 0 i)); [|apply (is_derive_const (V := R_NormedModule))].
      generalize (open_lt w z Lt). apply filter_imp. intros y Hy. unfold dz. rewrite Rmax_right by lra. auto.
    - apply Rltb_false in Lt. assert (Gt : w < z) by lra. rewrite Rminus_0_r.
      assert (Z : dz z w = z - w) by (unfold dz; apply Rmax_left; lra). rewrite Z.
      apply (is_derive_ext_loc (fun z => modes N s (wall_mode N s a) (z - w) i)).
      + generalize (open_gt w z Gt). apply filter_imp. intros y Hy. unfold dz. rewrite Rmax_left by lra. auto.
      + pose proof (modes_derive N A s D (wall_mode N s a) (z - w) i Hi) as Dm.
        assert (Dw : is_derive (fun z => z - w) z 1) by (auto_derive; auto; ring).
        pose proof (is_derive_comp (fun y => modes N s (wall_mode N s a) y i) (fun z => z - w) z _ _ Dm Dw) as Y.
        replace (sumn N (fun j => A i j * modes N s (wall_mode N s a) (z - w) j)) with (scal 1 (sumn N (fun j => A i j * modes N s (wall_mode N s a) (z - w) j))).
        * exact Y.
        * unfold scal; cbn; unfold mult; cbn. ring.
  Qed.

  Lemma general_derive T0 Tb l z i : (i < N)%nat -> (l < k)%nat -> nth l ed 0 < z < nth (S l) ed 0 ->
    is_derive (fun z => general T0 Tb z i) z (sumn N (fun j => A i j * general T0 Tb z j) - a i * Tb l).
  Proof.
    intros Hi Hl Hz.
    assert (B : forall p, (p <= k)%nat -> z <> nth p ed 0 /\ Rltb z (nth p ed 0) = Nat.ltb l p).
    { intros p Hp. destruct (Nat.ltb_spec l p) as [G|G].
      - pose proof (edges_mono (S l) p ltac:(lia)). split; [lra|]. apply Rltb_true. lra.
      - pose proof (edges_mono p l ltac:(lia)). split; [lra|]. apply Rltb_false. lra. }
    assert (W : forall l', (l' < k)%nat -> is_derive (fun z => a_b N s a ed z i l' * Tb l') z
      ((sumn N (fun j => A i j * a_b N s a ed z j l') - (if Nat.eqb l' l then a i else 0)) * Tb l')).
    { intros l' Hl'. destruct (B l' ltac:(lia)) as [N1 R1]. destruct (B (S l') ltac:(lia)) as [N2 R2].
      pose proof (wall_derive _ z i Hi N1) as D1. pose proof (wall_derive _ z i Hi N2) as D2. rewrite R1 in D1. rewrite R2 in D2.
      apply (is_derive_ext (fun z => (modes N s (wall_mode N s a) (dz z (nth (S l') ed 0)) i - modes N s (wall_mode N s a) (dz z (nth l' ed 0)) i) * Tb l')).
      - intros t. rewrite a_b_modes. auto.
      - pose proof (is_derive_minus _ _ z _ _ D2 D1) as D3. apply (is_derive_scal_l _ z _ (Tb l')) in D3.
        match type of D3 with is_derive _ _ ?x => match goal with |- is_derive _ _ ?y => replace y with x; [exact D3|] end end.
        match goal with |- scal (minus ?x ?y) ?t = _ => change (scal (minus x y) t) with ((x - y) * t) end. f_equal.
        rewrite (sumn_ext N (fun j => A i j * a_b N s a ed z j l') (fun j => A i j * modes N s (wall_mode N s a) (dz z (nth (S l') ed 0)) j - A i j * modes N s (wall_mode N s a) (dz z (nth l' ed 0)) j))
          by (intros; rewrite a_b_modes; ring).
        rewrite sumn_minus. destruct (Nat.eqb_spec l' l) as [->|Ne].
        + destruct (Nat.ltb_spec l (S l)); [|lia]. destruct (Nat.ltb_spec l l); [lia|]. ring.
        + destruct (Nat.ltb_spec l (S l')), (Nat.ltb_spec l l'); try lia; ring. }
    pose proof (is_derive_sumn k (fun l' z => a_b N s a ed z i l' * Tb l') _ z W) as DW.
    assert (X : forall j, (j < N)%nat -> is_derive (fun z => a_f0 N s z i j * T0 j) z (sumn N (fun q => A i q * a_f0 N s z q j) * T0 j)).
    { intros j Hj. pose proof (a_f0_derive N A s D z i j Hi) as DX. apply (is_derive_scal_l _ z _ (T0 j)) in DX. exact DX. }
    pose proof (is_derive_sumn N (fun j z => a_f0 N s z i j * T0 j) _ z X) as DX.
    pose proof (is_derive_plus _ _ z _ _ DX DW) as DP. unfold general.
    match type of DP with is_derive _ _ ?x => match goal with |- is_derive _ _ ?y => replace y with x; [exact DP|] end end.
    match goal with |- plus ?x ?y = _ => change (plus x y) with (x + y) end.
    assert (S1 : sumn N (fun j => A i j * (sumn N (fun q => a_f0 N s z j q * T0 q) + sumn k (fun q => a_b N s a ed z j q * Tb q)))
      = sumn N (fun q => sumn N (fun j => A i j * a_f0 N s z j q) * T0 q) + sumn k (fun q => sumn N (fun j => A i j * a_b N s a ed z j q) * Tb q)).
    { rewrite (sumn_ext N _ (fun j => A i j * sumn N (fun q => a_f0 N s z j q * T0 q) + A i j * sumn k (fun q => a_b N s a ed z j q * Tb q))) by (intros; ring).
      rewrite sumn_plus. f_equal.
      - rewrite (sumn_ext N (fun j => A i j * _) (fun j => sumn N (fun q => A i j * a_f0 N s z j q * T0 q))) by (intros; rewrite <- sumn_scal; apply sumn_ext; intros; ring).
        rewrite sumn_swap. apply sumn_ext. intros q Hq. apply sumn_scal_r.
      - rewrite (sumn_ext N (fun j => A i j * _) (fun j => sumn k (fun q => A i j * a_b N s a ed z j q * Tb q))) by (intros; rewrite <- sumn_scal; apply sumn_ext; intros; ring).
        rewrite sumn_swap. apply sumn_ext. intros q Hq. apply sumn_scal_r. }
    rewrite S1.
    rewrite (sumn_ext k (fun i0 => (sumn N (fun j => A i j * a_b N s a ed z j i0) - _) * Tb i0)
               (fun q => sumn N (fun j => A i j * a_b N s a ed z j q) * Tb q - (if Nat.eqb q l then a i else 0) * Tb q)) by (intros; ring).
    rewrite sumn_minus. rewrite (sumn_single k l (fun q => (if Nat.eqb q l then a i else 0) * Tb q)).
    - rewrite Nat.eqb_refl. match goal with |- ?a = ?b => change (@eq R a b) end. ring.
    - auto.
    - intros q Hq Ne. destruct (Nat.eqb_spec q l); [contradiction|]. ring.
  Qed.
End General.
