(** Uniform wall temperature with equivalent boreholes of a symmetric field. *)
From Verif Require Import Base TimeGrid_Spec LinAlg FLS_Model FLS_Sol_Proofs FLS_Line_Proofs.
From Verif Require Import Bore_Model Bore_Spec UniqueDist_Proofs Net_Model Solve_Model Solve_Spec Solve_Sol_Proofs Detailed_Model Detailed_Spec Detailed_Proofs Detailed_Sol_Proofs
  Sim_Model Sim_Spec Sim_Cells_Proofs Sim_Exact_Proofs Eq_Model Eq_Spec Eq_Group_Proofs Eq_Cluster_Proofs Eq_Dist_Proofs Eq_Field_Proofs Eq_Block_Proofs Eq_Main_Proofs Eq_Heat_Proofs Eq_Lump_Proofs.
From Coq Require Import Permutation.

Lemma Rsum_perm l l' : Permutation l l' -> Rsum l = Rsum l'.
Proof. induction 1; cbn [Rsum]; try lra. Qed.

Section Sym.
  Variables (tol disTol u M : R) (bs : list bore) (ls : list nat) (E : list ebore) (n : nat) (r : list R) (alpha : R).
  Local Notation nB := (length bs).
  Local Notation nE := (length E).
  Local Notation b_ k := (nth k bs no_bore).
  Local Notation ks i := (owners ls nB i).
  Local Notation ns := (repeat n nB).
  Local Notation rs := (repeat r nB).
  Hypothesis Ga : gathers bs ls E.
  Hypothesis Sd : forall p q, (p < nB)%nat -> (q < nB)%nat -> nth p ls O = nth q ls O -> same_dims (b_ p) (b_ q).
  Hypothesis Vf : vertical_field bs.
  Hypothesis Lr : length r = n.
  Hypothesis Gr : good_ratios [r].
  Hypothesis Og : Sim_Spec.on_grid tol u M bs ns rs.
  Hypothesis Rd : radii_apart tol bs.
  Hypothesis Lev : level bs.
  Hypothesis Nb : (0 < nB)%nat.
  Hypothesis Hd : 0 < disTol.
  Hypothesis Sp : spaced disTol bs.
  Hypothesis Ap : distances_apart disTol bs.
  Hypothesis Ha : 0 < alpha.
  Hypothesis Eqt : equitable ls bs.
  Variable dis : list R.
  Hypothesis Ed : field_distances disTol bs = Some dis.

  Local Notation mat t := (eq_matrix tol E n r dis (kernel_e alpha t) (kernel_v alpha t)).
  Local Notation sg := (sg bs n r).
  Local Notation dm t uw := (detailed_matrix (line_kernel alpha t uw) bs ns rs).

  Lemma n_pos : (0 < n)%nat.
  Proof. destruct (Gr r (or_introl eq_refl)) as [S _]. destruct r; [cbn in S; lra|]. cbn in Lr. lia. Qed.

  Lemma row_same t uw i y y' a b : (i < nE)%nat -> (y < nB)%nat -> (y' < nB)%nat -> nth y ls O = nth y' ls O -> (a < n)%nat -> (b < n)%nat ->
    Rsum (map (fun x => dm t uw (n * y + b)%nat (n * x + a)%nat) (ks i)) = Rsum (map (fun x => dm t uw (n * y' + b)%nat (n * x + a)%nat) (ks i)).
  Proof.
    intros Hi Hy Hy' El Aa Bb. pose proof (in_owner bs ls n r Lr Nb) as IO. destruct (e_head bs ls E n r Ga Sd Vf Lr Nb i Hi) as [x0 I0]. pose proof I0 as J0. apply IO in J0. destruct J0 as [X0 L0].
    set (F d := fls t alpha (Rmax d (br (b_ x0))) (bH (sg x0 a)) (bD (sg x0 a)) (bH (sg y b)) (bD (sg y b)) true true).
    destruct (proj1 Vf (b_ y) (nth_In _ _ Hy)) as [Ty _]. destruct (proj1 Vf (b_ y') (nth_In _ _ Hy')) as [Ty' _]. destruct (proj1 Vf (b_ x0) (nth_In _ _ X0)) as [Tx0 _].
    assert (Sz : forall z z' a, (z < nB)%nat -> (z' < nB)%nat -> nth z ls O = nth z' ls O -> (a < n)%nat -> bH (sg z a) = bH (sg z' a) /\ bD (sg z a) = bD (sg z' a)).
    { intros z z' a0 Hz Hz' Ez Ha0. destruct (Sd z z' Hz Hz' Ez) as [S1 [S2 _]]. destruct (proj1 Vf (b_ z) (nth_In _ _ Hz)) as [Tz _]. destruct (proj1 Vf (b_ z') (nth_In _ _ Hz')) as [Tz' _].
      destruct (bore_seg_nth (b_ z) n r a0 Tz ltac:(lia)) as [Q1 Q2]. destruct (bore_seg_nth (b_ z') n r a0 Tz' ltac:(lia)) as [Q3 Q4]. unfold Eq_Main_Proofs.sg. rewrite Q1, Q2, Q3, Q4, S1, S2. auto. }
    assert (One : forall z, (z < nB)%nat -> nth z ls O = nth y ls O -> Rsum (map (fun x => dm t uw (n * z + b)%nat (n * x + a)%nat) (ks i)) = Rsum (map F (map (fun x => planar (b_ x) (b_ z)) (ks i)))).
    { intros z Hz Ez. rewrite map_map. apply Rsum_ext_in. intros x Ix. apply IO in Ix. destruct Ix as [X1 X2].
      rewrite (detailed_at tol u M bs n r alpha t Vf Lr Gr Og Nb uw x z a b X1 Hz Aa Bb).
      unfold response. rewrite (place_distance _ _ _ _ (sg_place bs n r Vf Lr Nb x a X1 Aa) (sg_place bs n r Vf Lr Nb z b Hz Bb)). unfold F.
      destruct (Sd x x0 X1 X0 ltac:(congruence)) as [_ [_ S3]]. destruct (Sz x x0 a X1 X0 ltac:(congruence) Aa) as [-> ->]. destruct (Sz z y b Hz Hy Ez Bb) as [-> ->]. rewrite S3. auto. }
    rewrite (One y Hy eq_refl), (One y' Hy' (eq_sym El)). apply Rsum_perm, Permutation_map, Eqt; auto.
  Qed.

  Definition class (k : nat) : nat := (n * nth (k / n) ls O + k mod n)%nat.
  Lemma class_at y b : (b < n)%nat -> class (n * y + b) = (n * nth y ls O + b)%nat.
  Proof.
    intros Hb. pose proof n_pos. unfold class. rewrite (Nat.mul_comm n y), Nat.div_add_l by lia. rewrite (Nat.div_small b n) by auto. rewrite Nat.add_comm, Nat.add_0_r. rewrite (Nat.add_comm (y * n) b), Nat.mod_add by lia. rewrite Nat.mod_small by auto. lia.
  Qed.
  Lemma split_index k m : (k < n * m)%nat -> exists y b, (y < m)%nat /\ (b < n)%nat /\ k = (n * y + b)%nat.
  Proof.
    intros Hk. pose proof n_pos. exists (k / n)%nat, (k mod n)%nat. split; [apply Nat.div_lt_upper_bound; lia|]. split; [apply Nat.mod_upper_bound; lia|apply Nat.div_mod; lia].
  Qed.
  Lemma label_lt y : (y < nB)%nat -> (nth y ls O < nE)%nat. Proof. apply Ga. Qed.

  Lemma class_sum f i a : (i < nE)%nat -> (a < n)%nat -> cls (n * nB) class f (n * i + a) = Rsum (map (fun x => f (n * x + a)%nat) (ks i)).
  Proof.
    intros Hi Hx. unfold cls. rewrite sumn_blocks. rewrite (sumn_ext nB _ (fun x => if Nat.eqb (nth x ls O) i then f (n * x + a)%nat else 0)).
    - rewrite <- Rsum_seq. unfold owners. rewrite Rsum_filter. auto.
    - intros x X. rewrite (sumn_single n a); auto.
      + rewrite class_at by auto. destruct (Nat.eqb_spec (nth x ls O) i) as [->|Q]; [rewrite Nat.eqb_refl; auto|]. destruct (Nat.eqb_spec (n * nth x ls O + a) (n * i + a)) as [Z|Z]; auto.
        assert (nth x ls O = i) by nia. contradiction.
      + intros c Hc Nc. rewrite class_at by auto. destruct (Nat.eqb_spec (n * nth x ls O + c) (n * i + a)) as [Z|Z]; auto. destruct (cell_inj n (nth x ls O) c i a Hc Hx Z). contradiction.
  Qed.

  Lemma lengths_cls i : (i < n * nE)%nat -> cls (n * nB) class (segment_length bs ns rs) i = eq_lengths E n r i.
  Proof.
    intros Hi. destruct (split_index i nE Hi) as [j [b [Hj [Hb ->]]]]. rewrite class_sum by auto. destruct (e_head bs ls E n r Ga Sd Vf Lr Nb j Hj) as [y0 I0].
    pose proof (length_at bs ls E n r Ga Sd Vf Lr Nb) as LA. rewrite (LA j b y0 Hj Hb I0).
    assert (Cst : forall l, (forall y, In y l -> In y (ks j)) -> Rsum (map (fun y => segment_length bs ns rs (n * y + b)%nat) l) = bH (sg y0 b) * INR (length l)); [|apply Cst; auto].
    induction l as [|y l IH]; intros Q; [cbn; ring|]. cbn [map length]. rewrite S_INR. cbn [Rsum]. rewrite IH by (intros z I; apply Q; right; auto). assert (Iy : In y (ks j)) by (apply Q; left; auto).
    pose proof Iy as Jy. apply (in_owner bs ls n r Lr Nb) in Jy. destruct Jy as [Y1 Y2].
    unfold segment_length. change (bore_segments bs ns rs) with (borehole_segments bs ns rs). change (Bore 0 0 0 0 0 0 0) with no_bore. rewrite (seg_at bs n r Lr Nb) by auto.
    pose proof (LA j b y Hj Hb Iy) as Q1. rewrite (LA j b y0 Hj Hb I0) in Q1.
    assert (Pj : 0 < INR (length (ks j))) by (apply lt_0_INR; destruct (ks j); [destruct I0|cbn; lia]). apply Rmult_eq_reg_r in Q1; [rewrite Q1; ring|lra].
  Qed.

  Definition eresp : nat -> nat -> R -> R := fun i j t => match mat t with Some m => m i j | None => 0 end.
  Definition dresp (uw : list (R * R)) : nat -> nat -> R -> R := fun i j t => dm t uw i j.

  Lemma resp_cls uw t y i : 0 < t -> (y < n * nB)%nat -> (i < n * nE)%nat -> cls (n * nB) class (fun x => dresp uw y x t) i = eresp (class y) i t.
  Proof.
    intros Ht Hy Hi. destruct (split_index i nE Hi) as [i' [a [Hi' [Hx ->]]]]. destruct (split_index y nB Hy) as [y' [b [Hy' [Hb ->]]]]. rewrite class_sum, class_at by auto.
    destruct (matrix_exact tol disTol u M bs ls E n r alpha t Ga Sd Vf Lr Gr Og Rd Lev Nb Hd Sp Ha Ht dis uw Ed Ap) as [m [Em V]]. unfold eresp. rewrite Em.
    pose proof (label_lt y' Hy') as Hl. rewrite V by auto. unfold block_mean. set (j := nth y' ls O) in *.
    assert (Pj : 0 < INR (length (ks j))). { destruct (e_head bs ls E n r Ga Sd Vf Lr Nb j Hl) as [z I]. apply lt_0_INR. destruct (ks j); [destruct I|cbn; lia]. }
    assert (Cst : forall l, (forall z, In z l -> In z (ks j)) -> Rsum (map (fun z => Rsum (map (fun x => dm t uw (n * z + b)%nat (n * x + a)%nat) (ks i'))) l)
      = INR (length l) * Rsum (map (fun x => dm t uw (n * y' + b)%nat (n * x + a)%nat) (ks i'))).
    { induction l as [|z l IH]; intros Q; [cbn; ring|]. cbn [map length]. rewrite S_INR. cbn [Rsum]. rewrite IH by (intros z' I; apply Q; right; auto). pose proof (Q z (or_introl eq_refl)) as Iz. apply (in_owner bs ls n r Lr Nb) in Iz. destruct Iz as [Z1 Z2].
      rewrite (row_same t uw i' z y' a b Hi' Z1 Hy' Z2 Hx Hb). ring. }
    rewrite Cst by auto. unfold dresp. field. lra.
  Qed.

  Lemma ubwt_equivalent uw time Q g : grid time -> solve_ubwt (n_sources bs ns rs) (segment_length bs ns rs) (detailed_trf alpha uw bs ns rs) time 0 = Some (Q, g) ->
    exists Q', solve_ubwt (n * nE) (eq_lengths E n r) (fun tl i j p => match mat (nth p tl 0) with Some m => m i j | None => 0 end) time 0 = Some (Q', g) /\
      forall p y b, (p < length time)%nat -> (y < nB)%nat -> (b < n)%nat -> nth p Q zero_vec (n * y + b)%nat = nth p Q' zero_vec (n * nth y ls O + b)%nat.
  Proof.
    intros Gt Es. pose proof (segmented_all bs n r Lr) as W. pose proof n_pos as Pn.
    assert (NS : n_sources bs ns rs = (n * nB)%nat). { unfold n_sources. change (bore_segments bs ns rs) with (borehole_segments bs ns rs). rewrite (proj1 (segments_all bs ns rs W)), (sum_all bs n r Lr Nb). auto. }
    rewrite NS in Es. change (detailed_trf alpha uw bs ns rs) with (Solve_Spec.on_grid (dresp uw)) in Es.
    destruct (lump_ubwt (n * nB) (n * nE) class (segment_length bs ns rs) (eq_lengths E n r) (dresp uw) eresp time) with (Q := Q) (g := g) as [Q' [E' L']]; auto.
    - intros x Hx. destruct (split_index x nB Hx) as [y [b [Hy [Hb ->]]]]. rewrite class_at by auto. pose proof (label_lt y Hy). nia.
    - intros i Hi. destruct (split_index i nE Hi) as [j [b [Hj [Hb ->]]]]. destruct (e_head bs ls E n r Ga Sd Vf Lr Nb j Hj) as [y Iy]. apply (in_owner bs ls n r Lr Nb) in Iy. destruct Iy as [Y1 Y2].
      exists (n * y + b)%nat. split; [nia|]. rewrite class_at by auto. congruence.
    - intros t y i It Hy Hi. apply resp_cls; auto. apply (proj1 (grid_positive time Gt)); auto.
    - intros i Hi. apply lengths_cls; auto.
    - nia.
    - exists Q'. split; [exact E'|]. intros p y b Hp Hy Hb. rewrite <- (class_at y b Hb). apply L'; auto. nia.
  Qed.
End Sym.
