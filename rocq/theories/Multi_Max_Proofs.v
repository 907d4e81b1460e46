(** Temperatures stay between those of the inlets and of the wall. *)
From Coq Require Import Psatz.
From Coquelicot Require Import Coquelicot.
From Verif Require Import Base LinAlg LinInv Bore_Model Bore_Proofs Pipe_Proofs Pipe_Unique_Proofs Multi_Model Multi_Spec Multi_Ode_Proofs Multi_Profile_Proofs Multi_Energy_Proofs Multi_Setup_Proofs Multi_Main_Proofs.
Local Open Scope R_scope.

Lemma positive_passive u : positive_circuit u -> passive_circuit u.
Proof.
  intros C. split.
  - intros p q Hp Hq. destruct (C p q Hp Hq). split; auto. lra.
  - intros x [p [Hp Nz]]. unfold dissipation.
    assert (Cp : forall p q, (p < 2 * x_n u)%nat -> (q < 2 * x_n u)%nat -> 0 < conductance u p q).
    { intros a b Ha Hb. unfold conductance. apply Rdiv_lt_0_compat; [lra|]. apply C; auto. }
    assert (0 < sumn (2 * x_n u) (fun p => conductance u p p * x p ^ 2)).
    { apply Rlt_le_trans with (sumn (2 * x_n u) (fun q => if Nat.eqb q p then conductance u p p * x p ^ 2 else 0)).
      - rewrite (sumn_single (2 * x_n u) p); auto.
        + rewrite Nat.eqb_refl. apply Rmult_lt_0_compat; [auto|]. assert (0 < Rabs (x p)) by (apply Rabs_pos_lt; auto). rewrite <- (pow2_abs (x p)). nra.
        + intros q Hq Ne. replace (Nat.eqb q p) with false by (symmetry; apply Nat.eqb_neq; auto). auto.
      - apply sumn_le. intros q Hq. destruct (Nat.eqb q p) eqn:E; [apply Nat.eqb_eq in E; subst; lra|]. specialize (Cp q q Hq Hq). pose proof (pow2_ge_0 (x q)). nra. }
    assert (0 <= sumn (2 * x_n u) (fun p => sumn (2 * x_n u) (fun q => if Nat.eqb q p then 0 else conductance u p q * (x q - x p) ^ 2))); [|lra].
    apply sumn_nonneg. intros a Ha. apply sumn_nonneg. intros b Hb. destruct (Nat.eqb b a); [lra|]. specialize (Cp a b Ha Hb). pose proof (pow2_ge_0 (x b - x a)). nra.
Qed.

Lemma sumn_nonpos n f : (forall i, (i < n)%nat -> f i <= 0) -> sumn n f <= 0.
Proof.
  intros F. pose proof (sumn_nonneg n (fun i => - f i)) as S. rewrite sumn_opp in S. cut (0 <= - sumn n f); [lra|]. apply S. intros i Hi. specialize (F i Hi). lra.
Qed.

Definition pp (x : R) : R := Rmax x 0.
Lemma pp_nonneg x : 0 <= pp x. Proof. apply Rmax_r. Qed.
Lemma pp_pos x : 0 <= x -> pp x = x. Proof. intros. apply Rmax_left; auto. Qed.
Lemma pp_neg x : x <= 0 -> pp x = 0. Proof. intros. apply Rmax_right; auto. Qed.
Lemma pp_zero x : pp x = 0 -> x <= 0. Proof. intros E. pose proof (Rmax_l x 0). unfold pp in E. lra. Qed.
Lemma pp_self x : pp x * x = pp x ^ 2.
Proof. destruct (Rle_dec 0 x); [rewrite pp_pos by auto|rewrite pp_neg by lra]; ring. Qed.
Lemma pp_mono x y : 0 <= (pp x - pp y) * (x - y).
Proof.
  unfold pp. destruct (Rle_dec 0 x), (Rle_dec 0 y).
  - rewrite !Rmax_left by lra. exact (Rle_0_sqr (x - y)).
  - rewrite (Rmax_left x), (Rmax_right y) by lra. apply Rmult_le_pos; lra.
  - rewrite (Rmax_right x), (Rmax_left y) by lra. replace ((0 - y) * (x - y)) with (y * (y - x)) by ring. apply Rmult_le_pos; lra.
  - rewrite !Rmax_right by lra. lra.
Qed.
Lemma pp_continuous x : continuous pp x.
Proof. apply (dz_continuous 0 x) || (apply (continuous_ext (fun z => dz z 0)); [intros; unfold dz, pp; f_equal; ring|apply dz_continuous]). Qed.

Lemma pp2_derive x : is_derive (fun x => pp x ^ 2) x (2 * pp x).
Proof.
  destruct (Rtotal_order x 0) as [L|[E|G]].
  - rewrite pp_neg by lra. replace (2 * 0) with 0 by ring. apply (is_derive_ext_loc (fun _ => 0)).
    + generalize (open_lt 0 x L). apply filter_imp. intros y Hy. rewrite pp_neg by lra. match goal with |- ?a = ?b => change (@eq R a b) end. ring.
    + apply (is_derive_const (V := R_NormedModule)).
  - subst x. rewrite pp_neg by lra. replace (2 * 0) with 0 by ring. apply is_derive_Reals. intros eps He. exists (mkposreal eps He). cbn. intros h Hh Hl.
    rewrite Rplus_0_l, (pp_neg 0) by lra. destruct (Rle_dec 0 h).
    + rewrite pp_pos by auto. replace ((h * (h * 1) - 0 * (0 * 1)) / h - 0) with h by (field; auto). auto.
    + rewrite pp_neg by lra. replace ((0 * (0 * 1) - 0 * (0 * 1)) / h - 0) with 0 by (field; auto). rewrite Rabs_R0. auto.
  - rewrite pp_pos by lra. apply (is_derive_ext_loc (fun x => x ^ 2)).
    + generalize (open_gt 0 x G). apply filter_imp. intros y Hy. rewrite pp_pos by lra. auto.
    + replace (2 * x) with (2 * x * 1) by ring. apply (sq_derive (fun x => x)). apply (is_derive_id (K := R_AbsRing)).
Qed.

Section Max.
  Variables (u : multi) (m cp : list R) (k : nat) (r : option (list R)).
  Hypothesis (Us : usable u m cp) (C : positive_circuit u) (HP : 0 < bH (x_b u)) (SS : segment_shares k r).
  Local Notation n := (x_n u).
  Local Notation N := (2 * x_n u)%nat.
  Local Notation dn := (down u m).
  Local Notation up := (up u m).
  Local Notation M := (tube_rate u m cp).
  Local Notation H := (bH (x_b u)).
  Let P := positive_passive u C.

  Lemma cpos p q : (p < N)%nat -> (q < N)%nat -> 0 < conductance u p q.
  Proof. intros Hp Hq. unfold conductance. apply Rdiv_lt_0_compat; [lra|]. apply C; auto. Qed.

  Lemma exchange_pp x : sumn N (fun p => pp (x p) * sumn N (fun q => if Nat.eqb q p then 0 else conductance u p q * (x q - x p))) <= 0.
  Proof.
    set (S := sumn _ _).
    assert (E1 : S = sumn N (fun p => sumn N (fun q => if Nat.eqb q p then 0 else conductance u p q * (x q - x p) * pp (x p)))).
    { unfold S. apply sumn_ext. intros p Hp. rewrite <- sumn_scal. apply sumn_ext. intros q Hq. destruct (Nat.eqb q p); ring. }
    assert (E2 : S = sumn N (fun p => sumn N (fun q => if Nat.eqb q p then 0 else conductance u p q * (x p - x q) * pp (x q)))).
    { rewrite E1, sumn_swap. apply sumn_ext. intros p Hp. apply sumn_ext. intros q Hq. rewrite (Nat.eqb_sym p q). destruct (Nat.eqb q p); auto.
      rewrite (cond_sym u P q p) by auto. auto. }
    assert (E3 : S + S <= 0); [|lra]. rewrite E1 at 1. rewrite E2. rewrite <- sumn_plus.
    apply sumn_nonpos. intros p Hp. rewrite <- sumn_plus. apply sumn_nonpos. intros q Hq.
    destruct (Nat.eqb q p); [lra|]. pose proof (cpos p q Hp Hq). pose proof (pp_mono (x q) (x p)).
    replace (conductance u p q * (x q - x p) * pp (x p) + conductance u p q * (x p - x q) * pp (x q)) with (- (conductance u p q * ((pp (x q) - pp (x p)) * (x q - x p)))) by ring. nra.
  Qed.

  Lemma gain_pp hi tb T : tb <= hi -> sumn N (fun p => pp (T p - hi) * gain u tb T p) <= - sumn N (fun p => conductance u p p * pp (T p - hi) ^ 2).
  Proof.
    intros Hb. pose proof (exchange_pp (fun p => T p - hi)) as X. cbv beta in X.
    rewrite (sumn_ext N _ (fun p => pp (T p - hi) * (conductance u p p * (tb - T p)) + pp (T p - hi) * sumn N (fun q => if Nat.eqb q p then 0 else conductance u p q * (T q - hi - (T p - hi))))).
    - rewrite sumn_plus. rewrite <- sumn_opp.
      assert (sumn N (fun p => pp (T p - hi) * (conductance u p p * (tb - T p))) <= sumn N (fun p => - (conductance u p p * pp (T p - hi) ^ 2))); [|lra].
      apply sumn_le. intros p Hp. pose proof (cpos p p Hp Hp) as K1. pose proof (pp_self (T p - hi)) as K2. pose proof (pp_nonneg (T p - hi)) as K3.
      replace (pp (T p - hi) * (conductance u p p * (tb - T p))) with (conductance u p p * (pp (T p - hi) * (tb - hi) - pp (T p - hi) * (T p - hi))) by ring.
      rewrite K2. assert (pp (T p - hi) * (tb - hi) <= 0) by nra. nra.
    - intros p Hp. unfold gain. rewrite (sumn_ext N (fun q => if Nat.eqb q p then 0 else conductance u p q * (T q - hi - (T p - hi))) (fun q => if Nat.eqb q p then 0 else conductance u p q * (T q - T p))).
      + ring.
      + intros q Hq. destruct (Nat.eqb q p); ring.
  Qed.

  Section Above.
    Variables (hi : R) (Tin Tb : nat -> R) (T : nat -> R -> R).
    Hypothesis (F : fluid_profile u m cp k r Tin Tb T).
    Hypothesis (I : forall o, (o < n_inlets u)%nat -> Tin o <= hi) (B : forall l, (l < k)%nat -> Tb l <= hi).
    Local Notation x := (depth_of (x_b u) k r).

    Definition excess (z : R) : R := sumn n (fun i => M i * (pp (T (dn i) z - hi) ^ 2 - pp (T (up i) z - hi) ^ 2)).

    Lemma pp2_comp (f : R -> R) z d : is_derive f z d -> is_derive (fun z => pp (f z - hi) ^ 2) z (2 * pp (f z - hi) * d).
    Proof.
      intros Df. assert (D : is_derive (fun z => f z - hi) z d).
      { pose proof (is_derive_minus f (fun _ => hi) z d 0 Df (is_derive_const hi z)) as Y. replace d with (minus d 0); [exact Y|]. change (d - 0 = d). ring. }
      pose proof (is_derive_comp (fun x => pp x ^ 2) (fun z => f z - hi) z _ _ (pp2_derive (f z - hi)) D) as Y.
      match type of Y with is_derive _ _ ?v => replace (2 * pp (f z - hi) * d) with v; [exact Y|] end. change (d * (2 * pp (f z - hi)) = 2 * pp (f z - hi) * d). ring.
    Qed.

    Definition slope (l : nat) (z : R) : R := 2 * sumn N (fun p => pp (T p z - hi) * gain u (Tb l) (fun p => T p z) p).

    Lemma slope_le l z : (l < k)%nat -> slope l z <= - (2 * sumn N (fun p => conductance u p p * pp (T p z - hi) ^ 2)).
    Proof. intros Hl. unfold slope. pose proof (gain_pp hi (Tb l) (fun p => T p z) (B l Hl)). lra. Qed.

    Lemma wall_terms z : 0 <= sumn N (fun p => conductance u p p * pp (T p z - hi) ^ 2).
    Proof. apply sumn_nonneg. intros p Hp. apply Rmult_le_pos; [left; apply cpos; auto|apply pow2_ge_0]. Qed.

    Lemma excess_derive l z : (l < k)%nat -> x l < z < x (S l) -> is_derive excess z (slope l z).
    Proof.
      intros Hl Hz. unfold slope. rewrite (legs_sum u dn up (legs_of u m)). unfold excess. rewrite <- sumn_scal. apply (is_derive_sumn n (fun i z => M i * (pp (T (dn i) z - hi) ^ 2 - pp (T (up i) z - hi) ^ 2))). intros i Hi.
      destruct (proj1 F l z Hl Hz i Hi) as (d & e & D1 & D2 & E1 & E2). rewrite <- E1, <- E2.
      pose proof (is_derive_minus _ _ z _ _ (pp2_comp _ _ _ D1) (pp2_comp _ _ _ D2)) as D3. pose proof (is_derive_scal _ z (M i) _ D3) as D4.
      match type of D4 with is_derive _ _ ?a => match goal with |- is_derive _ _ ?b => replace b with a; [exact D4|] end end.
      change (M i * (2 * pp (T (dn i) z - hi) * d - 2 * pp (T (up i) z - hi) * e) = 2 * (pp (T (dn i) z - hi) * (M i * d) + pp (T (up i) z - hi) * (- M i * e))). ring.
    Qed.

    Lemma pp_cont p z : (p < N)%nat -> 0 <= z <= H -> continuous (fun z => pp (T p z - hi)) z.
    Proof.
      intros Hp Hz. apply (continuous_comp (fun z => T p z - hi) pp); [|apply pp_continuous].
      apply (continuous_minus (T p) (fun _ => hi)); [|apply continuous_const]. apply F; auto.
    Qed.

    Lemma excess_cont z : 0 <= z <= H -> continuous excess z.
    Proof.
      intros Hz. apply (continuous_sumn n (fun i z => M i * (pp (T (dn i) z - hi) ^ 2 - pp (T (up i) z - hi) ^ 2))). intros i Hi. destruct (legs_lt u m i Hi) as [B1 B2].
      apply (continuous_mult (fun _ => M i) (fun z => pp (T (dn i) z - hi) ^ 2 - pp (T (up i) z - hi) ^ 2)); [apply continuous_const|].
      assert (Sq : forall p, (p < N)%nat -> continuous (fun z => pp (T p z - hi) ^ 2) z).
      { intros p Hp. cbn [pow]. pose proof (pp_cont p z Hp Hz) as Cd.
        apply (continuous_mult (fun z => pp (T p z - hi)) (fun z => pp (T p z - hi) * 1)); [auto|].
        apply (continuous_mult (fun z => pp (T p z - hi)) (fun _ => 1)); [auto|apply continuous_const]. }
      apply (continuous_minus (fun z => pp (T (dn i) z - hi) ^ 2) (fun z => pp (T (up i) z - hi) ^ 2)); auto.
    Qed.

    Lemma excess_0 : excess 0 <= 0.
    Proof.
      destruct F as (_ & _ & A3 & _). unfold excess.
      set (y := fun i => pp (T (up i) 0 - hi) ^ 2).
      rewrite (sumn_ext n _ (fun i => M i * (entering u m (fun _ => 0) y i - y i))).
      - rewrite (head_carries u m cp Us). apply sumn_nonpos. intros o Ho.
        assert (Y0 : forall i, 0 <= y i) by (intros; apply pow2_ge_0).
        assert (0 <= leaving u m y o).
        { unfold leaving. destruct (x_kind u); auto.
          - apply Rmult_le_pos; [apply sumn_nonneg; auto|]. left. apply Rinv_0_lt_compat, lt_0_INR. destruct Us; auto.
          - destruct (Rltb _ 0); auto. }
        destruct Us as (_ & _ & _ & Q). destruct (Q o Ho). assert (0 <= inlet_rate m cp o) by (unfold inlet_rate; apply Rmult_le_pos; [apply Rabs_pos|lra]). nra.
      - intros i Hi. fold (y i). do 2 f_equal. rewrite A3 by auto. unfold entering, y. unfold n_inlets in I. destruct (x_kind u).
        + rewrite pp_neg by (specialize (I O ltac:(lia)); lra). ring.
        + destruct (Rltb _ 0); [destruct (Nat.eqb _ _)|destruct i]; auto; rewrite pp_neg by (specialize (I O ltac:(lia)); lra); ring.
        + rewrite pp_neg by (specialize (I i ltac:(lia)); lra). ring.
    Qed.

    Lemma excess_H : excess H = 0.
    Proof. destruct F as (_ & _ & _ & A4). apply sumn_zero. intros i Hi. rewrite A4 by auto. ring. Qed.

    Let X : forall l, (l < k)%nat -> x l <= x (S l) := de_step (x_b u) k r HP SS.

    Lemma x_range l z : (l < k)%nat -> x l <= z <= x (S l) -> 0 <= z <= H.
    Proof.
      intros Hl Hz. rewrite <- (de_0 (x_b u) k r SS), <- (de_k (x_b u) k r SS). apply (seg_range k x X l); auto.
    Qed.

    Lemma excess_segment l a b : (l < k)%nat -> x l <= a -> a <= b -> b <= x (S l) -> excess b <= excess a.
    Proof.
      intros Hl Ha Hab Hb. destruct (MVT_gen excess a b (slope l)) as [c [Hc E]].
      - intros z. rewrite Rmin_left, Rmax_right by lra. intros Hz. apply excess_derive; auto. lra.
      - intros z. rewrite Rmin_left, Rmax_right by lra. intros Hz. apply continuity_pt_filterlim. apply excess_cont. apply (x_range l); auto; lra.
      - pose proof (slope_le l c Hl). pose proof (wall_terms c). nra.
    Qed.

    Lemma excess_edges i j : (i <= j <= k)%nat -> excess (x j) <= excess (x i).
    Proof.
      intros [L Lj]. induction L as [|j L IH]; [lra|]. specialize (IH ltac:(lia)).
      pose proof (excess_segment j (x j) (x (S j)) ltac:(lia) ltac:(lra) (X j ltac:(lia)) ltac:(lra)). lra.
    Qed.

    Lemma excess_zero l z : (l < k)%nat -> x l <= z <= x (S l) -> excess z = 0.
    Proof.
      intros Hl Hz. pose proof (excess_edges 0 l ltac:(lia)) as E1. pose proof (excess_edges (S l) k ltac:(lia)) as E2.
      rewrite (de_0 (x_b u) k r SS) in E1. rewrite (de_k (x_b u) k r SS) in E2. pose proof excess_0. pose proof excess_H.
      pose proof (excess_segment l (x l) z Hl ltac:(lra) ltac:(lra) ltac:(lra)). pose proof (excess_segment l z (x (S l)) Hl ltac:(lra) ltac:(lra) ltac:(lra)). lra.
    Qed.

    Lemma below_inside l z p : (l < k)%nat -> x l < z < x (S l) -> (p < N)%nat -> pp (T p z - hi) = 0.
    Proof.
      intros Hl Hz Hp.
      assert (D2 : is_derive excess z 0).
      { apply (is_derive_ext_loc (fun _ => 0)).
        - assert (Z1 := open_gt (x l) z ltac:(lra)). assert (Z2 := open_lt (x (S l)) z ltac:(lra)).
          generalize (filter_and _ _ Z1 Z2). apply filter_imp. intros y [Y1 Y2]. symmetry. apply (excess_zero l); auto. lra.
        - apply (is_derive_const (V := R_NormedModule)). }
      pose proof (excess_derive l z Hl Hz) as D1. apply is_derive_unique in D1. apply is_derive_unique in D2.
      pose proof (slope_le l z Hl) as S. pose proof (wall_terms z) as W. assert (Z : sumn N (fun p => conductance u p p * pp (T p z - hi) ^ 2) = 0) by lra.
      assert (conductance u p p * pp (T p z - hi) ^ 2 <= 0).
      { rewrite <- Z. apply Rle_trans with (sumn N (fun q => if Nat.eqb q p then conductance u p p * pp (T p z - hi) ^ 2 else 0)).
        - rewrite (sumn_single N p); auto; [rewrite Nat.eqb_refl; lra|]. intros q Hq Ne. replace (Nat.eqb q p) with false by (symmetry; apply Nat.eqb_neq; auto). auto.
        - apply sumn_le. intros q Hq. destruct (Nat.eqb q p) eqn:E; [apply Nat.eqb_eq in E; subst; lra|]. apply Rmult_le_pos; [left; apply cpos; auto|apply pow2_ge_0]. }
      pose proof (cpos p p Hp Hp). pose proof (pp_nonneg (T p z - hi)). assert (pp (T p z - hi) ^ 2 <= 0) by nra. nra.
    Qed.

    Lemma below p z : (p < N)%nat -> 0 <= z <= H -> T p z <= hi.
    Proof.
      intros Hp Hz. assert (Z : 0 <= z <= H) by auto. rewrite <- (de_0 (x_b u) k r SS), <- (de_k (x_b u) k r SS) in Hz.
      destruct (located k x X z Hz) as [l [Hl [Ll Zl]]]; [rewrite (de_0 (x_b u) k r SS), (de_k (x_b u) k r SS); auto|].
      apply Rminus_le, pp_zero. apply (vanish_at (fun z => pp (T p z - hi)) (x l) (x (S l)) z Ll Zl (pp_cont p z Hp Z)). intros y Hy. apply (below_inside l); auto.
    Qed.
  End Above.

  Lemma between lo hi Tin Tb T : fluid_profile u m cp k r Tin Tb T ->
    (forall o, (o < n_inlets u)%nat -> lo <= Tin o <= hi) -> (forall l, (l < k)%nat -> lo <= Tb l <= hi) ->
    forall p z, (p < N)%nat -> 0 <= z <= H -> lo <= T p z <= hi.
  Proof.
    intros F I B p z Hp Hz. split.
    - pose proof (profile_minus u m cp k r _ _ _ _ _ _ (profile_still u m cp k r 0 (fun _ => 0) (fun _ => 0) (fun _ _ => eq_refl) (fun _ _ => eq_refl)) F) as F'.
      pose proof (below (- lo) _ _ _ F' ltac:(intros o Ho; specialize (I o Ho); lra) ltac:(intros l Hl; specialize (B l Hl); lra) p z Hp Hz). cbn in *. lra.
    - apply (below hi Tin Tb T F); auto; intros; [apply I|apply B]; auto.
  Qed.

  Lemma leaving_between lo hi x o : (o < n_inlets u)%nat -> (forall i, (i < n)%nat -> lo <= x i <= hi) -> lo <= leaving u m x o <= hi.
  Proof.
    intros Ho B. assert (Hn : (0 < n)%nat) by (destruct Us; auto). assert (In : 0 < INR n) by (apply lt_0_INR; auto). unfold leaving. unfold n_inlets in Ho. destruct (x_kind u).
    - assert (S1 : INR n * lo <= sumn n x) by (rewrite <- sumn_const; apply sumn_le; intros; apply B; auto).
      assert (S2 : sumn n x <= INR n * hi) by (rewrite <- sumn_const; apply sumn_le; intros; apply B; auto).
      split; [apply Rmult_le_reg_r with (INR n)|apply Rmult_le_reg_r with (INR n)]; auto; unfold Rdiv; rewrite Rmult_assoc, Rinv_l by lra; lra.
    - destruct (Rltb _ 0); apply B; lia.
    - apply B; auto.
  Qed.
End Max.
