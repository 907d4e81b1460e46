(** The temperatures that the coefficients give are those of the energy balances. *)
From Coq Require Import Psatz FunctionalExtensionality.
From Coquelicot Require Import Coquelicot.
From Verif Require Import Base LinAlg LinInv Bore_Model Bore_Proofs Pipe_Proofs Pipe_Unique_Proofs Multi_Model Multi_Spec Multi_Ode_Proofs Multi_Profile_Proofs Multi_Energy_Proofs Multi_Setup_Proofs.
Local Open Scope R_scope.

Definition vadd (x y : nat -> R) : nat -> R := fun i => x i + y i.

Lemma vec_mul n k A B x : mx_vec k (mx_mul n A B) x = mx_vec n A (mx_vec k B x).
Proof. extensionality i. apply mx_vec_mul. Qed.
Lemma vec_add k A B x : mx_vec k (mx_add A B) x = vadd (mx_vec k A x) (mx_vec k B x).
Proof. extensionality i. unfold mx_vec, mx_add, vadd. rewrite <- sumn_plus. apply sumn_ext. intros. ring. Qed.
Lemma vec_vadd k A x y : mx_vec k A (vadd x y) = vadd (mx_vec k A x) (mx_vec k A y).
Proof. extensionality i. unfold mx_vec, vadd. rewrite <- sumn_plus. apply sumn_ext. intros. ring. Qed.
Lemma vec_ext k A x y i : (forall j, (j < k)%nat -> x j = y j) -> mx_vec k A x i = mx_vec k A y i.
Proof. intros H. apply sumn_ext. intros j Hj. rewrite H; auto. Qed.
Lemma vec_zero k A i : mx_vec k A (fun _ => 0) i = 0.
Proof. apply sumn_zero. intros. ring. Qed.
Lemma vec_im n x i : (i < n)%nat -> mx_vec (2 * n) (im_i n) x i = x i - x (i + n)%nat.
Proof.
  intros Hi. unfold mx_vec, im_i.
  rewrite (sumn_ext _ _ (fun p => (if Nat.eqb p i then 1 else 0) * x p - (if Nat.eqb p (i + n) then 1 else 0) * x p)) by (intros; ring).
  rewrite sumn_minus. f_equal.
  - rewrite (sumn_single (2 * n) i); [rewrite Nat.eqb_refl; ring|lia|]. intros p Hp Ne. replace (Nat.eqb p i) with false by (symmetry; apply Nat.eqb_neq; auto). ring.
  - rewrite (sumn_single (2 * n) (i + n)); [rewrite Nat.eqb_refl; ring|lia|]. intros p Hp Ne. replace (Nat.eqb p (i + n)) with false by (symmetry; apply Nat.eqb_neq; auto). ring.
Qed.

Section Spec.
  Variables (u : multi) (m cp : list R) (k : nat) (r : option (list R)).
  Hypothesis (Us : usable u m cp) (P : passive_circuit u) (HP : 0 < bH (x_b u)) (SS : segment_shares k r).
  Local Notation n := (x_n u).
  Local Notation dn := (down u m).
  Local Notation up := (up u m).
  Local Notation H := (bH (x_b u)).

  Lemma gain_minus tb te x y p : gain u tb x p - gain u te y p = gain u (tb - te) (fun q => x q - y q) p.
  Proof.
    unfold gain. rewrite (sumn_ext _ (fun q => if Nat.eqb q p then 0 else conductance u p q * (x q - y q - (x p - y p)))
      (fun q => (if Nat.eqb q p then 0 else conductance u p q * (x q - x p)) - (if Nat.eqb q p then 0 else conductance u p q * (y q - y p)))).
    - rewrite sumn_minus. ring.
    - intros q Hq. destruct (Nat.eqb q p); ring.
  Qed.

  Lemma balance_minus tb te S T z : balance u m cp tb S z -> balance u m cp te T z -> balance u m cp (tb - te) (fun p z => S p z - T p z) z.
  Proof.
    intros B1 B2 i Hi. destruct (B1 i Hi) as (d & e & D1 & D2 & E1 & E2). destruct (B2 i Hi) as (d' & e' & D1' & D2' & E1' & E2').
    exists (d - d'), (e - e'). split; [|split; [|split]].
    - exact (is_derive_minus _ _ z _ _ D1 D1').
    - exact (is_derive_minus _ _ z _ _ D2 D2').
    - rewrite <- gain_minus, <- E1, <- E1'. ring.
    - rewrite <- gain_minus, <- E2, <- E2'. ring.
  Qed.

  Lemma entering_minus Tin Tjn x y i : (i < n)%nat -> entering u m Tin x i - entering u m Tjn y i = entering u m (fun o => Tin o - Tjn o) (fun j => x j - y j) i.
  Proof. intros Hi. unfold entering. destruct (x_kind u); auto. destruct (Rltb _ 0); [destruct (Nat.eqb _ _)|destruct i]; auto. Qed.

  Lemma profile_minus Tin Tjn Tb Te S T : fluid_profile u m cp k r Tin Tb S -> fluid_profile u m cp k r Tjn Te T ->
    fluid_profile u m cp k r (fun o => Tin o - Tjn o) (fun l => Tb l - Te l) (fun p z => S p z - T p z).
  Proof.
    intros (A1 & A2 & A3 & A4) (B1 & B2 & B3 & B4). split; [|split; [|split]].
    - intros l z Hl Hz. apply balance_minus; auto.
    - intros p z Hp Hz. apply (continuous_minus (S p) (T p)); auto.
    - intros i Hi. rewrite A3, B3 by auto. apply entering_minus; auto.
    - intros i Hi. rewrite A4, B4 by auto. auto.
  Qed.

  Lemma profile_work t Tin Tb T : fluid_profile u m cp k r Tin Tb T ->
    work u dn up (tube_rate u m cp) t T 0 <= 1/2 * sumn (n_inlets u) (fun o => inlet_rate m cp o * ((Tin o - t) ^ 2 - (leaving u m (fun i => T (up i) 0) o - t) ^ 2))
    /\ work u dn up (tube_rate u m cp) t T H = 0.
  Proof.
    intros (_ & _ & A3 & A4). unfold work. split.
    - apply Rmult_le_compat_l; [lra|]. rewrite (sumn_ext n (fun i => tube_rate u m cp i * ((T (dn i) 0 - t) ^ 2 - (T (up i) 0 - t) ^ 2))
        (fun i => tube_rate u m cp i * ((entering u m Tin (fun j => T (up j) 0) i - t) ^ 2 - (T (up i) 0 - t) ^ 2))).
      + exact (head_energy u m cp Us t Tin (fun j => T (up j) 0)).
      + intros i Hi. rewrite A3 by auto. auto.
    - rewrite sumn_zero; [ring|]. intros i Hi. rewrite A4 by auto. ring.
  Qed.

  Lemma profile_zero T : fluid_profile u m cp k r (fun _ => 0) (fun _ => 0) T -> forall p z, (p < 2 * n)%nat -> 0 <= z <= H -> T p z = 0.
  Proof.
    intros F p z Hp Hz. destruct (profile_work 0 _ _ T F) as [W0 WH]. destruct F as (A1 & A2 & A3 & A4).
    pose proof (de_0 (x_b u) k r SS) as D0. pose proof (de_k (x_b u) k r SS) as Dk.
    apply (zero_everywhere u dn up (tube_rate u m cp) P (legs_of u m) k (depth_of (x_b u) k r) T); try (rewrite ?D0, ?Dk); auto.
    - intros l Hl. apply de_step; auto.
    - eapply Rle_trans; [exact W0|]. apply Rmult_le_reg_l with 2; [lra|].
      match goal with |- 2 * (1/2 * ?s) <= _ => replace (2 * (1/2 * s)) with s by lra; replace (2 * 0) with 0 by ring; replace s with (- sumn (n_inlets u) (fun o => inlet_rate m cp o * leaving u m (fun i => T (up i) 0) o ^ 2)) end.
      + pose proof (sumn_nonneg (n_inlets u) (fun o => inlet_rate m cp o * leaving u m (fun i => T (up i) 0) o ^ 2)) as S. cbv beta in S.
        assert (S' : 0 <= sumn (n_inlets u) (fun o => inlet_rate m cp o * leaving u m (fun i => T (up i) 0) o ^ 2)); [|lra]. apply S. intros o Ho.
        destruct Us as (_ & _ & _ & Q). destruct (Q o Ho). unfold inlet_rate. apply Rmult_le_pos; [apply Rmult_le_pos; [apply Rabs_pos|lra]|apply pow2_ge_0].
      + rewrite <- sumn_opp. apply sumn_ext. intros. ring.
  Qed.

  Lemma profile_unique Tin Tb S T : fluid_profile u m cp k r Tin Tb S -> fluid_profile u m cp k r Tin Tb T ->
    forall p z, (p < 2 * n)%nat -> 0 <= z <= H -> S p z = T p z.
  Proof.
    intros F G p z Hp Hz. pose proof (profile_minus _ _ _ _ _ _ F G) as D.
    assert (E : fluid_profile u m cp k r (fun _ => 0) (fun _ => 0) (fun p z => S p z - T p z)).
    { replace (fun _ : nat => 0) with (fun o => Tin o - Tin o) at 1 by (extensionality o; ring).
      replace (fun _ : nat => 0) with (fun o => Tb o - Tb o) by (extensionality o; ring). exact D. }
    pose proof (profile_zero _ E p z Hp Hz). cbn in *. lra.
  Qed.

  (** heat of segment l *)
  Definition leg_heat (T : nat -> R -> R) (l : nat) : R :=
    stream u dn up (tube_rate u m cp) T (depth_of (x_b u) k r (S l)) - stream u dn up (tube_rate u m cp) T (depth_of (x_b u) k r l).

  Lemma leg_heat_total Tin Tb T : fluid_profile u m cp k r Tin Tb T -> sumn k (leg_heat T) = carried u m cp Tin (leaving u m (fun i => T (up i) 0)).
  Proof.
    intros (_ & _ & A3 & A4). unfold leg_heat. rewrite (sumn_telescope k (fun l => stream u dn up (tube_rate u m cp) T (depth_of (x_b u) k r l))).
    rewrite de_0, de_k by auto. unfold stream.
    rewrite (sumn_zero n (fun i => _ * (T (dn i) H - T (up i) H))) by (intros i Hi; rewrite A4 by auto; ring).
    rewrite (sumn_ext n _ (fun i => tube_rate u m cp i * (entering u m Tin (fun j => T (up j) 0) i - T (up i) 0))) by (intros i Hi; rewrite A3 by auto; auto).
    rewrite (head_carries u m cp Us Tin (fun i => T (up i) 0)). unfold carried. rewrite Rminus_0_l, <- sumn_opp. apply sumn_ext. intros. unfold inlet_rate. ring.
  Qed.

  Lemma leg_heat_passive t Tin Tb T : fluid_profile u m cp k r Tin Tb T ->
    1/2 * sumn (n_inlets u) (fun o => inlet_rate m cp o * ((leaving u m (fun i => T (up i) 0) o - t) ^ 2 - (Tin o - t) ^ 2))
    <= sumn k (fun l => (Tb l - t) * leg_heat T l).
  Proof.
    intros F. destruct (profile_work t _ _ T F) as [W0 WH]. destruct F as (A1 & A2 & A3 & A4).
    pose proof (de_0 (x_b u) k r SS) as D0. pose proof (de_k (x_b u) k r SS) as Dk.
    assert (X : forall l, (l < k)%nat -> depth_of (x_b u) k r l <= depth_of (x_b u) k r (S l)) by (intros; apply de_step; auto).
    assert (Cc : forall p z, (p < 2 * n)%nat -> depth_of (x_b u) k r 0 <= z <= depth_of (x_b u) k r k -> continuous (T p) z) by (rewrite D0, Dk; auto).
    pose proof (work_total u dn up (tube_rate u m cp) P (legs_of u m) k (depth_of (x_b u) k r) T Tb X Cc A1 t) as W. rewrite D0, Dk, WH in W.
    fold (leg_heat T) in W. unfold leg_heat.
    rewrite (sumn_ext (n_inlets u) _ (fun o => - (inlet_rate m cp o * ((Tin o - t) ^ 2 - (leaving u m (fun i => T (up i) 0) o - t) ^ 2)))) by (intros; ring).
    rewrite sumn_opp. lra.
  Qed.

  Lemma profile_still t Tin Tb : (forall o, (o < n_inlets u)%nat -> Tin o = t) -> (forall l, (l < k)%nat -> Tb l = t) ->
    fluid_profile u m cp k r Tin Tb (fun _ _ => t).
  Proof.
    intros E1 E2. split; [|split; [|split]].
    - intros l z Hl Hz i Hi. exists 0, 0. split; [apply (is_derive_const (V := R_NormedModule))|split; [apply (is_derive_const (V := R_NormedModule))|split]]; unfold gain; rewrite E2 by auto;
        rewrite sumn_zero by (intros q Hq; destruct (Nat.eqb q _); ring); ring.
    - intros. apply continuous_const.
    - intros i Hi. unfold entering. unfold n_inlets in E1. destruct (x_kind u).
      + rewrite E1 by lia. auto.
      + destruct (Rltb _ 0); [destruct (Nat.eqb _ _)|destruct i]; auto; rewrite E1 by lia; auto.
      + rewrite E1 by lia. auto.
    - auto.
  Qed.
End Spec.

Section Main.
  Variables (u : multi) (m cp : list R) (k : nat) (r : option (list R)) (g : inputs) (s : spectrum).
  Hypothesis (Us : usable u m cp) (Rm : reversals_meant u m) (P : passive_circuit u) (HP : 0 < bH (x_b u)) (SS : segment_shares k r).
  Hypothesis (G : format u m cp = Some g) (D : decomposes (2 * x_n u) (system_mx u g) s).
  Local Notation n := (x_n u).
  Local Notation N := (2 * x_n u)%nat.
  Local Notation dn := (down u m).
  Local Notation up := (up u m).
  Local Notation H := (bH (x_b u)).
  Local Notation A := (system_mx u g).
  Local Notation sumA := (row_sums N A).
  Local Notation ed := (segment_edges (x_b u) k r).
  Local Notation gen := (general N s sumA k ed).

  Let Lnz := eigen_nonzero u m cp Us g G P s D.

  Lemma gen_balance T0 Tb l z : (l < k)%nat -> depth_of (x_b u) k r l < z < depth_of (x_b u) k r (S l) ->
    balance u m cp (Tb l) (fun p z => gen T0 Tb z p) z.
  Proof.
    intros Hl Hz i Hi. rewrite <- !(sh_depth (x_b u) k r SS) in Hz by lia.
    destruct (legs_lt u m i Hi) as [B1 B2]. destruct (g_rate u m cp Us g G i Hi) as [R1 R2]. pose proof (rate_pos u m cp Us i Hi) as Mp.
    do 2 eexists. split; [|split; [|split]].
    - apply (general_derive N A s sumA k ed D Lnz (sh_step (x_b u) k r HP SS) T0 Tb l z); auto.
    - apply (general_derive N A s sumA k ed D Lnz (sh_step (x_b u) k r HP SS) T0 Tb l z); auto.
    - rewrite (sys_gain u m cp Us g G P (dn i) (Tb l) (gen T0 Tb z) B1), R1. set (e := gain _ _ _ _); match goal with |- ?a = ?b => change (@eq R a b) end; field. lra.
    - rewrite (sys_gain u m cp Us g G P (up i) (Tb l) (gen T0 Tb z) B2), R2. set (e := gain _ _ _ _); match goal with |- ?a = ?b => change (@eq R a b) end; field. lra.
  Qed.

  Lemma gen_profile T0 Tb Tin : (forall i, (i < n)%nat -> T0 (dn i) = entering u m Tin (fun j => T0 (up j)) i) ->
    (forall i, (i < n)%nat -> gen T0 Tb H i = gen T0 Tb H (i + n)%nat) -> fluid_profile u m cp k r Tin Tb (fun p z => gen T0 Tb z p).
  Proof.
    intros E1 E2. assert (G0 : forall p, (p < N)%nat -> gen T0 Tb 0 p = T0 p) by (intros; apply (general_0 N A s sumA k ed D (sh_0 (x_b u) k r SS) (sh_step (x_b u) k r HP SS)); auto).
    split; [|split; [|split]].
    - intros l z Hl Hz. apply gen_balance; auto.
    - intros p z Hp Hz. apply (general_continuous N A s sumA k ed D); auto.
    - intros i Hi. destruct (legs_lt u m i Hi). rewrite G0 by auto. rewrite E1 by auto. unfold entering. destruct (x_kind u); auto.
      destruct (Rltb _ 0).
      + destruct (Nat.eqb i (n - 1)) eqn:E; auto. apply Nat.eqb_neq in E. destruct (legs_lt u m (i + 1) ltac:(lia)). rewrite G0; auto.
      + destruct i as [|i]; auto. destruct (legs_lt u m i ltac:(lia)). rewrite G0; auto.
    - intros i Hi. destruct (legs_of u m i Hi) as [[-> ->]|[-> ->]]; [apply E2; auto|symmetry; apply E2; auto].
  Qed.

  Lemma top_up x i : (i < n)%nat -> mx_vec n (top u g) x (up i) = x i.
  Proof.
    intros Hi. unfold top. rewrite vec_add, vec_mul. unfold vadd. rewrite (fu_up u m cp Us Rm g G) by auto. rewrite (fd_up u m cp Us Rm g G) by auto. ring.
  Qed.
  Lemma top_dn x i : (i < n)%nat -> mx_vec n (top u g) x (dn i) = mx_vec n (c_fu u g) x i.
  Proof.
    intros Hi. unfold top. rewrite vec_add, vec_mul. unfold vadd. rewrite (fu_dn u m cp Us Rm g G) by auto. rewrite (fd_dn u m cp Us Rm g G) by auto. ring.
  Qed.

  Lemma entering_ext Tin x y i : (i < n)%nat -> (forall j, (j < n)%nat -> x j = y j) -> entering u m Tin x i = entering u m Tin y i.
  Proof.
    intros Hi E. unfold entering. destruct (x_kind u); auto. destruct (Rltb _ 0).
    - destruct (Nat.eqb i (n - 1)) eqn:F; auto. apply Nat.eqb_neq in F. apply E. lia.
    - destruct i; auto. apply E. lia.
  Qed.

  Lemma returns_regular : nonsingular n (mx_mul N (mx_mul N (im_i n) (a_f0 N s H)) (top u g)).
  Proof.
    intros x Hx i Hi. set (T0 := mx_vec n (top u g) x).
    assert (F : fluid_profile u m cp k r (fun _ => 0) (fun _ => 0) (fun p z => gen T0 (fun _ => 0) z p)).
    { apply gen_profile.
      - intros j Hj. unfold T0 at 1. rewrite top_dn by auto. rewrite (entering_ext _ _ x j Hj) by (intros; apply top_up; auto).
        rewrite (enters u m cp Us Rm g G _ _ j Hj), vec_zero. ring.
      - intros j Hj. pose proof (Hx j Hj) as E. change (mx_vec n (mx_mul N (mx_mul N (im_i n) (a_f0 N s H)) (top u g)) x j = 0) in E.
        rewrite !vec_mul, vec_im in E by auto. unfold general. fold T0 in E. unfold mx_vec in E at 1 2.
        rewrite !(sumn_zero k) by (intros; ring). lra. }
    pose proof (profile_zero u m cp k r Us P HP SS _ F (up i) 0 (proj2 (legs_lt u m i Hi)) ltac:(lra)) as Z. cbv beta in Z.
    rewrite (general_0 N A s sumA k ed D (sh_0 (x_b u) k r SS) (sh_step (x_b u) k r HP SS)) in Z by (apply legs_lt; auto). unfold T0 in Z. rewrite top_up in Z; auto.
  Qed.

  Lemma returns_some : exists Y, returns u g s = Some Y.
  Proof. apply lin_solve_mx_some. apply returns_regular. Qed.

  Section Solution.
    Variables (Y : Mx) (Tin Tb : nat -> R).
    Hypothesis (YE : returns u g s = Some Y).

    Definition q_vec : nat -> R := mx_vec n (f_fd u g) (mx_vec (n_inlets u) (c_in u g) Tin).
    Definition w_vec : nat -> R := vadd (mx_vec N (a_f0 N s H) q_vec) (mx_vec k (wall u g s k r H) Tb).
    Definition ret : nat -> R := mx_vec N Y w_vec.
    Definition T_head : nat -> R := vadd q_vec (mx_vec n (top u g) ret).

    Lemma gen_vec T0 z p : gen T0 Tb z p = mx_vec N (a_f0 N s z) T0 p + mx_vec k (wall u g s k r z) Tb p.
    Proof. auto. Qed.

    Lemma head_up i : (i < n)%nat -> T_head (up i) = ret i.
    Proof. intros Hi. unfold T_head, vadd, q_vec. rewrite (fd_up u m cp Us Rm g G), top_up by auto. ring. Qed.

    Lemma head_dn i : (i < n)%nat -> T_head (dn i) = entering u m Tin (fun j => T_head (up j)) i.
    Proof.
      intros Hi. rewrite (entering_ext _ _ ret i Hi) by apply head_up. rewrite (enters u m cp Us Rm g G _ _ i Hi).
      unfold T_head, vadd, q_vec. rewrite (fd_dn u m cp Us Rm g G), top_dn by auto. ring.
    Qed.

    Lemma head_bottom i : (i < n)%nat -> gen T_head Tb H i = gen T_head Tb H (i + n)%nat.
    Proof.
      intros Hi. rewrite !gen_vec. unfold T_head. rewrite vec_vadd. unfold vadd.
      assert (E : mx_vec n (mx_mul N (mx_mul N (im_i n) (a_f0 N s H)) (top u g)) ret i = mx_vec N (fun i p => - im_i n i p) w_vec i).
      { unfold ret. rewrite <- (mx_vec_mul n N _ Y w_vec i). apply sumn_ext. intros p Hp. f_equal.
        apply (lin_solve_mx_sound n _ _ Y YE i p Hi). }
      rewrite !vec_mul, vec_im in E by auto.
      assert (E' : mx_vec N (fun i p => - im_i n i p) w_vec i = - mx_vec N (im_i n) w_vec i).
      { unfold mx_vec. rewrite <- sumn_opp. apply sumn_ext. intros. ring. }
      rewrite E', vec_im in E by auto. unfold w_vec, vadd in E. lra.
    Qed.

    Lemma head_profile : fluid_profile u m cp k r Tin Tb (fun p z => gen T_head Tb z p).
    Proof. apply gen_profile; [apply head_dn|apply head_bottom]. Qed.

    Lemma temp_eq z p c : (p < N)%nat ->
      c = (mx_mul n (mx_mul N (mx_mul N (a_f0 N s z) (mx_add id_mx (mx_mul N (mx_mul n (top u g) Y) (a_f0 N s H)))) (f_fd u g)) (c_in u g),
           mx_add (mx_mul N (mx_mul N (a_f0 N s z) (mx_mul n (top u g) Y)) (wall u g s k r H)) (wall u g s k r z)) ->
      apply2 u k c Tin Tb p = gen T_head Tb z p.
    Proof.
      intros Hp ->. unfold apply2. cbn [fst snd].
      change (mx_vec (n_inlets u) (mx_mul n (mx_mul N (mx_mul N (a_f0 N s z) (mx_add id_mx (mx_mul N (mx_mul n (top u g) Y) (a_f0 N s H)))) (f_fd u g)) (c_in u g)) Tin p
        + mx_vec k (mx_add (mx_mul N (mx_mul N (a_f0 N s z) (mx_mul n (top u g) Y)) (wall u g s k r H)) (wall u g s k r z)) Tb p = gen T_head Tb z p).
      rewrite !vec_mul, !vec_add, !vec_mul. fold q_vec. rewrite gen_vec. unfold T_head, ret, w_vec. rewrite !vec_vadd. unfold vadd.
      rewrite (vec_ext N (a_f0 N s z) (mx_vec N id_mx q_vec) q_vec) by (intros j Hj; unfold mx_vec; apply sumn_id; auto). ring.
    Qed.

    Lemma out_eq o c : (o < n_inlets u)%nat ->
      c = (mx_mul n (mx_mul N (mx_mul N (mx_mul n (d_fu u g) Y) (a_f0 N s H)) (f_fd u g)) (c_in u g), mx_mul N (mx_mul n (d_fu u g) Y) (wall u g s k r H)) ->
      apply2 u k c Tin Tb o = leaving u m (fun i => gen T_head Tb 0 (up i)) o.
    Proof.
      intros Ho ->. unfold apply2. cbn [fst snd].
      change (mx_vec (n_inlets u) (mx_mul n (mx_mul N (mx_mul N (mx_mul n (d_fu u g) Y) (a_f0 N s H)) (f_fd u g)) (c_in u g)) Tin o
        + mx_vec k (mx_mul N (mx_mul n (d_fu u g) Y) (wall u g s k r H)) Tb o = leaving u m (fun i => gen T_head Tb 0 (up i)) o).
      rewrite !vec_mul. fold q_vec. rewrite (leaves u m cp Us Rm g G _ o Ho).
      rewrite (vec_ext n (d_fu u g) (fun i => gen T_head Tb 0 (up i)) ret).
      - unfold ret, w_vec. rewrite !vec_vadd. auto.
      - intros j Hj. rewrite (general_0 N A s sumA k ed D (sh_0 (x_b u) k r SS) (sh_step (x_b u) k r HP SS)) by (apply legs_lt; auto). apply head_up; auto.
    Qed.
  End Solution.
End Main.
