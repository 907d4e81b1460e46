(** The calls of the theorems: directions, rates, and the matrix of the system. *)
From Coq Require Import Psatz.
From Coquelicot Require Import Coquelicot.
From Verif Require Import Base LinAlg LinInv Bore_Model Bore_Proofs Pipe_Spec Pipe_Proofs Pipe_Main_Proofs Multi_Model Multi_Spec Multi_Ode_Proofs Multi_Profile_Proofs Multi_Energy_Proofs.
Local Open Scope R_scope.

Section Setup.
  Variables (u : multi) (m cp : list R).
  Hypothesis (Us : usable u m cp) (Rm : reversals_meant u m).
  Local Notation n := (x_n u).
  Local Notation dn := (down u m).
  Local Notation up := (up u m).
  Local Notation M := (tube_rate u m cp).

  Lemma legs_of i : (i < n)%nat -> (dn i = i /\ up i = (i + n)%nat) \/ (dn i = (i + n)%nat /\ up i = i).
  Proof. intros Hi. unfold down, Multi_Spec.up. destruct (Rltb _ 0); auto. Qed.

  Lemma legs_lt i : (i < n)%nat -> (dn i < 2 * n)%nat /\ (up i < 2 * n)%nat.
  Proof. intros Hi. destruct (legs_of i Hi) as [[-> ->]|[-> ->]]; lia. Qed.

  (** every pipe is a leg *)
  Lemma leg_cases p : (p < 2 * n)%nat -> exists i, (i < n)%nat /\ (p = dn i \/ p = up i).
  Proof.
    intros Hp. destruct (Nat.lt_ge_cases p n) as [L|L].
    - exists p. split; auto. destruct (legs_of p L) as [[-> ->]|[-> ->]]; auto.
    - exists (p - n)%nat. split; [lia|]. destruct (legs_of (p - n) ltac:(lia)) as [[-> ->]|[-> ->]]; [right|left]; lia.
  Qed.

  Lemma inlets_pos : (0 < n_inlets u)%nat.
  Proof. destruct Us as [H _]. unfold n_inlets. destruct (x_kind u); lia. Qed.

  Lemma flow_nonzero i : (i < n)%nat -> flow_at u m i <> 0.
  Proof.
    intros Hi. destruct Us as (_ & _ & _ & H). unfold flow_at. unfold n_inlets in H. destruct (x_kind u); apply H; lia.
  Qed.

  Lemma flow_meant i : (i < n)%nat -> x_reversible u = true \/ 0 < flow_at u m i.
  Proof.
    intros Hi. destruct Rm as [H|H]; auto. right. unfold flow_at. unfold n_inlets in H. destruct (x_kind u); apply H; lia.
  Qed.

  Lemma one_cp : x_kind u <> Separate -> exists x c, m = x :: nil /\ cp = c :: nil /\ x <> 0 /\ 0 < c.
  Proof.
    clear Rm.
    intros Hk. destruct Us as (_ & L & Lc & H). assert (E : n_inlets u = 1%nat) by (unfold n_inlets; destruct (x_kind u); congruence).
    rewrite E in *. specialize (H O ltac:(lia)). destruct m as [|x [|y t]]; try discriminate. destruct cp as [|c [|d t]]; cbn in Lc; try lia.
    exists x, c. cbn in H. tauto.
  Qed.

  Lemma rate_pos i : (i < n)%nat -> 0 < M i.
  Proof.
    clear Rm.
    intros Hi. pose proof (flow_nonzero i Hi) as F. destruct Us as (Hn & _ & _ & H). unfold tube_rate.
    assert (In : 0 < INR n) by (apply lt_0_INR; auto).
    destruct (x_kind u) eqn:K.
    - destruct (one_cp ltac:(congruence)) as (x & c & -> & -> & Hx & Hc). cbn. apply Rmult_lt_0_compat; auto. apply Rdiv_lt_0_compat; auto. apply Rabs_pos_lt; auto.
    - destruct (one_cp ltac:(congruence)) as (x & c & -> & -> & Hx & Hc). cbn. apply Rmult_lt_0_compat; auto. apply Rabs_pos_lt; auto.
    - unfold n_inlets in H. rewrite K in H. destruct (H i Hi). apply Rmult_lt_0_compat; auto. apply Rabs_pos_lt; auto.
  Qed.

  Lemma format_some : exists g, format u m cp = Some g.
  Proof.
    clear Rm.
    unfold format. destruct (x_kind u) eqn:K.
    - destruct (one_cp ltac:(congruence)) as (x & c & -> & -> & Hx & Hc). eauto.
    - destruct (one_cp ltac:(congruence)) as (x & c & -> & -> & Hx & Hc). eauto.
    - destruct Us as (Hn & L & Lc & H). unfold n_inlets in *. rewrite K in *. rewrite L, Nat.eqb_refl.
      destruct Lc as [E|E]; rewrite E; cbn [Nat.eqb]; eauto. destruct (Nat.eqb n 1); eauto. rewrite Nat.eqb_refl. eauto.
  Qed.

  Section Inputs.
    Variable (g : inputs).
    Hypothesis (G : format u m cp = Some g).

    Lemma sign_pos x : 0 < x -> sign x = 1.
    Proof. intros H. unfold sign. replace (Rltb x 0) with false by (symmetry; apply Rltb_false; lra). replace (Rltb 0 x) with true by (symmetry; apply Rltb_true; lra). auto. Qed.
    Lemma sign_neg x : x < 0 -> sign x = -1.
    Proof. intros H. unfold sign. replace (Rltb x 0) with true by (symmetry; apply Rltb_true; lra). auto. Qed.

    Lemma cap_nth i : (i < n)%nat -> x_kind u = Separate ->
      forall c, (if Nat.eqb (length cp) 1 then Some (repeat (nth 0 cp 0) n) else if Nat.eqb (length cp) n then Some cp else None) = Some c ->
      nth i c 0 = capacity_at cp i.
    Proof.
      clear G Us Rm. intros Hi K c. unfold capacity_at. destruct cp as [|x [|y t]].
      - cbn [length Nat.eqb]. destruct n; [lia|]. discriminate.
      - cbn [length Nat.eqb nth]. intros E. injection E as <-.
        rewrite nth_indep with (d' := x) by (rewrite repeat_length; auto). apply nth_repeat.
      - cbn [length]. change (Nat.eqb (S (S (length t))) 1) with false. cbv iota. destruct (Nat.eqb (S (S (length t))) n); [|discriminate]. intros E. injection E as <-. auto.
    Qed.

    Lemma g_rev_eq i : (i < n)%nat -> g_rev g i = Rltb (flow_at u m i) 0.
    Proof.
      intros Hi. assert (R : Rltb (flow_at u m i) 0 && x_reversible u = Rltb (flow_at u m i) 0).
      { destruct (flow_meant i Hi) as [->|P]; [apply andb_true_r|]. replace (Rltb (flow_at u m i) 0) with false by (symmetry; apply Rltb_false; lra). auto. }
      rewrite <- R. clear R. unfold flow_at. unfold format in G. destruct (x_kind u) eqn:K.
      - destruct (one_cp ltac:(congruence)) as (x & c & -> & -> & _). injection G as <-. reflexivity.
      - destruct (one_cp ltac:(congruence)) as (x & c & -> & -> & _). injection G as <-. reflexivity.
      - destruct (Nat.eqb (length m) n); [|discriminate]. destruct (if Nat.eqb _ 1 then _ else _); [|discriminate]. injection G as <-. reflexivity.
    Qed.

    Lemma g_rate i : (i < n)%nat -> g_m g (dn i) * g_cp g (dn i) = M i /\ g_m g (up i) * g_cp g (up i) = - M i.
    Proof.
    clear Rm.
      intros Hi. pose proof (flow_nonzero i Hi) as F.
      assert (B1 : Nat.ltb i n = true) by (apply Nat.ltb_lt; auto). assert (B2 : Nat.ltb (i + n) n = false) by (apply Nat.ltb_ge; lia).
      assert (B3 : (i + n - n = i)%nat) by lia.
      unfold down, Multi_Spec.up, tube_rate. unfold format in G. unfold flow_at in *. destruct (x_kind u) eqn:K.
      - destruct (one_cp ltac:(congruence)) as (x & c & -> & -> & _). injection G as <-. cbn [g_m g_cp nth] in *.
        destruct (Rltb x 0) eqn:E; [apply Rltb_true in E; rewrite (sign_neg x E)|apply Rltb_false in E; rewrite (sign_pos x) by lra]; rewrite B1, B2; split; ring.
      - destruct (one_cp ltac:(congruence)) as (x & c & -> & -> & _). injection G as <-. cbn [g_m g_cp nth] in *.
        destruct (Rltb x 0) eqn:E; [apply Rltb_true in E; rewrite (sign_neg x E)|apply Rltb_false in E; rewrite (sign_pos x) by lra]; rewrite B1, B2; split; ring.
      - destruct (Nat.eqb (length m) n); [|discriminate]. pose proof (cap_nth i Hi K) as CN.
        destruct (if Nat.eqb _ 1 then _ else _) as [c|]; [|discriminate]. injection G as <-. cbn [g_m g_cp]. specialize (CN c eq_refl). rewrite <- CN.
        destruct (Rltb (nth i m 0) 0) eqn:E; [apply Rltb_true in E; rewrite (Rabs_left (nth i m 0)) by lra|apply Rltb_false in E; rewrite (Rabs_pos_eq (nth i m 0)) by lra];
          rewrite B1, B2, B3; split; ring.
    Qed.

    Lemma g_nonzero p : (p < 2 * n)%nat -> g_m g p * g_cp g p <> 0.
    Proof.
      intros Hp. destruct (leg_cases p Hp) as [i [Hi [-> | ->]]]; destruct (g_rate i Hi) as [E1 E2]; pose proof (rate_pos i Hi); lra.
    Qed.

    Section Passive.
      Hypothesis (P : passive_circuit u).
      Local Notation A := (system_mx u g).
      Local Notation sumA := (row_sums (2 * n) A).

      Lemma sys_entry p q : (p < 2 * n)%nat -> (q < 2 * n)%nat ->
        1 / (x_Rd u p q * g_m g p * g_cp g p) = conductance u p q / (g_m g p * g_cp g p).
      Proof.
        intros Hp Hq. pose proof (g_nonzero p Hp) as N. destruct (proj1 P p q Hp Hq) as [R _]. unfold conductance. field.
        repeat split; auto; intros E; rewrite E in N; lra.
      Qed.

      Lemma sys_gain p tb T : (p < 2 * n)%nat -> sumn (2 * n) (fun j => A p j * T j) - sumA p * tb = gain u tb T p / (g_m g p * g_cp g p).
      Proof.
        intros Hp. pose proof (g_nonzero p Hp) as N. set (d := g_m g p * g_cp g p) in *.
        set (o := fun q => if Nat.eqb q p then 0 else conductance u p q).
        assert (EA : forall j, (j < 2 * n)%nat -> A p j = / d * (o j - (if Nat.eqb j p then conductance u p p + sumn (2 * n) o else 0))).
        { intros j Hj. unfold system_mx, o. rewrite (Nat.eqb_sym p j). destruct (Nat.eqb j p) eqn:E.
          - rewrite sys_entry by auto. fold d.
            rewrite (sumn_ext _ (fun l => if Nat.eqb l p then 0 else 1 / (x_Rd u p l * g_m g p * g_cp g p)) (fun l => / d * (if Nat.eqb l p then 0 else conductance u p l))).
            + rewrite sumn_scal. field. auto.
            + intros l Hl. destruct (Nat.eqb l p); [ring|]. rewrite sys_entry by auto. fold d. field. auto.
          - rewrite sys_entry by auto. fold d. field. auto. }
        assert (ES : forall T, sumn (2 * n) (fun j => A p j * T j) = / d * (sumn (2 * n) (fun j => o j * T j) - (conductance u p p + sumn (2 * n) o) * T p)).
        { intros T'. rewrite (sumn_ext _ _ (fun j => / d * (o j * T' j - (if Nat.eqb j p then conductance u p p + sumn (2 * n) o else 0) * T' j))).
          - rewrite sumn_scal, sumn_minus. do 2 f_equal. rewrite (sumn_single (2 * n) p); auto; [rewrite Nat.eqb_refl; auto|].
            intros i Hi Ne. replace (Nat.eqb i p) with false by (symmetry; apply Nat.eqb_neq; auto). ring.
          - intros j Hj. rewrite EA by auto. ring. }
        rewrite ES. unfold row_sums. rewrite (sumn_ext _ (A p) (fun j => A p j * 1)) by (intros; ring). rewrite (ES (fun _ => 1)).
        rewrite (sumn_ext _ (fun j => o j * 1) o) by (intros; ring). unfold gain.
        rewrite (sumn_ext _ (fun q => if Nat.eqb q p then 0 else conductance u p q * (T q - T p)) (fun q => o q * T q - T p * o q)).
        - rewrite sumn_minus, sumn_scal. field. auto.
        - intros q Hq. unfold o. destruct (Nat.eqb q p); ring.
      Qed.

      (** the temperatures at rest are those of the wall *)
      Lemma sys_regular x : (forall p, (p < 2 * n)%nat -> sumn (2 * n) (fun j => A p j * x j) = 0) -> forall p, (p < 2 * n)%nat -> x p = 0.
      Proof.
        intros H p Hp. apply (dissipation_zero u P (fun p => x p - 0) p) in Hp as E; [cbn in E; lra|].
        pose proof (gain_energy u P 0 0 x) as GE.
        assert (Z : forall q, (q < 2 * n)%nat -> gain u 0 x q = 0).
        { intros q Hq. pose proof (sys_gain q 0 x Hq) as S. rewrite H in S by auto. pose proof (g_nonzero q Hq) as N.
          apply Rmult_eq_reg_r with (/ (g_m g q * g_cp g q)); [|apply Rinv_neq_0_compat; auto]. unfold Rdiv in S. lra. }
        rewrite sumn_zero in GE by (intros q Hq; rewrite Z by auto; ring). rewrite (sumn_zero _ (gain u 0 x)) in GE by auto. lra.
      Qed.

      Lemma eigen_nonzero s : decomposes (2 * n) A s -> forall k, (k < 2 * n)%nat -> s_L s k <> RtoC 0.
      Proof.
        intros (D1 & D2 & D3) k Hk Z.
        assert (V : forall i, (i < 2 * n)%nat -> s_V s i k = RtoC 0).
        { assert (E : forall i, (i < 2 * n)%nat -> csum (2 * n) (fun j => Cmult (RtoC (A i j)) (s_V s j k)) = RtoC 0).
          { intros i Hi. rewrite D1 by auto. rewrite Z. apply Cmult_0_r. }
          intros i Hi. apply c_ext.
          - cbn. apply (sys_regular (fun j => Re (s_V s j k))); auto. intros p Hp. pose proof (f_equal Re (E p Hp)) as F. rewrite re_csum in F. cbn [Re RtoC fst] in F.
            rewrite <- F. apply sumn_ext. intros j Hj. rewrite re_mult. cbn. ring.
          - cbn. apply (sys_regular (fun j => Im (s_V s j k))); auto. intros p Hp. pose proof (f_equal Im (E p Hp)) as F. rewrite im_csum in F. cbn [Im RtoC snd] in F.
            rewrite <- F. apply sumn_ext. intros j Hj. rewrite im_mult. cbn. ring. }
        pose proof (f_equal Re (D3 k k Hk Hk)) as F. rewrite re_csum in F. unfold id_mx in F. rewrite Nat.eqb_refl in F. cbn [Re RtoC fst] in F.
        rewrite sumn_zero in F; [lra|]. intros i Hi. rewrite V by auto. rewrite re_mult. cbn. ring.
      Qed.
    End Passive.

    (** ** Connections at the head *)
    Lemma dn_inj i j : (i < n)%nat -> (j < n)%nat -> dn i = dn j -> i = j.
    Proof. intros Hi Hj. destruct (legs_of i Hi) as [[-> _]|[-> _]], (legs_of j Hj) as [[-> _]|[-> _]]; lia. Qed.
    Lemma up_inj i j : (i < n)%nat -> (j < n)%nat -> up i = up j -> i = j.
    Proof. intros Hi Hj. destruct (legs_of i Hi) as [[_ ->]|[_ ->]], (legs_of j Hj) as [[_ ->]|[_ ->]]; lia. Qed.
    Lemma dn_up i j : (i < n)%nat -> (j < n)%nat -> dn i <> up j.
    Proof.
      intros Hi Hj E. destruct (legs_of i Hi) as [[D1 U1]|[D1 U1]], (legs_of j Hj) as [[D2 U2]|[D2 U2]]; rewrite D1, U2 in E; try lia.
      - assert (i = j) by lia. subst. lia.
      - assert (i = j) by lia. subst. lia.
    Qed.

    Lemma f_fd_eq p i : (i < n)%nat -> f_fd u g p i = if Nat.eqb p (dn i) then 1 else 0.
    Proof. intros Hi. unfold f_fd, down. rewrite g_rev_eq by auto. destruct (Rltb _ 0); auto. Qed.
    Lemma f_fu_eq p i : (i < n)%nat -> f_fu u g p i = if Nat.eqb p (up i) then 1 else 0.
    Proof. intros Hi. unfold f_fu, Multi_Spec.up. rewrite g_rev_eq by auto. destruct (Rltb _ 0); auto. Qed.

    Lemma fd_dn x i : (i < n)%nat -> mx_vec n (f_fd u g) x (dn i) = x i.
    Proof.
      intros Hi. unfold mx_vec. rewrite (sumn_single n i); auto.
      - rewrite f_fd_eq, Nat.eqb_refl by auto. ring.
      - intros j Hj Ne. rewrite f_fd_eq by auto. replace (Nat.eqb (dn i) (dn j)) with false; [ring|]. symmetry. apply Nat.eqb_neq. intros E. apply dn_inj in E; auto.
    Qed.
    Lemma fd_up x i : (i < n)%nat -> mx_vec n (f_fd u g) x (up i) = 0.
    Proof.
      intros Hi. apply sumn_zero. intros j Hj. rewrite f_fd_eq by auto. replace (Nat.eqb (up i) (dn j)) with false; [ring|]. symmetry. apply Nat.eqb_neq. intros E. symmetry in E. apply dn_up in E; auto.
    Qed.
    Lemma fu_up x i : (i < n)%nat -> mx_vec n (f_fu u g) x (up i) = x i.
    Proof.
      intros Hi. unfold mx_vec. rewrite (sumn_single n i); auto.
      - rewrite f_fu_eq, Nat.eqb_refl by auto. ring.
      - intros j Hj Ne. rewrite f_fu_eq by auto. replace (Nat.eqb (up i) (up j)) with false; [ring|]. symmetry. apply Nat.eqb_neq. intros E. apply up_inj in E; auto.
    Qed.
    Lemma fu_dn x i : (i < n)%nat -> mx_vec n (f_fu u g) x (dn i) = 0.
    Proof.
      intros Hi. apply sumn_zero. intros j Hj. rewrite f_fu_eq by auto. replace (Nat.eqb (dn i) (up j)) with false; [ring|]. symmetry. apply Nat.eqb_neq. intros E. apply dn_up in E; auto.
    Qed.

    Lemma enters Tin x i : (i < n)%nat ->
      entering u m Tin x i = mx_vec (n_inlets u) (c_in u g) Tin i + mx_vec n (c_fu u g) x i.
    Proof.
      intros Hi. assert (Hn : (0 < n)%nat) by lia. pose proof (g_rev_eq O Hn) as R. unfold entering, c_in, c_fu, n_inlets, flow_at, mx_vec in *. destruct (x_kind u) eqn:K.
      - rewrite (sumn_zero n) by (intros; ring). cbn [sumn]. ring.
      - rewrite R. destruct (Rltb (nth 0 m 0) 0) eqn:E.
        + cbn [sumn]. destruct (Nat.eqb i (n - 1)) eqn:F.
          * apply Nat.eqb_eq in F. rewrite (sumn_zero n); [ring|]. intros j Hj. replace (Nat.eqb j (i + 1)) with false by (symmetry; apply Nat.eqb_neq; lia). ring.
          * apply Nat.eqb_neq in F. rewrite (sumn_single n (i + 1)); [rewrite Nat.eqb_refl; ring|lia|]. intros j Hj Ne.
            replace (Nat.eqb j (i + 1)) with false by (symmetry; apply Nat.eqb_neq; lia). ring.
        + cbn [sumn]. destruct i as [|i].
          * rewrite (sumn_zero n); [cbn [Nat.eqb]; ring|]. intros j Hj. replace (Nat.eqb 0 (j + 1)) with false by (symmetry; apply Nat.eqb_neq; lia). ring.
          * rewrite (sumn_single n i); [|lia|].
            -- replace (Nat.eqb (S i) (i + 1)) with true by (symmetry; apply Nat.eqb_eq; lia). cbn [Nat.eqb]. ring.
            -- intros j Hj Ne. replace (Nat.eqb (S i) (j + 1)) with false by (symmetry; apply Nat.eqb_neq; lia). ring.
      - rewrite sumn_id by auto. rewrite (sumn_zero n (fun _ => 0 * _)) by (intros; ring). ring.
    Qed.

    Lemma leaves x o : (o < n_inlets u)%nat -> leaving u m x o = mx_vec n (d_fu u g) x o.
    Proof.
      intros Ho. assert (Hn : (0 < n)%nat) by (destruct Us; auto). pose proof (g_rev_eq O Hn) as R. unfold leaving, d_fu, n_inlets, flow_at, mx_vec in *. destruct (x_kind u) eqn:K.
      - assert (W : forall j, (j < n)%nat -> Rabs (g_m g j) * g_cp g j = M 0%nat).
        { intros j Hj. unfold format in G. rewrite K in G. unfold tube_rate. rewrite K. destruct (one_cp ltac:(congruence)) as (x0 & c & -> & -> & Hx & _). injection G as <-. cbn [g_m g_cp nth].
          replace (Nat.ltb j n) with true by (symmetry; apply Nat.ltb_lt; auto). f_equal. rewrite Rabs_mult.
          assert (0 < INR n) by (apply lt_0_INR; auto).
          rewrite (Rabs_pos_eq (Rabs x0 / INR n)) by (apply Rmult_le_pos; [apply Rabs_pos|left; apply Rinv_0_lt_compat; auto]).
          replace (Rabs (sign x0)) with 1; [ring|]. destruct (Rlt_dec x0 0); [rewrite sign_neg by auto; rewrite Rabs_left; lra|rewrite sign_pos by lra; rewrite Rabs_pos_eq; lra]. }
        rewrite (sumn_ext n (fun l => Rabs (g_m g l) * g_cp g l) (fun _ => M 0%nat)) by auto. rewrite sumn_const.
        rewrite (sumn_ext n (fun k => Rabs (g_m g k) * g_cp g k / (INR n * M 0%nat) * x k) (fun k => x k * / INR n)); [rewrite sumn_scal_r; auto|].
        intros j Hj. rewrite W by auto. pose proof (rate_pos 0 Hn). assert (0 < INR n) by (apply lt_0_INR; auto). field. lra.
      - rewrite R. destruct (Rltb (nth 0 m 0) 0) eqn:E.
        + rewrite (sumn_single n 0); [cbn [Nat.eqb]; ring|auto|]. intros j Hj Ne. replace (Nat.eqb j 0) with false by (symmetry; apply Nat.eqb_neq; lia). ring.
        + rewrite (sumn_single n (n - 1)); [rewrite Nat.eqb_refl; ring|lia|]. intros j Hj Ne. replace (Nat.eqb j (n - 1)) with false by (symmetry; apply Nat.eqb_neq; lia). ring.
      - rewrite sumn_id by auto. auto.
    Qed.
  End Inputs.

  (** ** What the head does to quantities carried by the fluid *)
  Definition inlet_rate (o : nat) : R := Rabs (nth o m 0) * capacity_at cp o.

  Lemma head_carries (Tin x : nat -> R) : sumn n (fun i => M i * (entering u m Tin x i - x i))
    = sumn (n_inlets u) (fun o => inlet_rate o * (Tin o - leaving u m x o)).
  Proof.
    clear Rm.
    assert (Hn : (0 < n)%nat) by (destruct Us; auto). assert (In : 0 < INR n) by (apply lt_0_INR; auto).
    unfold entering, leaving, n_inlets, tube_rate, inlet_rate in *. destruct (x_kind u) eqn:K.
    - destruct (one_cp ltac:(congruence)) as (x0 & c & -> & -> & Hx & _). cbn [sumn nth capacity_at].
      rewrite sumn_scal, sumn_minus, sumn_const. field. lra.
    - destruct (one_cp ltac:(congruence)) as (x0 & c & -> & -> & Hx & _). cbn [sumn nth capacity_at]. rewrite Rplus_0_l.
      rewrite sumn_scal. f_equal. destruct (Rltb x0 0).
      + rewrite <- sumn_rev. set (y := fun i => match i with O => Tin O | S j => x (n - 1 - j)%nat end).
        rewrite (sumn_ext n _ (fun i => y i - y (S i))).
        * rewrite (sumn_ext n _ (fun i => - (y (S i) - y i))) by (intros; ring). rewrite sumn_opp, sumn_telescope. unfold y. destruct n as [|k] eqn:E; [lia|].
          replace (S k - 1 - k)%nat with 0%nat by lia. ring.
        * intros i Hi. unfold y. destruct i as [|i].
          -- replace (n - 1 - 0)%nat with (n - 1)%nat by lia. rewrite Nat.eqb_refl. auto.
          -- replace (Nat.eqb (n - 1 - S i) (n - 1)) with false by (symmetry; apply Nat.eqb_neq; lia). replace (n - 1 - S i + 1)%nat with (n - 1 - i)%nat by lia. auto.
      + set (y := fun i => match i with O => Tin O | S j => x j end).
        rewrite (sumn_ext n _ (fun i => - (y (S i) - y i))) by (intros i Hi; unfold y; ring). rewrite sumn_opp, sumn_telescope. unfold y. destruct n as [|k]; [lia|].
        replace (S k - 1)%nat with k by lia. ring.
    - auto.
  Qed.

  (** mixing does not increase a convex quantity *)
  Lemma mean_square n' (x : nat -> R) : (0 < n')%nat -> (sumn n' x / INR n') ^ 2 <= sumn n' (fun i => x i ^ 2) / INR n'.
  Proof.
    intros Hn. assert (In : 0 < INR n') by (apply lt_0_INR; auto). set (a := sumn n' x / INR n').
    assert (S : 0 <= sumn n' (fun i => (x i - a) ^ 2)) by (apply sumn_nonneg; intros; apply pow2_ge_0).
    rewrite (sumn_ext n' _ (fun i => x i ^ 2 - (2 * a) * x i + a ^ 2)) in S by (intros; ring).
    rewrite sumn_plus, sumn_minus, sumn_scal, sumn_const in S. replace (sumn n' x) with (a * INR n') in S by (unfold a; field; lra).
    apply Rmult_le_reg_r with (INR n'); auto. replace (sumn n' (fun i => x i ^ 2) / INR n' * INR n') with (sumn n' (fun i => x i ^ 2)) by (field; lra). lra.
  Qed.

  Lemma leaving_shift x t o : (o < n_inlets u)%nat -> leaving u m (fun i => x i - t) o = leaving u m x o - t.
  Proof.
    intros Ho. assert (Hn : (0 < n)%nat) by (destruct Us; auto). assert (In : 0 < INR n) by (apply lt_0_INR; auto). unfold leaving. destruct (x_kind u); auto.
    - rewrite sumn_minus, sumn_const. field. lra.
    - destruct (Rltb _ 0); auto.
  Qed.

  Lemma head_energy t (Tin x : nat -> R) : sumn n (fun i => M i * ((entering u m Tin x i - t) ^ 2 - (x i - t) ^ 2))
    <= sumn (n_inlets u) (fun o => inlet_rate o * ((Tin o - t) ^ 2 - (leaving u m x o - t) ^ 2)).
  Proof.
    clear Rm.
    assert (Hn : (0 < n)%nat) by (destruct Us; auto). assert (In : 0 < INR n) by (apply lt_0_INR; auto).
    pose proof (head_carries (fun o => (Tin o - t) ^ 2) (fun i => (x i - t) ^ 2)) as HC.
    assert (E : forall i, (i < n)%nat -> entering u m (fun o => (Tin o - t) ^ 2) (fun i => (x i - t) ^ 2) i = (entering u m Tin x i - t) ^ 2).
    { intros i Hi. unfold entering. destruct (x_kind u); auto. destruct (Rltb _ 0); [destruct (Nat.eqb _ _)|destruct i]; auto. }
    rewrite (sumn_ext n _ (fun i => M i * (entering u m (fun o => (Tin o - t) ^ 2) (fun i => (x i - t) ^ 2) i - (x i - t) ^ 2))) by (intros i Hi; rewrite E by auto; auto).
    rewrite HC. apply sumn_le. intros o Ho.
    assert (0 <= inlet_rate o).
    { destruct Us as (_ & _ & _ & H). destruct (H o Ho). unfold inlet_rate. apply Rmult_le_pos; [apply Rabs_pos|lra]. }
    apply Rmult_le_compat_l; auto. apply Rplus_le_compat_l, Ropp_le_contravar.
    rewrite <- leaving_shift by auto. unfold leaving. destruct (x_kind u); try (destruct (Rltb _ 0)); try lra. apply mean_square; auto.
  Qed.
End Setup.

(** ** Depths *)
Section Depths.
  Variables (b : bore) (k : nat) (r : option (list R)).
  Hypothesis (HP : 0 < bH b) (SS : segment_shares k r).
  Let ed := segment_edges b k r.

  Lemma shares_good : good_ratios k r.
  Proof. destruct r as [l|]; cbn in *; auto. destruct SS as (A & B & D). repeat split; auto. apply List.Forall_forall. auto. Qed.

  Lemma sh_nth l : (l <= k)%nat -> nth l ed 0 = bH b * sumn l (fun i => nth i (default_ratios k r) 0).
  Proof. intros Hl. apply edges_nth. rewrite ratios_length by apply shares_good. exact Hl. Qed.
  Lemma sh_0 : nth 0 ed 0 = 0.
  Proof. rewrite sh_nth by lia. cbn [sumn]. ring. Qed.
  Lemma sh_k : nth k ed 0 = bH b.
  Proof.
    rewrite sh_nth by lia. rewrite <- (ratios_length k r shares_good) at 1. rewrite <- Rsum_sumn, (ratios_sum k r shares_good). ring.
  Qed.
  Lemma sh_step l : (l < k)%nat -> nth l ed 0 <= nth (S l) ed 0.
  Proof. intros Hl. rewrite !sh_nth by lia. cbn [sumn]. pose proof (ratios_nonneg k r l shares_good). nra. Qed.
  Lemma sh_depth l : (l <= k)%nat -> nth l ed 0 = depth_of b k r l.
  Proof.
    intros Hl. rewrite sh_nth by exact Hl. unfold depth_of. f_equal.
    change (match r with Some l => l | None => repeat (1 / INR k) k end) with (default_ratios k r).
    rewrite Rsum_sumn, firstn_length, ratios_length by apply shares_good.
    replace (Nat.min l k) with l by lia. apply sumn_ext. intros i Hi. symmetry. apply nth_firstn. exact Hi.
  Qed.
  Lemma de_0 : depth_of b k r 0 = 0.
  Proof. rewrite <- sh_depth by lia. apply sh_0. Qed.
  Lemma de_k : depth_of b k r k = bH b.
  Proof. rewrite <- sh_depth by lia. apply sh_k. Qed.
  Lemma de_step l : (l < k)%nat -> depth_of b k r l <= depth_of b k r (S l).
  Proof. intros Hl. rewrite <- !sh_depth by lia. apply sh_step; auto. Qed.
  Lemma de_range l : (l <= k)%nat -> 0 <= depth_of b k r l <= bH b.
  Proof.
    intros Hl. assert (A : forall i j, (i <= j <= k)%nat -> depth_of b k r i <= depth_of b k r j).
    { intros i j [L Lj]. induction L as [|j L IH]; [lra|]. specialize (IH ltac:(lia)). pose proof (de_step j ltac:(lia)). lra. }
    pose proof (A O l ltac:(lia)) as A1. pose proof (A l k ltac:(lia)) as A2. rewrite de_0 in A1. rewrite de_k in A2. lra.
  Qed.
End Depths.
