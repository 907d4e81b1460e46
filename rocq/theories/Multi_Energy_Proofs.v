(** Energy of the fluid in a passive circuit: it decides the uniqueness of the profiles
    and the direction of the heat. *)
From Coq Require Import Psatz Classical_Prop.
From Coquelicot Require Import Coquelicot.
From Verif Require Import Base LinAlg LinInv Bore_Model Pipe_Proofs Pipe_Unique_Proofs Multi_Model Multi_Spec Multi_Ode_Proofs Multi_Profile_Proofs.
Local Open Scope R_scope.

Lemma sq_derive (f : R -> R) z d : is_derive f z d -> is_derive (fun z => f z ^ 2) z (2 * f z * d).
Proof.
  intros Df. assert (Y := is_derive_pow f 2 z d Df). cbn [pred pow] in Y. replace (INR 2) with 2 in Y by (cbn; lra).
  replace (2 * f z * d) with (2 * d * (f z * 1)) by ring. exact Y.
Qed.

Section Energy.
  Variables (u : multi) (dn up : nat -> nat) (M : nat -> R).
  Local Notation n := (x_n u).
  Hypothesis (U : passive_circuit u).
  Hypothesis (Leg : forall i, (i < n)%nat -> (dn i = i /\ up i = (i + n)%nat) \/ (dn i = (i + n)%nat /\ up i = i)).

  Lemma cond_sym p q : (p < 2 * n)%nat -> (q < 2 * n)%nat -> conductance u p q = conductance u q p.
  Proof. intros Hp Hq. unfold conductance. destruct U as [H _]. destruct (H p q Hp Hq) as [_ ->]. auto. Qed.

  Lemma legs_sum (f : nat -> R) : sumn (2 * n) f = sumn n (fun i => f (dn i) + f (up i)).
  Proof.
    replace (2 * n)%nat with (n + n)%nat by lia. rewrite sumn_split, <- sumn_plus. apply sumn_ext. intros i Hi.
    replace (n + i)%nat with (i + n)%nat by lia. destruct (Leg i Hi) as [[-> ->]|[-> ->]]; ring.
  Qed.

  Lemma gain_ext tb x y p : (p < 2 * n)%nat -> (forall q, (q < 2 * n)%nat -> x q = y q) -> gain u tb x p = gain u tb y p.
  Proof.
    intros Hp H. unfold gain. rewrite (H p Hp). f_equal. apply sumn_ext. intros q Hq. rewrite (H q Hq). auto.
  Qed.

  (** the exchanges between the pipes cancel out *)
  Lemma exchange_zero x : sumn (2 * n) (fun p => sumn (2 * n) (fun q => if Nat.eqb q p then 0 else conductance u p q * (x q - x p))) = 0.
  Proof.
    set (S := sumn _ _).
    assert (S = - S); [|lra]. unfold S at 1. rewrite sumn_swap. unfold S. rewrite <- sumn_opp. apply sumn_ext. intros p Hp.
    rewrite <- sumn_opp. apply sumn_ext. intros q Hq. rewrite (Nat.eqb_sym p q). destruct (Nat.eqb q p); [ring|]. rewrite (cond_sym q p) by auto. ring.
  Qed.

  Lemma exchange_square x : sumn (2 * n) (fun p => x p * sumn (2 * n) (fun q => if Nat.eqb q p then 0 else conductance u p q * (x q - x p)))
    = - (1/2 * sumn (2 * n) (fun p => sumn (2 * n) (fun q => if Nat.eqb q p then 0 else conductance u p q * (x q - x p) ^ 2))).
  Proof.
    set (S := sumn _ _). set (Q := sumn _ (fun p => sumn _ (fun q => if Nat.eqb q p then 0 else conductance u p q * (x q - x p) ^ 2))).
    assert (E1 : S = sumn (2 * n) (fun p => sumn (2 * n) (fun q => if Nat.eqb q p then 0 else conductance u p q * (x q - x p) * x p))).
    { unfold S. apply sumn_ext. intros p Hp. rewrite <- sumn_scal. apply sumn_ext. intros q Hq. destruct (Nat.eqb q p); ring. }
    assert (E2 : S = sumn (2 * n) (fun p => sumn (2 * n) (fun q => if Nat.eqb q p then 0 else conductance u p q * (x p - x q) * x q))).
    { rewrite E1, sumn_swap. apply sumn_ext. intros p Hp. apply sumn_ext. intros q Hq. rewrite (Nat.eqb_sym p q). destruct (Nat.eqb q p); auto.
      rewrite (cond_sym q p) by auto. auto. }
    assert (E3 : S + S = - Q); [|lra]. rewrite E1 at 1. rewrite E2. unfold Q. rewrite <- sumn_plus, <- sumn_opp. apply sumn_ext. intros p Hp.
    rewrite <- sumn_plus, <- sumn_opp. apply sumn_ext. intros q Hq. destruct (Nat.eqb q p); ring.
  Qed.

  Lemma gain_energy t tb (T : nat -> R) : sumn (2 * n) (fun p => (T p - t) * gain u tb T p)
    = (tb - t) * sumn (2 * n) (gain u tb T) - dissipation u (fun p => T p - tb).
  Proof.
    rewrite (sumn_ext _ (fun p => (T p - t) * gain u tb T p) (fun p => (tb - t) * gain u tb T p + (T p - tb) * gain u tb T p)) by (intros; ring).
    rewrite sumn_plus, sumn_scal. unfold Rminus at 3. f_equal. unfold dissipation.
    set (x := fun p => T p - tb).
    rewrite (sumn_ext _ (fun p => (T p - tb) * gain u tb T p)
      (fun p => - (conductance u p p * x p ^ 2) + x p * sumn (2 * n) (fun q => if Nat.eqb q p then 0 else conductance u p q * (x q - x p)))).
    - rewrite sumn_plus, sumn_opp, exchange_square. unfold x. ring.
    - intros p Hp. unfold gain, x.
      rewrite (sumn_ext _ (fun q => if Nat.eqb q p then 0 else conductance u p q * (T q - tb - (T p - tb))) (fun q => if Nat.eqb q p then 0 else conductance u p q * (T q - T p))).
      + ring.
      + intros q Hq. destruct (Nat.eqb q p); ring.
  Qed.

  Lemma dissipation_pos x : 0 <= dissipation u x.
  Proof.
    destruct (classic (exists p, (p < 2 * n)%nat /\ x p <> 0)) as [E|E].
    - destruct U as [_ P]. left. apply P. auto.
    - right. symmetry. unfold dissipation.
      assert (Z : forall p, (p < 2 * n)%nat -> x p = 0).
      { intros p Hp. destruct (Req_dec (x p) 0); auto. exfalso. apply E. eauto. }
      rewrite sumn_zero, sumn_zero; [ring| |].
      + intros p Hp. apply sumn_zero. intros q Hq. rewrite !Z by auto. destruct (Nat.eqb q p); ring.
      + intros p Hp. rewrite Z by auto. ring.
  Qed.

  Lemma dissipation_zero x p : dissipation u x = 0 -> (p < 2 * n)%nat -> x p = 0.
  Proof.
    intros Z Hp. destruct (Req_dec (x p) 0) as [E|E]; auto. destruct U as [_ P]. assert (0 < dissipation u x) by (apply P; eauto). lra.
  Qed.

  (** ** Along the borehole *)
  Definition flows (T : nat -> R -> R) (tb z : R) : Prop :=
    forall i, (i < n)%nat -> exists d e, is_derive (T (dn i)) z d /\ is_derive (T (up i)) z e
      /\ M i * d = gain u tb (fun p => T p z) (dn i) /\ - M i * e = gain u tb (fun p => T p z) (up i).

  (** heat carried upwards past a depth, and its energy *)
  Definition stream (T : nat -> R -> R) (z : R) : R := sumn n (fun i => M i * (T (dn i) z - T (up i) z)).
  Definition work (t : R) (T : nat -> R -> R) (z : R) : R := 1/2 * sumn n (fun i => M i * ((T (dn i) z - t) ^ 2 - (T (up i) z - t) ^ 2)).

  Lemma stream_derive T tb z : flows T tb z -> is_derive (stream T) z (sumn (2 * n) (gain u tb (fun p => T p z))).
  Proof.
    intros F. rewrite legs_sum. unfold stream. apply (is_derive_sumn n (fun i z => M i * (T (dn i) z - T (up i) z))). intros i Hi.
    destruct (F i Hi) as [d [e [D1 [D2 [E1 E2]]]]]. rewrite <- E1, <- E2.
    pose proof (is_derive_minus _ _ z _ _ D1 D2) as D3. pose proof (is_derive_scal _ z (M i) _ D3) as D4.
    match type of D4 with is_derive _ _ ?x => match goal with |- is_derive _ _ ?y => replace y with x; [exact D4|] end end.
    change (M i * (d - e) = M i * d + - M i * e). ring.
  Qed.

  Lemma work_derive t T tb z : flows T tb z -> is_derive (work t T) z
    ((tb - t) * sumn (2 * n) (gain u tb (fun p => T p z)) - dissipation u (fun p => T p z - tb)).
  Proof.
    intros F. rewrite <- gain_energy, legs_sum. unfold work.
    assert (S : is_derive (fun z => sumn n (fun i => M i * ((T (dn i) z - t) ^ 2 - (T (up i) z - t) ^ 2))) z
      (sumn n (fun i => 2 * ((T (dn i) z - t) * gain u tb (fun p => T p z) (dn i) + (T (up i) z - t) * gain u tb (fun p => T p z) (up i))))).
    { apply (is_derive_sumn n (fun i z => M i * ((T (dn i) z - t) ^ 2 - (T (up i) z - t) ^ 2))). intros i Hi.
      destruct (F i Hi) as [d [e [D1 [D2 [E1 E2]]]]]. rewrite <- E1, <- E2.
      assert (C : forall (f : R -> R) l, is_derive f z l -> is_derive (fun z => f z - t) z l).
      { intros f l Df. pose proof (is_derive_minus f (fun _ => t) z l 0 Df (is_derive_const t z)) as Y. replace l with (minus l 0); [exact Y|].
        change (l - 0 = l). ring. }
      pose proof (is_derive_minus _ _ z _ _ (sq_derive _ _ _ (C _ _ D1)) (sq_derive _ _ _ (C _ _ D2))) as D3.
      pose proof (is_derive_scal _ z (M i) _ D3) as D4.
      match type of D4 with is_derive _ _ ?x => match goal with |- is_derive _ _ ?y => replace y with x; [exact D4|] end end.
      change (M i * (2 * (T (dn i) z - t) * d - 2 * (T (up i) z - t) * e) = 2 * ((T (dn i) z - t) * (M i * d) + (T (up i) z - t) * (- M i * e))). ring. }
    pose proof (is_derive_scal _ z (1/2) _ S) as D5. rewrite sumn_scal in D5.
    match type of D5 with is_derive _ _ ?x => match goal with |- is_derive _ _ ?y => replace y with x; [exact D5|] end end.
    match goal with |- ?a = ?b => change (@eq R a b) end. lra.
  Qed.

  Section Segments.
    Variables (k : nat) (x : nat -> R) (T : nat -> R -> R) (Tb : nat -> R).
    Hypothesis (X : forall l, (l < k)%nat -> x l <= x (S l)).
    Hypothesis (C : forall p z, (p < 2 * n)%nat -> x O <= z <= x k -> continuous (T p) z).
    Hypothesis (F : forall l z, (l < k)%nat -> x l < z < x (S l) -> flows T (Tb l) z).

    Lemma leg_bounds i : (i < n)%nat -> (dn i < 2 * n)%nat /\ (up i < 2 * n)%nat.
    Proof. intros Hi. destruct (Leg i Hi) as [[-> ->]|[-> ->]]; lia. Qed.

    Lemma stream_cont z : x O <= z <= x k -> continuous (stream T) z.
    Proof.
      intros Hz. unfold stream. apply (continuous_sumn n (fun i z => M i * (T (dn i) z - T (up i) z))). intros i Hi.
      destruct (leg_bounds i Hi). apply (continuous_mult (fun _ => M i) (fun z => T (dn i) z - T (up i) z)); [apply continuous_const|].
      apply (continuous_minus (T (dn i)) (T (up i))); auto.
    Qed.

    Lemma work_cont t z : x O <= z <= x k -> continuous (work t T) z.
    Proof.
      intros Hz. unfold work. apply (continuous_mult (fun _ => 1/2) (fun z => sumn n _)); [apply continuous_const|].
      apply (continuous_sumn n (fun i z => M i * ((T (dn i) z - t) ^ 2 - (T (up i) z - t) ^ 2))). intros i Hi.
      destruct (leg_bounds i Hi) as [B1 B2]. apply (continuous_mult (fun _ => M i) (fun z => (T (dn i) z - t) ^ 2 - (T (up i) z - t) ^ 2)); [apply continuous_const|].
      assert (Sq : forall p, (p < 2 * n)%nat -> continuous (fun z => (T p z - t) ^ 2) z).
      { intros p Hp. cbn [pow]. assert (Cd : continuous (fun z => T p z - t) z) by (apply (continuous_minus (T p) (fun _ => t)); [auto|apply continuous_const]).
        apply (continuous_mult (fun z => T p z - t) (fun z => (T p z - t) * 1)); [auto|].
        apply (continuous_mult (fun z => T p z - t) (fun _ => 1)); [auto|apply continuous_const]. }
      apply (continuous_minus (fun z => (T (dn i) z - t) ^ 2) (fun z => (T (up i) z - t) ^ 2)); auto.
    Qed.

    Lemma seg_range l z : (l < k)%nat -> x l <= z <= x (S l) -> x O <= z <= x k.
    Proof.
      intros Hl Hz. assert (Mo : forall i j, (i <= j <= k)%nat -> x i <= x j).
      { intros i j [H Hj]. induction H as [|j H IH]; [lra|]. specialize (IH ltac:(lia)). specialize (X j ltac:(lia)). lra. }
      pose proof (Mo O l ltac:(lia)). pose proof (Mo (S l) k ltac:(lia)). lra.
    Qed.

    (** in a segment, the energy decreases at least as the heat at the wall temperature *)
    Lemma work_segment t l a b : (l < k)%nat -> x l <= a -> a <= b -> b <= x (S l) ->
      work t T b - work t T a <= (Tb l - t) * (stream T b - stream T a).
    Proof.
      intros Hl Ha Hab Hb.
      set (f := fun z => work t T z - (Tb l - t) * stream T z).
      assert (Fd : forall z, x l < z < x (S l) -> is_derive f z (- dissipation u (fun p => T p z - Tb l))).
      { intros z Hz. pose proof (work_derive t T (Tb l) z (F l z Hl Hz)) as D1. pose proof (stream_derive T (Tb l) z (F l z Hl Hz)) as D2.
        pose proof (is_derive_minus _ _ z _ _ D1 (is_derive_scal _ z (Tb l - t) _ D2)) as D3.
        match type of D3 with is_derive _ _ ?x => match goal with |- is_derive _ _ ?y => replace y with x; [exact D3|] end end.
        match goal with |- minus ?p ?q = _ => change (minus p q) with (p - q) end. match goal with |- ?a = ?b => change (@eq R a b) end. ring. }
      destruct (MVT_gen f a b (fun z => - dissipation u (fun p => T p z - Tb l))) as [c [Hc E]].
      - intros z. rewrite Rmin_left, Rmax_right by lra. intros Hz. apply Fd. lra.
      - intros z. rewrite Rmin_left, Rmax_right by lra. intros Hz. apply continuity_pt_filterlim.
        assert (Rz : x O <= z <= x k) by (apply (seg_range l); auto; lra).
        apply (continuous_minus (work t T) (fun z => (Tb l - t) * stream T z)); [apply work_cont; auto|].
        apply (continuous_mult (fun _ => Tb l - t) (stream T)); [apply continuous_const|apply stream_cont; auto].
      - unfold f in E. pose proof (dissipation_pos (fun p => T p c - Tb l)). nra.
    Qed.

    Lemma work_total t : work t T (x k) - work t T (x O) <= sumn k (fun l => (Tb l - t) * (stream T (x (S l)) - stream T (x l))).
    Proof.
      assert (A : forall j, (j <= k)%nat -> work t T (x j) - work t T (x O) <= sumn j (fun l => (Tb l - t) * (stream T (x (S l)) - stream T (x l)))).
      { induction j as [|j IH]; intros Hj; cbn [sumn]; [lra|]. specialize (IH ltac:(lia)).
        pose proof (work_segment t j (x j) (x (S j)) ltac:(lia) ltac:(lra) (X j ltac:(lia)) ltac:(lra)). lra. }
      apply A. auto.
    Qed.
  End Segments.

  (** ** No temperatures without a source *)
  Section Vanish.
    Variables (k : nat) (x : nat -> R) (T : nat -> R -> R).
    Hypothesis (X : forall l, (l < k)%nat -> x l <= x (S l)).
    Hypothesis (C : forall p z, (p < 2 * n)%nat -> x O <= z <= x k -> continuous (T p) z).
    Hypothesis (F : forall l z, (l < k)%nat -> x l < z < x (S l) -> flows T 0 z).
    Hypothesis (W0 : work 0 T (x O) <= 0) (WH : work 0 T (x k) = 0).

    Let seg := work_segment k x T (fun _ => 0) X C F 0.

    Lemma work_edges i j : (i <= j <= k)%nat -> work 0 T (x j) <= work 0 T (x i).
    Proof.
      intros [H Hj]. induction H as [|j H IH]; [lra|]. specialize (IH ltac:(lia)).
      pose proof (seg j (x j) (x (S j)) ltac:(lia) ltac:(lra) (X j ltac:(lia)) ltac:(lra)) as S. lra.
    Qed.

    Lemma work_zero l z : (l < k)%nat -> x l <= z <= x (S l) -> work 0 T z = 0.
    Proof.
      intros Hl Hz. pose proof (work_edges 0 l ltac:(lia)). pose proof (work_edges (S l) k ltac:(lia)).
      pose proof (seg l (x l) z Hl ltac:(lra) ltac:(lra) ltac:(lra)). pose proof (seg l z (x (S l)) Hl ltac:(lra) ltac:(lra) ltac:(lra)). lra.
    Qed.

    Lemma zero_inside l z p : (l < k)%nat -> x l < z < x (S l) -> (p < 2 * n)%nat -> T p z = 0.
    Proof.
      intros Hl Hz Hp.
      pose proof (work_derive 0 T 0 z (F l z Hl Hz)) as D1.
      assert (D2 : is_derive (work 0 T) z 0).
      { apply (is_derive_ext_loc (fun _ => 0)).
        - assert (Z1 := open_gt (x l) z ltac:(lra)). assert (Z2 := open_lt (x (S l)) z ltac:(lra)).
          generalize (filter_and _ _ Z1 Z2). apply filter_imp. intros y [Y1 Y2]. symmetry. apply (work_zero l); auto. lra.
        - apply (is_derive_const (V := R_NormedModule)). }
      apply is_derive_unique in D1. apply is_derive_unique in D2.
      assert (Z : dissipation u (fun p => T p z - 0) = 0) by lra.
      pose proof (dissipation_zero _ p Z Hp). cbn in H. lra.
    Qed.

    Lemma zero_everywhere p z : x O < x k -> x O <= z <= x k -> (p < 2 * n)%nat -> T p z = 0.
    Proof.
      intros Hn Hz Hp. destruct (located k x X z Hz Hn) as [l [Hl [Ll Zl]]].
      apply (vanish_at (T p) (x l) (x (S l)) z Ll Zl (C p z Hp Hz)). intros y Hy. apply (zero_inside l); auto.
    Qed.
  End Vanish.
End Energy.
