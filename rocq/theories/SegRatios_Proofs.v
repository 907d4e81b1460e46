(** Proofs on [segment_ratios]. *)
From Verif Require Import Base TimeGrid_Model TimeGrid_Spec TimeGrid_Geo_Proofs.

Lemma sr_first_sound mk roots l : sr_first mk roots = Some l ->
  exists x, In x roots /\ l = mk x /\ sr_accept (mk x) = true.
Proof.
  induction roots as [|a r IH]; cbn; intros H; [discriminate|].
  destruct (sr_accept (mk a)) eqn:E.
  - exists a. inversion H; subst. auto.
  - destruct (IH H) as (x & I & A). exists x. split; [right; exact I|exact A].
Qed.

Lemma sr_first_complete mk roots x : In x roots -> sr_accept (mk x) = true ->
  exists l, sr_first mk roots = Some l.
Proof.
  induction roots as [|a r IH]; cbn; intros I H; [contradiction|].
  destruct (sr_accept (mk a)) eqn:E; [eauto|].
  destruct I as [->|I]; [congruence|]. exact (IH I H).
Qed.

Lemma accept_spec l : sr_accept l = true <->
  Rabs (1 - Rsum l) < / 10 ^ 6 /\ forall x, In x l -> 0 < x.
Proof.
  unfold sr_accept. rewrite andb_true_iff, Rltb_true, forallb_forall.
  split; intros [A B]; (split; [exact A|]); intros x I; specialize (B x I); apply Rltb_true; exact B.
Qed.

Definition dz (nz : nat) (e x : R) : list R := map (fun i => x ^ i * e) (seq 0 nz).

Lemma dz_length nz e x : length (dz nz e x) = nz.
Proof. unfold dz. rewrite map_length, seq_length. reflexivity. Qed.
Lemma dz_nth nz e x i : (i < nz)%nat -> nth i (dz nz e x) 0 = x ^ i * e.
Proof. intros. unfold dz. rewrite nth_map_seq by assumption. reflexivity. Qed.
Lemma dz_sum nz e x : Rsum (dz nz e x) = e * sumn nz (fun i => x ^ i).
Proof. unfold dz. rewrite Rsum_map_seq, (sumn_scal_r nz e (fun i => x ^ i)). ring. Qed.
Lemma dz_pos nz e x : 0 < e -> 0 < x -> forall y, In y (dz nz e x) -> 0 < y.
Proof.
  intros He Hx y I. apply in_map_iff in I. destruct I as (i & <- & _).
  apply Rmult_lt_0_compat; [apply pow_lt; exact Hx|exact He].
Qed.

Lemma even_length nz e x : length (sr_even nz e x) = (2 * nz)%nat.
Proof. unfold sr_even. fold (dz nz e x). rewrite app_length, rev_length, dz_length. lia. Qed.
Lemma odd_length nz e x : length (sr_odd nz e x) = (2 * nz + 1)%nat.
Proof. unfold sr_odd. fold (dz nz e x). rewrite !app_length, rev_length, dz_length. cbn. lia. Qed.
Lemma even_sum nz e x : Rsum (sr_even nz e x) = 2 * e * sumn nz (fun i => x ^ i).
Proof. unfold sr_even. fold (dz nz e x). rewrite Rsum_app, Rsum_rev, dz_sum. ring. Qed.
Lemma odd_sum nz e x : Rsum (sr_odd nz e x) = 2 * e * sumn nz (fun i => x ^ i) + e * x ^ nz.
Proof.
  unfold sr_odd. fold (dz nz e x). rewrite !Rsum_app, Rsum_rev, dz_sum. cbn [Rsum fold_right]. ring.
Qed.
Lemma even_sym nz e x : symmetric (sr_even nz e x).
Proof. unfold symmetric, sr_even. rewrite rev_app_distr, rev_involutive. reflexivity. Qed.
Lemma odd_sym nz e x : symmetric (sr_odd nz e x).
Proof. unfold symmetric, sr_odd. rewrite !rev_app_distr, rev_involutive. cbn. rewrite <- app_assoc. reflexivity. Qed.
Lemma even_first nz e x i : (i < nz)%nat -> nth i (sr_even nz e x) 0 = x ^ i * e.
Proof.
  intros H. unfold sr_even. fold (dz nz e x). rewrite app_nth1 by (rewrite dz_length; exact H).
  apply dz_nth; exact H.
Qed.
Lemma odd_first nz e x i : (i <= nz)%nat -> nth i (sr_odd nz e x) 0 = x ^ i * e.
Proof.
  intros H. unfold sr_odd. fold (dz nz e x). destruct (Nat.eq_dec i nz) as [->|N].
  - rewrite app_nth2 by (rewrite dz_length; lia). rewrite dz_length, Nat.sub_diag. reflexivity.
  - rewrite app_nth1 by (rewrite dz_length; lia). apply dz_nth; lia.
Qed.
Lemma even_pos nz e x : 0 < e -> 0 < x -> forall y, In y (sr_even nz e x) -> 0 < y.
Proof.
  intros He Hx y I. unfold sr_even in I. apply in_app_or in I. rewrite <- in_rev in I.
  destruct I as [I|I]; apply (dz_pos nz e x He Hx); exact I.
Qed.
Lemma odd_pos nz e x : 0 < e -> 0 < x -> forall y, In y (sr_odd nz e x) -> 0 < y.
Proof.
  intros He Hx y I. unfold sr_odd in I. apply in_app_or in I. destruct I as [I|I].
  - apply (dz_pos nz e x He Hx); exact I.
  - apply in_app_or in I. rewrite <- in_rev in I. destruct I as [I|I].
    + destruct I as [<-|[]]. apply Rmult_lt_0_compat; [apply pow_lt; exact Hx|exact He].
    + apply (dz_pos nz e x He Hx); exact I.
Qed.
Lemma even_expands nz e x : expands x (sr_even nz e x).
Proof.
  intros k H. rewrite even_length in H. rewrite !even_first by lia. cbn; ring.
Qed.
Lemma odd_expands nz e x : expands x (sr_odd nz e x).
Proof.
  intros k H. rewrite odd_length in H. rewrite !odd_first by lia. cbn; ring.
Qed.

(** Roots and unit sums. *)
Lemma even_root nz e x : sr_poly_even nz e x = (1 - x) * (1 - Rsum (sr_even nz e x)).
Proof.
  rewrite even_sum. unfold sr_poly_even. destruct (Req_dec x 1) as [->|N].
  - rewrite pow1. ring.
  - rewrite geom_sum by exact N. field. lra.
Qed.
Lemma odd_root nz e x : sr_poly_odd nz e x = (1 - x) * (1 - Rsum (sr_odd nz e x)).
Proof.
  rewrite odd_sum. unfold sr_poly_odd. destruct (Req_dec x 1) as [->|N].
  - rewrite !pow1. ring.
  - rewrite geom_sum by exact N. rewrite Nat.add_1_r. cbn [pow]. field. lra.
Qed.

Lemma continuity_geom n : continuity (fun x => sumn n (fun i => x ^ i)).
Proof.
  induction n as [|n IH]; cbn [sumn]; [apply continuity_const; intros ? ?; reflexivity|].
  apply (continuity_plus (fun x => sumn n (fun i => x ^ i)) (fun x => x ^ n)); [exact IH|].
  apply derivable_continuous. intros y. apply derivable_pt_pow.
Qed.

Lemma pow_continuity n : continuity (fun x => x ^ n).
Proof. apply derivable_continuous. intros y. apply derivable_pt_pow. Qed.

Lemma geom_ge n x : (2 <= n)%nat -> 0 <= x -> 1 + x <= sumn n (fun i => x ^ i).
Proof.
  intros H Hx. destruct n as [|[|n]]; try lia. rewrite !sumn_S_l. cbn [pow].
  assert (0 <= sumn n (fun i => x * (x * x ^ i))).
  { apply sumn_nonneg. intros. apply Rmult_le_pos; [lra|]. apply Rmult_le_pos; [lra|apply pow_le; lra]. }
  lra.
Qed.

Lemma geom_at0 n : (1 <= n)%nat -> sumn n (fun i => 0 ^ i) = 1.
Proof.
  intros H. destruct n; [lia|]. rewrite sumn_S_l. rewrite sumn_zero; [cbn; ring|].
  intros. cbn. ring.
Qed.

(** A positive expansion factor closing the borehole exists. *)
Lemma factor_exists n e (odd : bool) : (2 <= n)%nat -> 0 < e < 1/2 ->
  exists x, 0 < x /\ 2 * e * sumn n (fun i => x ^ i) + (if odd then e else 0) * x ^ n = 1.
Proof.
  intros Hn [He He2].
  set (c := if odd then e else 0). assert (0 <= c <= e) by (unfold c; destruct odd; lra).
  set (g := fun x => (2 * e * sumn n (fun i => x ^ i) + c * x ^ n) - 1).
  assert (Hc : continuity g).
  { unfold g. apply (continuity_minus (fun x => 2 * e * sumn n (fun i => x ^ i) + c * x ^ n) (fun _ => 1)).
    2:{ apply continuity_const; intros ? ?; reflexivity. }
    apply (continuity_plus (fun x => 2 * e * sumn n (fun i => x ^ i)) (fun x => c * x ^ n)).
    - apply (continuity_mult (fun _ => 2 * e) (fun x => sumn n (fun i => x ^ i)));
        [apply continuity_const; intros ? ?; reflexivity|apply continuity_geom].
    - apply (continuity_mult (fun _ => c) (fun x => x ^ n));
        [apply continuity_const; intros ? ?; reflexivity|apply pow_continuity]. }
  assert (Pe : 0 < / e) by (apply Rinv_0_lt_compat; exact He).
  destruct (IVT g 0 (/ e) Hc Pe) as (z & Hz & Gz).
  - unfold g. rewrite geom_at0 by lia. rewrite pow_i by lia. lra.
  - unfold g. pose proof (geom_ge n (/ e) Hn ltac:(lra)).
    pose proof (pow_lt (/ e) n Pe).
    assert (e * / e = 1) by (field; lra). nra.
  - exists z. unfold g in Gz. split; [|lra].
    destruct (Req_dec z 0) as [->|N]; [|lra].
    rewrite geom_at0 in Gz by lia. rewrite pow_i in Gz by lia. lra.
Qed.

Lemma half_even n : Nat.even n = true -> (2 * (n / 2) = n)%nat.
Proof.
  intros H. apply Nat.even_spec in H. destruct H as [k ->]. rewrite (Nat.mul_comm 2 k), Nat.div_mul by lia. lia.
Qed.
Lemma half_odd n : Nat.even n = false -> (2 * ((n - 1) / 2) + 1 = n)%nat.
Proof.
  intros H. assert (O : Nat.odd n = true) by (rewrite <- Nat.negb_even, H; reflexivity).
  apply Nat.odd_spec in O. destruct O as [k ->].
  replace (2 * k + 1 - 1)%nat with (k * 2)%nat by lia. rewrite Nat.div_mul by lia. lia.
Qed.

(** Shape of any returned discretization. *)
Lemma sr_shape roots n e l : (4 <= n)%nat -> segment_ratios roots n e = Some l ->
  0 < e < 1/2
  /\ ((Rabs (1 - INR n * e) < / 10 ^ 6 /\ l = repeat (1 / INR n) n)
   \/ (~ Rabs (1 - INR n * e) < / 10 ^ 6 /\ exists x, In x (roots n e)
        /\ sr_accept l = true
        /\ ((Nat.even n = true /\ l = sr_even (n / 2) e x)
            \/ (Nat.even n = false /\ l = sr_odd ((n - 1) / 2) e x)))).
Proof.
  intros Hn H. unfold segment_ratios in H.
  destruct (Nat.eqb_spec n 0); [lia|].
  destruct (Nat.leb_spec n 2); [lia|]. cbn [orb] in H.
  destruct (Rltb 0 e) eqn:E0; [|discriminate]. destruct (Rltb e (1/2)) eqn:E1; [|discriminate].
  apply Rltb_true in E0. apply Rltb_true in E1. split; [lra|]. cbn [andb negb] in H.
  destruct (Nat.eqb_spec n 1); [lia|]. destruct (Nat.eqb_spec n 2); [lia|].
  destruct (Nat.eqb_spec n 3); [lia|].
  destruct (Rltb (Rabs (1 - INR n * e)) (/ 10 ^ 6)) eqn:E2.
  - left. apply Rltb_true in E2. inversion H; auto.
  - right. apply Rltb_false in E2. split; [lra|].
    destruct (Nat.even n) eqn:Ev; apply sr_first_sound in H; destruct H as (x & I & -> & A); exists x; auto.
Qed.

Lemma repeat_sym (x : R) n : symmetric (repeat x n).
Proof.
  unfold symmetric. apply (list_eq_nth 0). { rewrite rev_length. reflexivity. }
  intros i Hi. rewrite rev_length, repeat_length in Hi.
  rewrite rev_nth by (rewrite repeat_length; exact Hi). rewrite repeat_length.
  rewrite !nth_indep with (d := 0) (d' := x) by (rewrite repeat_length; lia).
  rewrite !nth_repeat. reflexivity.
Qed.

Lemma eps6 : 0 < / 10 ^ 6.
Proof. apply Rinv_0_lt_compat, pow_lt; lra. Qed.

(** Sound for whatever the root finder reports. *)
Lemma sr_sound roots n e l : segment_ratios roots n e = Some l ->
  length l = n /\ (forall x, In x l -> 0 < x) /\ Rabs (1 - Rsum l) < / 10 ^ 6 /\ symmetric l
  /\ ((3 <= n)%nat -> Rabs (nth 0 l 0 - e) < / 10 ^ 6 /\ exists x, 0 < x /\ expands x l).
Proof.
  intros H. pose proof eps6 as P6. destruct (Nat.le_gt_cases 4 n) as [L|L].
  - destruct (sr_shape _ _ _ _ L H) as (He & [[U ->]|(U & x & I & A & S)]).
    + assert (Pn : 0 < INR n) by (apply lt_0_INR; lia).
      split; [apply repeat_length|]. split.
      { intros y Hy. apply repeat_spec in Hy. subst. apply Rdiv_lt_0_compat; lra. }
      split. { rewrite Rsum_repeat. replace (1 - INR n * (1 / INR n)) with 0 by (field; lra). rewrite Rabs_R0; exact P6. }
      split; [apply repeat_sym|]. intros _. split.
      * rewrite nth_indep with (d' := 1 / INR n) by (rewrite repeat_length; lia). rewrite nth_repeat.
        replace (1 / INR n - e) with ((1 - INR n * e) / INR n) by (field; lra).
        unfold Rdiv. rewrite Rabs_mult. rewrite (Rabs_right (/ INR n)).
        2:{ apply Rle_ge, Rlt_le, Rinv_0_lt_compat; lra. }
        assert (/ INR n <= 1). { rewrite <- Rinv_1. apply Rinv_le_contravar; [lra|]. apply (le_INR 1). lia. }
        pose proof (Rabs_pos (1 - INR n * e)). assert (0 < / INR n) by (apply Rinv_0_lt_compat; lra). nra.
      * exists 1. split; [lra|]. intros k Hk. rewrite repeat_length in Hk.
        rewrite !nth_indep with (d := 0) (d' := 1 / INR n) by (rewrite repeat_length; lia).
        rewrite !nth_repeat. ring.
    + apply accept_spec in A. destruct A as [A1 A2].
      assert (Hx : forall l', l' = l -> (1 < length l')%nat -> nth 1 l' 0 = x ^ 1 * e -> 0 < x).
      { intros l' -> Hl Hx. assert (0 < nth 1 l 0) by (apply A2, nth_In; exact Hl). rewrite Hx in H0.
        cbn in H0. nra. }
      destruct S as [[Ev Sl]|[Ev Sl]].
      * pose proof (half_even n Ev) as Hh. set (nz := (n / 2)%nat) in *.
        assert (Px : 0 < x). { apply (Hx (sr_even nz e x)); [congruence|rewrite even_length; lia|apply even_first; lia]. }
        subst l. split; [rewrite even_length; exact Hh|]. split; [exact A2|]. split; [exact A1|].
        split; [apply even_sym|]. intros _. split; [|exists x; split; [exact Px|apply even_expands]].
        rewrite even_first by lia. cbn. replace (1 * e - e) with 0 by ring. rewrite Rabs_R0; exact P6.
      * pose proof (half_odd n Ev) as Hh. set (nz := ((n - 1) / 2)%nat) in *.
        assert (Px : 0 < x). { apply (Hx (sr_odd nz e x)); [congruence|rewrite odd_length; lia|apply odd_first; lia]. }
        subst l. split; [rewrite odd_length; exact Hh|]. split; [exact A2|]. split; [exact A1|].
        split; [apply odd_sym|]. intros _. split; [|exists x; split; [exact Px|apply odd_expands]].
        rewrite odd_first by lia. cbn. replace (1 * e - e) with 0 by ring. rewrite Rabs_R0; exact P6.
  - unfold segment_ratios in H. destruct n as [|[|[|[|n]]]]; try lia; cbn [Nat.eqb Nat.leb orb negb] in H.
    + discriminate.
    + inversion H; subst. cbn [length Rsum fold_right]. split; [reflexivity|]. split.
      { intros y [<-|[]]; lra. }
      split; [replace (1 - (1 + 0)) with 0 by ring; rewrite Rabs_R0; exact P6|].
      split; [reflexivity|lia].
    + inversion H; subst. cbn [length Rsum fold_right]. split; [reflexivity|]. split.
      { intros y [<-|[<-|[]]]; lra. }
      split; [replace (1 - (1/2 + (1/2 + 0))) with 0 by field; rewrite Rabs_R0; exact P6|].
      split; [reflexivity|lia].
    + destruct (Rltb 0 e) eqn:E0; [|discriminate]. destruct (Rltb e (1/2)) eqn:E1; [|discriminate].
      apply Rltb_true in E0. apply Rltb_true in E1. cbn in H.
      inversion H; subst. cbn [length Rsum fold_right nth]. split; [reflexivity|]. split.
      { intros y [<-|[<-|[<-|[]]]]; lra. }
      split; [replace (1 - (e + (1 - 2 * e + (e + 0)))) with 0 by ring; rewrite Rabs_R0; exact P6|].
      split; [reflexivity|]. intros _. split; [replace (e - e) with 0 by ring; rewrite Rabs_R0; exact P6|].
      exists ((1 - 2 * e) / e). split; [apply Rdiv_lt_0_compat; lra|].
      intros k Hk. cbn [length] in Hk. assert (k = 0)%nat by lia. subst. cbn [nth]. field. lra.
Qed.

(** With the exact real roots the function never fails and the sum is exactly one. *)
Lemma sr_exact roots n e : sr_exact_roots n e (roots n e) -> (1 <= n)%nat -> 0 < e < 1/2 ->
  exists l, segment_ratios roots n e = Some l /\ Rsum l = 1
    /\ ((3 <= n)%nat -> ~ Rabs (1 - INR n * e) < / 10 ^ 6 -> nth 0 l 0 = e).
Proof.
  intros HR Hn He. pose proof eps6 as P6.
  destruct (Nat.le_gt_cases 4 n) as [L|L].
  - assert (X : exists l, segment_ratios roots n e = Some l).
    { unfold segment_ratios.
      destruct (Nat.eqb_spec n 0); [lia|]. destruct (Nat.leb_spec n 2); [lia|]. cbn [orb].
      assert (E0 : Rltb 0 e = true) by (apply Rltb_true; lra).
      assert (E1 : Rltb e (1/2) = true) by (apply Rltb_true; lra). rewrite E0, E1. cbn [andb negb].
      destruct (Nat.eqb_spec n 1); [lia|]. destruct (Nat.eqb_spec n 2); [lia|].
      destruct (Nat.eqb_spec n 3); [lia|].
      destruct (Rltb (Rabs (1 - INR n * e)) (/ 10 ^ 6)); [eauto|].
      destruct (Nat.even n) eqn:Ev.
      - pose proof (half_even n Ev) as Hh. set (nz := (n / 2)%nat) in *.
        destruct (factor_exists nz e false ltac:(lia) He) as (x & Px & Sx).
        apply (sr_first_complete _ _ x).
        + apply HR. rewrite Ev. fold nz. rewrite even_root, even_sum.
          replace (2 * e * sumn nz (fun i => x ^ i)) with 1 by lra. ring.
        + apply accept_spec. split; [|apply even_pos; lra].
          rewrite even_sum. replace (1 - _) with 0 by lra. rewrite Rabs_R0; exact P6.
      - pose proof (half_odd n Ev) as Hh. set (nz := ((n - 1) / 2)%nat) in *.
        destruct (factor_exists nz e true ltac:(lia) He) as (x & Px & Sx).
        apply (sr_first_complete _ _ x).
        + apply HR. rewrite Ev. fold nz. rewrite odd_root, odd_sum. rewrite Sx. ring.
        + apply accept_spec. split; [|apply odd_pos; lra].
          rewrite odd_sum. rewrite Sx. replace (1 - 1) with 0 by ring. rewrite Rabs_R0; exact P6. }
    destruct X as [l Hl]. exists l. split; [exact Hl|].
    destruct (sr_shape _ _ _ _ L Hl) as (_ & [[U ->]|(U & x & I & A & S)]).
    + split. { rewrite Rsum_repeat. field. apply not_0_INR; lia. } intros _ N. contradiction.
    + apply accept_spec in A. destruct A as [A1 A2]. apply HR in I.
      destruct S as [[Ev Sl]|[Ev Sl]]; rewrite Ev in I; subst l.
      * pose proof (half_even n Ev) as Hh. split; [|intros _ _; rewrite even_first by lia; cbn; ring].
        rewrite even_root in I.
        apply Rmult_integral in I. destruct I as [I|I]; [|lra]. exfalso. apply U.
        assert (x = 1) by lra. subst x. rewrite even_sum in A1.
        rewrite (sumn_ext _ _ (fun _ => 1)) in A1 by (intros; apply pow1). rewrite sumn_const in A1.
        rewrite <- Hh. rewrite mult_INR. cbn [INR].
        replace (1 - (1 + 1) * INR (n / 2) * e) with (1 - 2 * e * (INR (n / 2) * 1)) by ring. exact A1.
      * pose proof (half_odd n Ev) as Hh. split; [|intros _ _; rewrite odd_first by lia; cbn; ring].
        rewrite odd_root in I.
        apply Rmult_integral in I. destruct I as [I|I]; [|lra]. exfalso. apply U.
        assert (x = 1) by lra. subst x. rewrite odd_sum, pow1 in A1.
        rewrite (sumn_ext _ _ (fun _ => 1)) in A1 by (intros; apply pow1). rewrite sumn_const in A1.
        rewrite <- Hh. rewrite plus_INR, mult_INR. cbn [INR].
        replace (1 - ((1 + 1) * INR ((n - 1) / 2) + 1) * e)
          with (1 - (2 * e * (INR ((n - 1) / 2) * 1) + e * 1)) by ring. exact A1.
  - assert (E0 : Rltb 0 e = true) by (apply Rltb_true; lra).
    assert (E1 : Rltb e (1/2) = true) by (apply Rltb_true; lra).
    unfold segment_ratios. destruct n as [|[|[|[|n]]]]; try lia; cbn [Nat.eqb Nat.leb orb negb];
      rewrite ?E0, ?E1; cbn [andb negb]; eexists; (split; [reflexivity|]); cbn [Rsum fold_right nth];
      (split; [lra|]); intros; try lia; reflexivity.
Qed.

(** The factor is unique, so the answer does not depend on the order of the roots. *)
Lemma geom_strict n x y : (2 <= n)%nat -> 0 < x < y -> sumn n (fun i => x ^ i) < sumn n (fun i => y ^ i).
Proof.
  intros Hn Hx. destruct n as [|[|n]]; try lia. rewrite !(sumn_S_l _ (fun i => _ ^ i)).
  rewrite !(sumn_S_l n). cbn [pow].
  assert (sumn n (fun i => x * (x * x ^ i)) <= sumn n (fun i => y * (y * y ^ i))).
  { apply sumn_le. intros i _. pose proof (pow_le x i ltac:(lra)).
    pose proof (pow_incr x y i ltac:(lra)).
    apply Rmult_le_compat; try lra; [apply Rmult_le_pos; lra|]. apply Rmult_le_compat; lra. }
  lra.
Qed.

Lemma sr_unique roots roots' n e l l' : sr_exact_roots n e (roots n e) -> sr_exact_roots n e (roots' n e) ->
  segment_ratios roots n e = Some l -> segment_ratios roots' n e = Some l' -> l = l'.
Proof.
  intros HR HR' H H'. destruct (Nat.le_gt_cases 4 n) as [L|L].
  2:{ unfold segment_ratios in *. destruct n as [|[|[|[|n]]]]; try lia; cbn in *;
      try discriminate; destruct (Rltb 0 e); destruct (Rltb e (1/2)); cbn in *; congruence. }
  destruct (sr_shape _ _ _ _ L H) as (He & S). destruct (sr_shape _ _ _ _ L H') as (_ & S').
  destruct S as [[U ->]|(U & x & I & A & S)], S' as [[U' ->]|(U' & x' & I' & A' & S')];
    try contradiction; [reflexivity|].
  assert (E : x = x'); [|subst x'; destruct S as [[Ev ->]|[Ev ->]], S' as [[Ev' ->]|[Ev' ->]]; congruence].
  destruct (sr_exact roots n e HR ltac:(lia) He) as (l0 & E0 & Sum & _). rewrite H in E0. inversion E0; subst l0.
  destruct (sr_exact roots' n e HR' ltac:(lia) He) as (l1 & E1 & Sum' & _). rewrite H' in E1. inversion E1; subst l1.
  clear E0 E1. apply accept_spec in A. apply accept_spec in A'. destruct A as [_ A], A' as [_ A'].
  destruct S as [[Ev Sl]|[Ev Sl]], S' as [[Ev' Sl']|[Ev' Sl']]; try congruence.
  - pose proof (half_even n Ev) as Hh. set (nz := (n / 2)%nat) in *.
    assert (Px : 0 < x). { assert (0 < nth 1 l 0) by (apply A, nth_In; subst l; rewrite even_length; lia).
      subst l; rewrite even_first in H0 by lia; cbn in H0; nra. }
    assert (Px' : 0 < x'). { assert (0 < nth 1 l' 0) by (apply A', nth_In; subst l'; rewrite even_length; lia).
      subst l'; rewrite even_first in H0 by lia; cbn in H0; nra. }
    subst l l'. rewrite even_sum in Sum, Sum'.
    destruct (Rtotal_order x x') as [O|[O|O]]; [|exact O|]; exfalso.
    + pose proof (geom_strict nz x x' ltac:(lia) ltac:(lra)). nra.
    + pose proof (geom_strict nz x' x ltac:(lia) ltac:(lra)). nra.
  - pose proof (half_odd n Ev) as Hh. set (nz := ((n - 1) / 2)%nat) in *.
    assert (Px : 0 < x). { assert (0 < nth 1 l 0) by (apply A, nth_In; subst l; rewrite odd_length; lia).
      subst l; rewrite odd_first in H0 by lia; cbn in H0; nra. }
    assert (Px' : 0 < x'). { assert (0 < nth 1 l' 0) by (apply A', nth_In; subst l'; rewrite odd_length; lia).
      subst l'; rewrite odd_first in H0 by lia; cbn in H0; nra. }
    subst l l'. rewrite odd_sum in Sum, Sum'.
    destruct (Rtotal_order x x') as [O|[O|O]]; [|exact O|]; exfalso.
    + pose proof (geom_strict nz x x' ltac:(lia) ltac:(lra)). pose proof (pow_incr x x' nz ltac:(lra)). nra.
    + pose proof (geom_strict nz x' x ltac:(lia) ltac:(lra)). pose proof (pow_incr x' x nz ltac:(lra)). nra.
Qed.
