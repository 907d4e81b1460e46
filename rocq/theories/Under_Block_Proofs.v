(** Blocks of loads replaced by their averages. *)
From Verif Require Import Base LoadAgg_Model LoadAgg_Spec LoadAgg_Props Under_Spec Under_Proofs.

Lemma chebyshev_upto (A h : nat -> R) n :
  (forall a b, (a <= b)%nat -> (b < n)%nat -> A b <= A a) -> (forall a b, (a <= b)%nat -> (b < n)%nat -> h b <= h a) ->
  sumn n A * sumn n h <= INR n * sumn n (fun a => A a * h a).
Proof.
  intros DA Dh.
  assert (K : forall m, (m <= n)%nat ->
     sumn m A * sumn m h <= INR m * sumn m (fun a => A a * h a)).
  2:{ apply K; lia. }
  induction m as [|m IH]; intros L; [cbn; lra|].
  cbn [sumn]. rewrite S_INR. pose proof (IH ltac:(lia)) as I. clear IH.
  assert (J : sumn m A * h m + A m * sumn m h <= sumn m (fun a => A a * h a) + INR m * (A m * h m)).
  { rewrite (Rmult_comm (sumn m A)), <- !sumn_scal, <- sumn_const, <- !sumn_plus.
    apply sumn_le. intros a La. pose proof (DA a m ltac:(lia) ltac:(lia)). pose proof (Dh a m ltac:(lia) ltac:(lia)). nra. }
  nra.
Qed.

Definition weigh (inc : nat -> R) (h : list R) : R := sumn (length h) (fun a => aged h a * inc a).

Lemma weigh_app inc b t : weigh inc (b ++ t) = weigh inc t + sumn (length b) (fun a => aged b a * inc (length t + a)%nat).
Proof.
  unfold weigh. rewrite app_length, Nat.add_comm, sumn_split. f_equal; apply sumn_ext; intros a La; f_equal; unfold aged; rewrite rev_app_distr.
  - rewrite app_nth1; [reflexivity|rewrite rev_length; exact La].
  - rewrite app_nth2 by (rewrite rev_length; lia). rewrite rev_length. f_equal. lia.
Qed.

Lemma averaged_length b : length (averaged b) = length b.
Proof. apply repeat_length. Qed.
Lemma aged_averaged b a : (a < length b)%nat -> aged (averaged b) a = mean b.
Proof.
  intros L. unfold aged. rewrite rev_nth by (rewrite averaged_length; exact L). unfold averaged.
  rewrite repeat_length, (nth_indep _ 0 (mean b)) by (rewrite repeat_length; lia). apply nth_repeat.
Qed.

Lemma sum_aged b : sumn (length b) (aged b) = Rsum b.
Proof. unfold aged. rewrite <- Rsum_rev, Rsum_sumn, rev_length. reflexivity. Qed.

Lemma rising_le h : rising h -> forall a b, (a <= b)%nat -> (b < length h)%nat -> nth a h 0 <= nth b h 0.
Proof.
  intros H a b L. induction L as [|b L IH]; intros K; [lra|].
  pose proof (IH ltac:(lia)). pose proof (H b ltac:(lia)). lra.
Qed.
Lemma rising_aged h : rising h -> forall a b, (a <= b)%nat -> (b < length h)%nat -> aged h b <= aged h a.
Proof.
  intros H a b L K. unfold aged. rewrite !rev_nth by lia. apply rising_le; [exact H|lia|lia].
Qed.
Lemma rising_app b t : rising (b ++ t) -> rising b /\ rising t.
Proof.
  intros H. split; intros m L.
  - pose proof (H m ltac:(rewrite app_length; lia)) as E. rewrite !app_nth1 in E by lia. exact E.
  - pose proof (H (length b + m)%nat ltac:(rewrite app_length; lia)) as E.
    rewrite !app_nth2 in E by lia. replace (S (length b + m) - length b)%nat with (S m) in E by lia.
    replace (length b + m - length b)%nat with m in E by lia. exact E.
Qed.

Lemma block_le inc b t t' : (forall k, inc (S k) <= inc k) -> rising b -> length t' = length t ->
  weigh inc t' <= weigh inc t -> weigh inc (averaged b ++ t') <= weigh inc (b ++ t).
Proof.
  intros D M E W. rewrite !weigh_app, averaged_length, E. apply Rplus_le_compat; [exact W|].
  rewrite (sumn_ext (length b) (fun a => aged (averaged b) a * _) (fun a => mean b * inc (length t + a)%nat))
    by (intros a La; rewrite aged_averaged by exact La; reflexivity).
  rewrite sumn_scal. destruct b as [|x b']; [cbn; lra|]. set (b := x :: b') in *.
  assert (P : 0 < INR (length b)) by (apply lt_0_INR; cbn; lia).
  apply Rmult_le_reg_l with (INR (length b)); [exact P|].
  rewrite <- Rmult_assoc, mean_mul, <- sum_aged by (cbn; lia).
  apply chebyshev_upto; [apply rising_aged; exact M|].
  intros a c L _. exact (down_step inc D (length t + a)%nat (length t + c)%nat ltac:(lia)).
Qed.

Lemma blocks_length bs t t' : length t' = length t -> length (concat (map averaged bs) ++ t') = length (concat bs ++ t).
Proof.
  intros E. induction bs as [|b bs IH]; [exact E|].
  cbn [map concat]. rewrite <- !app_assoc, app_length, averaged_length, IH, <- app_length. reflexivity.
Qed.
Lemma blocks_le inc bs t t' : (forall k, inc (S k) <= inc k) -> rising (concat bs) -> length t' = length t ->
  weigh inc t' <= weigh inc t -> weigh inc (concat (map averaged bs) ++ t') <= weigh inc (concat bs ++ t).
Proof.
  intros D M E W. induction bs as [|b bs IH]; [exact W|].
  cbn [map concat] in *. destruct (rising_app _ _ M) as [M1 M2]. rewrite <- !app_assoc.
  apply block_le; [exact D|exact M1|apply blocks_length; exact E|apply IH; exact M2].
Qed.

Lemma falling_le h : falling h -> forall a b, (a <= b)%nat -> (b < length h)%nat -> nth b h 0 <= nth a h 0.
Proof.
  intros H a b L. induction L as [|b L IH]; intros K; [lra|].
  pose proof (IH ltac:(lia)). pose proof (H b ltac:(lia)). lra.
Qed.
Lemma falling_aged h : falling h -> forall a b, (a <= b)%nat -> (b < length h)%nat -> aged h a <= aged h b.
Proof.
  intros H a b L K. unfold aged. rewrite !rev_nth by lia. apply falling_le; [exact H|lia|lia].
Qed.
Lemma falling_app b t : falling (b ++ t) -> falling b /\ falling t.
Proof.
  intros H. split; intros m L.
  - pose proof (H m ltac:(rewrite app_length; lia)) as E. rewrite !app_nth1 in E by lia. exact E.
  - pose proof (H (length b + m)%nat ltac:(rewrite app_length; lia)) as E.
    rewrite !app_nth2 in E by lia. replace (S (length b + m) - length b)%nat with (S m) in E by lia.
    replace (length b + m - length b)%nat with m in E by lia. exact E.
Qed.

Lemma block_ge inc b t t' : (forall k, inc (S k) <= inc k) -> falling b -> length t' = length t ->
  weigh inc t <= weigh inc t' -> weigh inc (b ++ t) <= weigh inc (averaged b ++ t').
Proof.
  intros D M E W. rewrite !weigh_app, averaged_length, E. apply Rplus_le_compat; [exact W|].
  rewrite (sumn_ext (length b) (fun a => aged (averaged b) a * _) (fun a => mean b * inc (length t + a)%nat))
    by (intros a La; rewrite aged_averaged by exact La; reflexivity).
  rewrite sumn_scal. destruct b as [|x b']; [cbn; lra|]. set (b := x :: b') in *.
  assert (P : 0 < INR (length b)) by (apply lt_0_INR; cbn; lia).
  apply Rmult_le_reg_l with (INR (length b)); [exact P|].
  rewrite <- (Rmult_assoc _ (mean b)), mean_mul, <- sum_aged by (cbn; lia).
  pose proof (chebyshev_upto (fun a => - aged b a) (fun a => inc (length t + a)%nat) (length b)) as K.
  rewrite sumn_opp in K.
  rewrite (sumn_ext _ (fun a => - aged b a * _) (fun a => - (aged b a * inc (length t + a)%nat))) in K by (intros; ring).
  rewrite sumn_opp in K.
  cut (- sumn (length b) (aged b) * sumn (length b) (fun a => inc (length t + a)%nat)
       <= INR (length b) * - sumn (length b) (fun a => aged b a * inc (length t + a)%nat)); [lra|].
  apply K.
  - intros a c L1 L2. pose proof (falling_aged b M a c L1 L2). lra.
  - intros a c L _. exact (down_step inc D (length t + a)%nat (length t + c)%nat ltac:(lia)).
Qed.
Lemma blocks_ge inc bs t t' : (forall k, inc (S k) <= inc k) -> falling (concat bs) -> length t' = length t ->
  weigh inc t <= weigh inc t' -> weigh inc (concat bs ++ t) <= weigh inc (concat (map averaged bs) ++ t').
Proof.
  intros D M E W. induction bs as [|b bs IH]; [exact W|].
  cbn [map concat] in *. destruct (falling_app _ _ M) as [M1 M2]. rewrite <- !app_assoc.
  apply block_ge; [exact D|exact M1|apply blocks_length; exact E|apply IH; exact M2].
Qed.

Lemma superpose_weigh dt (g : R -> R) h : superpose (fun k => g (INR (S k) * dt)) h = weigh (rise dt g) h.
Proof. apply superpose_aged. Qed.

Lemma mlaa_under dt nS Nt N0 N1 N2 N3 ops st (g : nat -> nat -> R -> R) i :
  (1 <= N0)%nat -> (1 <= N1)%nat -> (1 <= N2)%nat -> (1 <= N3)%nat ->
  mlaa_run (mlaa_init nS Nt N0 N1 N2 N3) ops = Some st -> (1 <= steps ops)%nat ->
  (forall j, (j < nS)%nat -> slowing dt (g i j)) ->
  (forall j, (j < nS)%nat -> rising (history j ops)) ->
  mlaa_superposition (fun i j k => g i j (INR (S k) * dt)) st i
  <= sumn nS (fun j => superpose (fun k => g i j (INR (S k) * dt)) (history j ops)).
Proof.
  intros H0 H1 H2 H3 Run St Sl Ri.
  destruct (C04_mlaa_refines nS Nt N0 N1 N2 N3 ops st H0 H1 H2 H3 Run St) as (B4 & B3 & B2 & B1 & R0 & Bl & E).
  rewrite E. apply sumn_le. intros j Lj. rewrite !superpose_weigh.
  destruct (Bl j Lj) as [Eh _]. pose proof (Ri j Lj) as M. rewrite Eh in *. 
  destruct (rising_app _ _ M) as [M4 M']. destruct (rising_app _ _ M') as [M3 M''].
  destruct (rising_app _ _ M'') as [M2 M0]. destruct (rising_app _ _ M0) as [M1 _].
  assert (D : forall k, rise dt (g i j) (S k) <= rise dt (g i j) k) by (intros k; apply (Sl j Lj k)).
  apply block_le; [exact D|exact M4|rewrite !app_length, !averaged_length; reflexivity|].
  apply block_le; [exact D|exact M3|rewrite !app_length, !averaged_length; reflexivity|].
  apply block_le; [exact D|exact M2|rewrite !app_length, !averaged_length; reflexivity|].
  apply block_le; [exact D|exact M1|reflexivity|lra].
Qed.

Lemma liu_under dt nS Nt N1 N2 N3 W1 W2 W3 ops st (g : nat -> nat -> R -> R) i :
  (1 <= N1)%nat -> (1 <= N2)%nat -> (1 <= N3)%nat -> (1 <= W1)%nat -> (1 <= W2)%nat -> (1 <= W3)%nat ->
  liu_run (liu_init nS Nt N1 N2 N3 W1 W2 W3) ops = Some st -> starts_with_step ops -> (1 <= steps ops)%nat ->
  (forall j, (j < nS)%nat -> slowing dt (g i j)) ->
  (forall j, (j < nS)%nat -> rising (history j ops)) ->
  liu_superposition (fun i j k => g i j (INR (S k) * dt)) st i
  <= sumn nS (fun j => superpose (fun k => g i j (INR (S k) * dt)) (history j ops)).
Proof.
  intros H1 H2 H3 G1 G2 G3 Run Ss St Sl Ri.
  destruct (C05_liu_refines_partial nS Nt N1 N2 N3 W1 W2 W3 ops st H1 H2 H3 G1 G2 G3 Run Ss St) as (Ls & Ms & Sh & R0 & Bl & E).
  rewrite E. apply sumn_le. intros j Lj. rewrite !superpose_weigh.
  destruct (Bl j Lj) as [Eh _]. pose proof (Ri j Lj) as M. rewrite Eh in *.
  destruct (rising_app _ _ M) as [M4 M']. destruct (rising_app _ _ M') as [M3 M''].
  destruct (rising_app _ _ M'') as [M2 _].
  assert (D : forall k, rise dt (g i j) (S k) <= rise dt (g i j) k) by (intros k; apply (Sl j Lj k)).
  apply blocks_le; [exact D|exact M4|apply blocks_length, blocks_length; reflexivity|].
  apply blocks_le; [exact D|exact M3|apply blocks_length; reflexivity|].
  apply blocks_le; [exact D|exact M2|reflexivity|lra].
Qed.

Lemma mlaa_over dt nS Nt N0 N1 N2 N3 ops st (g : nat -> nat -> R -> R) i :
  (1 <= N0)%nat -> (1 <= N1)%nat -> (1 <= N2)%nat -> (1 <= N3)%nat ->
  mlaa_run (mlaa_init nS Nt N0 N1 N2 N3) ops = Some st -> (1 <= steps ops)%nat ->
  (forall j, (j < nS)%nat -> slowing dt (g i j)) ->
  (forall j, (j < nS)%nat -> falling (history j ops)) ->
  sumn nS (fun j => superpose (fun k => g i j (INR (S k) * dt)) (history j ops))
  <= mlaa_superposition (fun i j k => g i j (INR (S k) * dt)) st i.
Proof.
  intros H0 H1 H2 H3 Run St Sl Ri.
  destruct (C04_mlaa_refines nS Nt N0 N1 N2 N3 ops st H0 H1 H2 H3 Run St) as (B4 & B3 & B2 & B1 & R0 & Bl & E).
  rewrite E. apply sumn_le. intros j Lj. rewrite !superpose_weigh.
  destruct (Bl j Lj) as [Eh _]. pose proof (Ri j Lj) as M. rewrite Eh in *. 
  destruct (falling_app _ _ M) as [M4 M']. destruct (falling_app _ _ M') as [M3 M''].
  destruct (falling_app _ _ M'') as [M2 M0]. destruct (falling_app _ _ M0) as [M1 _].
  assert (D : forall k, rise dt (g i j) (S k) <= rise dt (g i j) k) by (intros k; apply (Sl j Lj k)).
  apply block_ge; [exact D|exact M4|rewrite !app_length, !averaged_length; reflexivity|].
  apply block_ge; [exact D|exact M3|rewrite !app_length, !averaged_length; reflexivity|].
  apply block_ge; [exact D|exact M2|rewrite !app_length, !averaged_length; reflexivity|].
  apply block_ge; [exact D|exact M1|reflexivity|lra].
Qed.

Lemma liu_over dt nS Nt N1 N2 N3 W1 W2 W3 ops st (g : nat -> nat -> R -> R) i :
  (1 <= N1)%nat -> (1 <= N2)%nat -> (1 <= N3)%nat -> (1 <= W1)%nat -> (1 <= W2)%nat -> (1 <= W3)%nat ->
  liu_run (liu_init nS Nt N1 N2 N3 W1 W2 W3) ops = Some st -> starts_with_step ops -> (1 <= steps ops)%nat ->
  (forall j, (j < nS)%nat -> slowing dt (g i j)) ->
  (forall j, (j < nS)%nat -> falling (history j ops)) ->
  sumn nS (fun j => superpose (fun k => g i j (INR (S k) * dt)) (history j ops))
  <= liu_superposition (fun i j k => g i j (INR (S k) * dt)) st i.
Proof.
  intros H1 H2 H3 G1 G2 G3 Run Ss St Sl Ri.
  destruct (C05_liu_refines_partial nS Nt N1 N2 N3 W1 W2 W3 ops st H1 H2 H3 G1 G2 G3 Run Ss St) as (Ls & Ms & Sh & R0 & Bl & E).
  rewrite E. apply sumn_le. intros j Lj. rewrite !superpose_weigh.
  destruct (Bl j Lj) as [Eh _]. pose proof (Ri j Lj) as M. rewrite Eh in *.
  destruct (falling_app _ _ M) as [M4 M']. destruct (falling_app _ _ M') as [M3 M''].
  destruct (falling_app _ _ M'') as [M2 _].
  assert (D : forall k, rise dt (g i j) (S k) <= rise dt (g i j) k) by (intros k; apply (Sl j Lj k)).
  apply blocks_ge; [exact D|exact M4|apply blocks_length, blocks_length; reflexivity|].
  apply blocks_ge; [exact D|exact M3|apply blocks_length; reflexivity|].
  apply blocks_ge; [exact D|exact M2|reflexivity|lra].
Qed.

Lemma averaged_same c b : Forall (eq c) b -> averaged b = b.
Proof.
  intros F. assert (E : b = repeat c (length b)).
  { induction F as [|x b <- F IH]; [reflexivity|]. cbn. f_equal. exact IH. }
  unfold averaged. destruct b as [|x b']; [reflexivity|]. remember (x :: b') as b eqn:Eb.
  assert (P : 0 < INR (length b)) by (apply lt_0_INR; subst b; cbn; lia).
  rewrite E at 3. f_equal. unfold mean. rewrite E at 1. rewrite Rsum_repeat. field. lra.
Qed.
Lemma averaged_blocks_same c bs : Forall (eq c) (concat bs) -> concat (map averaged bs) = concat bs.
Proof.
  induction bs as [|b bs IH]; intros F; [reflexivity|]. cbn [map concat] in *. apply Forall_app in F. destruct F as [F1 F2].
  rewrite (averaged_same c b F1), IH by exact F2. reflexivity.
Qed.

Lemma mlaa_steady nS Nt N0 N1 N2 N3 ops st g i (q : nat -> R) :
  (1 <= N0)%nat -> (1 <= N1)%nat -> (1 <= N2)%nat -> (1 <= N3)%nat ->
  mlaa_run (mlaa_init nS Nt N0 N1 N2 N3) ops = Some st -> (1 <= steps ops)%nat ->
  (forall j, (j < nS)%nat -> Forall (eq (q j)) (history j ops)) ->
  mlaa_superposition g st i = sumn nS (fun j => superpose (g i j) (history j ops)).
Proof.
  intros H0 H1 H2 H3 Run St Ri.
  destruct (C04_mlaa_refines nS Nt N0 N1 N2 N3 ops st H0 H1 H2 H3 Run St) as (B4 & B3 & B2 & B1 & R0 & Bl & E).
  rewrite E. apply sumn_ext. intros j Lj. destruct (Bl j Lj) as [Eh _]. pose proof (Ri j Lj) as F. rewrite Eh in *.
  apply Forall_app in F. destruct F as [F4 F]. apply Forall_app in F. destruct F as [F3 F].
  apply Forall_app in F. destruct F as [F2 F]. apply Forall_app in F. destruct F as [F1 F].
  rewrite !(averaged_same (q j)) by assumption. reflexivity.
Qed.
Lemma liu_steady nS Nt N1 N2 N3 W1 W2 W3 ops st g i (q : nat -> R) :
  (1 <= N1)%nat -> (1 <= N2)%nat -> (1 <= N3)%nat -> (1 <= W1)%nat -> (1 <= W2)%nat -> (1 <= W3)%nat ->
  liu_run (liu_init nS Nt N1 N2 N3 W1 W2 W3) ops = Some st -> starts_with_step ops -> (1 <= steps ops)%nat ->
  (forall j, (j < nS)%nat -> Forall (eq (q j)) (history j ops)) ->
  liu_superposition g st i = sumn nS (fun j => superpose (g i j) (history j ops)).
Proof.
  intros H1 H2 H3 G1 G2 G3 Run Ss St Ri.
  destruct (C05_liu_refines_partial nS Nt N1 N2 N3 W1 W2 W3 ops st H1 H2 H3 G1 G2 G3 Run Ss St) as (Ls & Ms & Sh & R0 & Bl & E).
  rewrite E. apply sumn_ext. intros j Lj. destruct (Bl j Lj) as [Eh _]. pose proof (Ri j Lj) as F. rewrite Eh in *.
  apply Forall_app in F. destruct F as [F4 F]. apply Forall_app in F. destruct F as [F3 F].
  apply Forall_app in F. destruct F as [F2 F].
  rewrite !(averaged_blocks_same (q j)) by assumption. reflexivity.
Qed.
