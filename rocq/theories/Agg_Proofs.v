(* Bounds and order of the answers of the load aggregation schemes; idle starts. *)
From Verif Require Import Base LoadAgg_Model LoadAgg_Spec LoadAgg_CJ_Proofs LoadAgg_MLAA_Proofs LoadAgg_Liu_Proofs Agg_Spec Agg_Lin_Proofs.
Local Arguments Nat.sub : simpl never.

Lemma superpose_cons (g : nat -> R) x h :
  superpose g (x :: h) = superpose g h + x * match length h with O => g O | S m => g (S m) - g m end.
Proof.
  unfold superpose. cbn [length]. rewrite sumn_S_l. destruct h as [|y h]; cbn [length].
  - cbn. replace (1 - 1 - 0)%nat with O by lia. ring.
  - rewrite !sumn_S_l. cbn [nth].
    replace (S (S (length h)) - 1 - 0)%nat with (S (length h)) by lia. replace (S (S (length h)) - 1 - 1)%nat with (length h) by lia.
    replace (S (length h) - 1 - 0)%nat with (length h) by lia.
    rewrite (sumn_ext (length h) (fun i => g (S (S (length h)) - 1 - S (S i))%nat * (nth i h 0 - match i with O => y | S p => nth p h 0 end))
                                 (fun i => g (S (length h) - 1 - S i)%nat * (nth i h 0 - match i with O => y | S p => nth p h 0 end))).
    + ring.
    + intros k _. replace (S (S (length h)) - 1 - S (S k))%nat with (S (length h) - 1 - S k)%nat by lia. reflexivity.
Qed.

Lemma superpose_within (g : nat -> R) lo hi h : grows g -> h <> [] -> Forall (fun x => lo <= x <= hi) h ->
  lo * g (length h - 1)%nat <= superpose g h <= hi * g (length h - 1)%nat.
Proof.
  intros [G0 G] N F. induction F as [|x h [X1 X2] F IH]; [congruence|].
  rewrite superpose_cons. destruct h as [|y h].
  - unfold superpose. cbn [length sumn]. replace (1 - 1)%nat with O by lia. nra.
  - specialize (IH ltac:(discriminate)). cbn [length] in *.
    replace (S (S (length h)) - 1)%nat with (S (length h)) by lia. replace (S (length h) - 1)%nat with (length h) in IH by lia.
    pose proof (G (length h)). nra.
Qed.
Lemma superpose_pos (g : nat -> R) h : grows g -> Forall (fun x => 0 <= x) h -> 0 <= superpose g h.
Proof.
  intros [G0 G] F. induction F as [|x h X F IH]; [unfold superpose; cbn; lra|].
  rewrite superpose_cons. destruct (length h) as [|m]; [nra|]. pose proof (G m). nra.
Qed.

Lemma mean_in lo hi b : b <> [] -> Forall (fun x => lo <= x <= hi) b -> lo <= mean b <= hi.
Proof.
  intros N F. assert (S : INR (length b) * lo <= Rsum b <= INR (length b) * hi).
  { clear N. induction F as [|x b X F IH]; [cbn; lra|]. cbn [length Rsum]. rewrite S_INR. cbn. cbn in IH. lra. }
  assert (P : 0 < INR (length b)) by (apply lt_0_INR; destruct b; [congruence|cbn; lia]).
  unfold mean. split; apply Rmult_le_reg_r with (INR (length b)); auto; replace (Rsum b / INR (length b) * INR (length b)) with (Rsum b) by (field; lra); lra.
Qed.
Lemma averaged_in lo hi b : Forall (fun x => lo <= x <= hi) b -> Forall (fun x => lo <= x <= hi) (averaged b).
Proof.
  intros F. unfold averaged. destruct b as [|x b]; [constructor|]. apply Forall_forall. intros y I. apply repeat_spec in I. subst y.
  apply mean_in; [discriminate|exact F].
Qed.
Lemma averaged_blocks_in lo hi bs : Forall (fun x => lo <= x <= hi) (concat bs) -> Forall (fun x => lo <= x <= hi) (concat (map averaged bs)).
Proof.
  induction bs as [|b bs IH]; cbn; intros F; [constructor|]. apply Forall_app in F. destruct F. apply Forall_app. split; auto using averaged_in.
Qed.
Lemma averaged_len b : length (averaged b) = length b.
Proof. apply repeat_length. Qed.
Lemma averaged_blocks_len bs : length (concat (map averaged bs)) = length (concat bs).
Proof. induction bs as [|b bs IH]; cbn; [reflexivity|]. rewrite !app_length, averaged_len, IH. reflexivity. Qed.

Lemma mlaa_starts nS Nt N0 N1 N2 N3 ops st : mlaa_run (mlaa_init nS Nt N0 N1 N2 N3) ops = Some st -> starts_with_step ops.
Proof.
  destruct ops as [|[|q] ops]; cbn [starts_with_step]; auto. cbn [mlaa_run mlaa_step]. unfold mlaa_set. cbn [mlaa_init ml_nt ml_qb].
  destruct (negb _); cbn; discriminate.
Qed.

Lemma mlaa_within nS Nt N0 N1 N2 N3 ops st (g : nat -> nat -> nat -> R) i (lo hi : nat -> R) :
  (1 <= N0)%nat -> (1 <= N1)%nat -> (1 <= N2)%nat -> (1 <= N3)%nat ->
  mlaa_run (mlaa_init nS Nt N0 N1 N2 N3) ops = Some st -> (1 <= steps ops)%nat ->
  (forall j, (j < nS)%nat -> grows (g i j)) ->
  (forall j, (j < nS)%nat -> Forall (fun x => lo j <= x <= hi j) (history j ops)) ->
  sumn nS (fun j => lo j * g i j (steps ops - 1)%nat) <= mlaa_superposition g st i <= sumn nS (fun j => hi j * g i j (steps ops - 1)%nat).
Proof.
  intros H0 H1 H2 H3 Run St Gr F. pose proof (mlaa_starts _ _ _ _ _ _ _ _ Run) as Ss.
  destruct (mlaa_lemma nS Nt N0 N1 N2 N3 ops st H0 H1 H2 H3 Run St) as (B4 & B3 & B2 & B1 & R0 & Bl & E). rewrite E.
  assert (W : forall j, (j < nS)%nat -> let h := averaged (B4 j) ++ averaged (B3 j) ++ averaged (B2 j) ++ averaged (B1 j) ++ R0 j in
    lo j * g i j (steps ops - 1)%nat <= superpose (g i j) h <= hi j * g i j (steps ops - 1)%nat).
  { intros j Lj h. destruct (Bl j Lj) as [Eh _]. pose proof (F j Lj) as Fj. rewrite Eh in Fj.
    assert (L : length h = steps ops) by (rewrite <- (history_length j ops Ss), Eh; unfold h; rewrite !app_length, !averaged_len; reflexivity).
    rewrite <- L. apply superpose_within; [apply Gr, Lj|intros ->; cbn in L; lia|].
    repeat (apply Forall_app in Fj; let X := fresh in destruct Fj as [X Fj]). unfold h. repeat (apply Forall_app; split); auto using averaged_in. }
  split; apply sumn_le; intros j Lj; apply (W j Lj).
Qed.

Lemma liu_within nS Nt N1 N2 N3 W1 W2 W3 ops st (g : nat -> nat -> nat -> R) i (lo hi : nat -> R) :
  (1 <= N1)%nat -> (1 <= N2)%nat -> (1 <= N3)%nat -> (1 <= W1)%nat -> (1 <= W2)%nat -> (1 <= W3)%nat ->
  liu_run (liu_init nS Nt N1 N2 N3 W1 W2 W3) ops = Some st -> starts_with_step ops -> (1 <= steps ops)%nat ->
  (forall j, (j < nS)%nat -> grows (g i j)) ->
  (forall j, (j < nS)%nat -> Forall (fun x => lo j <= x <= hi j) (history j ops)) ->
  sumn nS (fun j => lo j * g i j (steps ops - 1)%nat) <= liu_superposition g st i <= sumn nS (fun j => hi j * g i j (steps ops - 1)%nat).
Proof.
  intros H1 H2 H3 G1 G2 G3 Run Ss St Gr F.
  destruct (liu_lemma nS Nt N1 N2 N3 W1 W2 W3 ops st H1 H2 H3 G1 G2 G3 Run Ss St) as (Ls & Ms & Sh & R0 & Bl & E). rewrite E.
  assert (W : forall j, (j < nS)%nat -> let h := concat (map averaged (Ls j)) ++ concat (map averaged (Ms j)) ++ concat (map averaged (Sh j)) ++ R0 j in
    lo j * g i j (steps ops - 1)%nat <= superpose (g i j) h <= hi j * g i j (steps ops - 1)%nat).
  { intros j Lj h. destruct (Bl j Lj) as [Eh _]. pose proof (F j Lj) as Fj. rewrite Eh in Fj.
    assert (L : length h = steps ops) by (rewrite <- (history_length j ops Ss), Eh; unfold h; rewrite !app_length, !averaged_blocks_len; reflexivity).
    rewrite <- L. apply superpose_within; [apply Gr, Lj|intros ->; cbn in L; lia|].
    repeat (apply Forall_app in Fj; let X := fresh in destruct Fj as [X Fj]). unfold h. repeat (apply Forall_app; split); auto using averaged_blocks_in. }
  split; apply sumn_le; intros j Lj; apply (W j Lj).
Qed.

Lemma cj_within dt time nS ops st (g : nat -> nat -> nat -> R) i lo hi :
  good_times dt time -> (forall k, (S k < length time)%nat -> dt <= nth (S k) time 0 - nth k time 0) ->
  lo <= 0 <= hi -> Forall (load_in lo hi) ops ->
  cj_run (cj_init (cj_width_of dt time) nS) ops = Some st ->
  (forall j, (j < nS)%nat -> grows (g i j)) ->
  sumn nS (fun j => lo * g i j (length time - 1)%nat) <= cj_superposition g st i <= sumn nS (fun j => hi * g i j (length time - 1)%nat).
Proof.
  intros Hg Hsp H0 HF Hrun Gr. pose proof (cj_bounds_lemma dt time nS ops st lo hi) as B. destruct (good_width _ _ Hg) as (Hl & _).
  destruct (cj_run_rows _ _ _ Hrun) as (Ew & En & _). cbn [cj_init cj_w cj_q] in Ew, En. rewrite repeat_length in En.
  unfold cj_superposition. rewrite Ew, En, Hl.
  assert (T : (1 <= length time)%nat) by (destruct Hg as (_ & N & _); destruct time; [congruence|cbn; lia]).
  assert (X : forall n j c, (1 <= n)%nat -> sumn n (fun k => cj_dg g i j k * c) = c * g i j (n - 1)%nat).
  { intros n j c Hn. rewrite sumn_scal_r, Rmult_comm. f_equal. destruct n as [|n]; [lia|]. replace (S n - 1)%nat with n by lia.
    clear Hn. induction n as [|n IH]; [cbn; lra|]. change (sumn (S (S n)) (cj_dg g i j)) with (sumn (S n) (cj_dg g i j) + cj_dg g i j (S n)). rewrite IH. cbn. lra. }
  assert (P : forall j k, (j < nS)%nat -> 0 <= cj_dg g i j k).
  { intros j k Lj. destruct (Gr j Lj) as [A B']. destruct k; cbn; [exact A|]. pose proof (B' k). lra. }
  split; apply sumn_le; intros j Lj; rewrite <- X by exact T; apply sumn_le; intros k _;
    apply Rmult_le_compat_l; auto; apply (B j Hg Hsp H0 HF Hrun Lj k).
Qed.

(* --- larger loads --- *)
Lemma Forall2_len (A B : Type) (P : A -> B -> Prop) l1 l2 : Forall2 P l1 l2 -> length l1 = length l2.
Proof. induction 1; cbn; auto. Qed.
Lemma no_less_combine o1 : forall o2, no_less o1 o2 -> exists o3, combine_ops (-1) 1 o1 o2 = Some o3
  /\ steps o3 = steps o2 /\ (starts_with_step o2 -> starts_with_step o3)
  /\ Forall (fun o => match o with Next => True | SetLoad q => Forall (fun x => 0 <= x) q end) o3.
Proof.
  induction o1 as [|[|q1] o1 IH]; intros [|[|q2] o2] N; cbn [no_less] in N; try contradiction.
  - exists []. cbn. auto.
  - destruct (IH _ N) as (o3 & E & Es & _ & F). exists (Next :: o3). cbn. rewrite E, Es. auto.
  - destruct N as [Q N]. destruct (IH _ N) as (o3 & E & Es & _ & F). cbn [combine_ops]. rewrite E, (Forall2_len _ _ _ _ _ Q), Nat.eqb_refl.
    eexists. split; [reflexivity|]. cbn. split; [exact Es|]. split; [auto|]. constructor; [|exact F].
    clear - Q. induction Q; cbn; constructor; auto. cbn. lra.
Qed.
Lemma history_pos s ops : Forall (fun o => match o with Next => True | SetLoad q => Forall (fun x => 0 <= x) q end) ops -> Forall (fun x => 0 <= x) (history s ops).
Proof.
  unfold history. assert (G : forall h, Forall (fun x => 0 <= x) h -> Forall (fun o => match o with Next => True | SetLoad q => Forall (fun x => 0 <= x) q end) ops -> Forall (fun x => 0 <= x) (fold_left (hist_step s) ops h)); [|auto].
  induction ops as [|o ops IH]; intros h H F; [exact H|]. inversion F as [|? ? F1 F2]; subst. cbn [fold_left]. apply IH; [|exact F2]. destruct o as [|q]; cbn.
  - apply Forall_app. split; auto. constructor; auto. lra.
  - apply Forall_app. split.
    + clear - H. induction H as [|x h X H IH]; cbn; [constructor|]. destruct h; [constructor|]. constructor; auto.
    + constructor; auto. destruct (Nat.lt_ge_cases s (length q)); [apply (proj1 (Forall_forall _ _) F1), nth_In; auto|rewrite nth_overflow by auto; lra].
Qed.
Lemma load_in_pos ops : Forall (fun o => match o with Next => True | SetLoad q => Forall (fun x => 0 <= x) q end) ops -> exists M, 0 <= M /\ Forall (load_in 0 M) ops.
Proof.
  induction 1 as [|o ops F _ (M & M0 & IH)]; [exists 0; split; [lra|constructor]|].
  destruct o as [|q]; [exists M; split; [auto|constructor; cbn; auto]|].
  assert (Q : exists K, 0 <= K /\ forall x, In x q -> 0 <= x <= K).
  { induction F as [|x q X F (K & K0 & IH')]; [exists 0; split; [lra|intros ? []]|]. exists (Rmax x K). split; [pose proof (Rmax_r x K); lra|].
    intros y [<-|I]; [pose proof (Rmax_l x K); lra|]. pose proof (IH' y I). pose proof (Rmax_r x K). lra. }
  destruct Q as (K & K0 & Q). exists (Rmax K M). split; [pose proof (Rmax_r K M); lra|]. constructor.
  - cbn. intros x I. pose proof (Q x I). pose proof (Rmax_l K M). lra.
  - eapply Forall_impl; [|exact IH]. intros [|p]; cbn; auto. intros H x I. pose proof (H x I). pose proof (Rmax_r K M). lra.
Qed.

Lemma cj_monotone dt time nS o1 o2 s1 s2 (g : nat -> nat -> nat -> R) i :
  good_times dt time -> (forall k, (S k < length time)%nat -> dt <= nth (S k) time 0 - nth k time 0) ->
  cj_run (cj_init (cj_width_of dt time) nS) o1 = Some s1 -> cj_run (cj_init (cj_width_of dt time) nS) o2 = Some s2 ->
  no_less o1 o2 -> (forall j, (j < nS)%nat -> grows (g i j)) ->
  cj_superposition g s1 i <= cj_superposition g s2 i.
Proof.
  intros Hg Hsp R1 R2 N Gr. destruct (no_less_combine _ _ N) as (o3 & C & _ & _ & F).
  destruct (cj_linear_lemma dt time nS _ _ _ _ _ _ _ g i C R1 R2) as (s3 & R3 & E).
  destruct (load_in_pos _ F) as (M & M0 & FM).
  destruct (cj_within dt time nS o3 s3 g i 0 M Hg Hsp ltac:(lra) FM R3 Gr) as [B _].
  rewrite (sumn_zero nS) in B by (intros; lra). lra.
Qed.
Lemma mlaa_linear nS Nt N0 N1 N2 N3 a b o1 o2 o3 s1 s2 (g : nat -> nat -> nat -> R) i :
  combine_ops a b o1 o2 = Some o3 ->
  mlaa_run (mlaa_init nS Nt N0 N1 N2 N3) o1 = Some s1 -> mlaa_run (mlaa_init nS Nt N0 N1 N2 N3) o2 = Some s2 ->
  exists s3, mlaa_run (mlaa_init nS Nt N0 N1 N2 N3) o3 = Some s3 /\ mlaa_superposition g s3 i = a * mlaa_superposition g s1 i + b * mlaa_superposition g s2 i.
Proof.
  intros C R1 R2. destruct (ml3_run a b _ _ _ _ _ _ _ _ (ml3_init a b nS Nt N0 N1 N2 N3) C R1 R2) as (s3 & R3 & M).
  exists s3. split; [exact R3|]. apply ml3_superposition. exact M.
Qed.
Lemma liu_linear nS Nt N1 N2 N3 W1 W2 W3 a b o1 o2 o3 s1 s2 (g : nat -> nat -> nat -> R) i :
  combine_ops a b o1 o2 = Some o3 ->
  liu_run (liu_init nS Nt N1 N2 N3 W1 W2 W3) o1 = Some s1 -> liu_run (liu_init nS Nt N1 N2 N3 W1 W2 W3) o2 = Some s2 ->
  exists s3, liu_run (liu_init nS Nt N1 N2 N3 W1 W2 W3) o3 = Some s3 /\ liu_superposition g s3 i = a * liu_superposition g s1 i + b * liu_superposition g s2 i.
Proof.
  intros C R1 R2. destruct (li3_run a b _ _ _ _ _ _ _ _ (li3_init a b nS Nt N1 N2 N3 W1 W2 W3) C R1 R2) as (s3 & R3 & M).
  exists s3. split; [exact R3|]. apply li3_superposition. exact M.
Qed.

Fixpoint big (h : list R) : R := match h with [] => 0 | x :: r => Rmax x (big r) end.
Lemma big_in h : Forall (fun x => 0 <= x) h -> Forall (fun x => 0 <= x <= big h) h.
Proof.
  induction 1 as [|x h X F IH]; [constructor|]. cbn. constructor; [split; [auto|apply Rmax_l]|].
  eapply Forall_impl; [|exact IH]. intros y [A B]. cbn in *. split; [auto|]. eapply Rle_trans; [exact B|apply Rmax_r].
Qed.

Lemma mlaa_monotone nS Nt N0 N1 N2 N3 o1 o2 s1 s2 (g : nat -> nat -> nat -> R) i :
  (1 <= N0)%nat -> (1 <= N1)%nat -> (1 <= N2)%nat -> (1 <= N3)%nat ->
  mlaa_run (mlaa_init nS Nt N0 N1 N2 N3) o1 = Some s1 -> mlaa_run (mlaa_init nS Nt N0 N1 N2 N3) o2 = Some s2 -> (1 <= steps o2)%nat ->
  no_less o1 o2 -> (forall j, (j < nS)%nat -> grows (g i j)) ->
  mlaa_superposition g s1 i <= mlaa_superposition g s2 i.
Proof.
  intros H0 H1 H2 H3 R1 R2 St N Gr. destruct (no_less_combine _ _ N) as (o3 & C & Es & _ & F).
  destruct (mlaa_linear nS Nt N0 N1 N2 N3 _ _ _ _ _ _ _ g i C R1 R2) as (s3 & R3 & E).
  destruct (mlaa_within nS Nt N0 N1 N2 N3 o3 s3 g i (fun _ => 0) (fun j => big (history j o3)) H0 H1 H2 H3 R3 ltac:(lia) Gr) as [B _].
  { intros j _. apply big_in, history_pos, F. }
  rewrite (sumn_zero nS) in B by (intros; lra). lra.
Qed.
Lemma liu_monotone nS Nt N1 N2 N3 W1 W2 W3 o1 o2 s1 s2 (g : nat -> nat -> nat -> R) i :
  (1 <= N1)%nat -> (1 <= N2)%nat -> (1 <= N3)%nat -> (1 <= W1)%nat -> (1 <= W2)%nat -> (1 <= W3)%nat ->
  liu_run (liu_init nS Nt N1 N2 N3 W1 W2 W3) o1 = Some s1 -> liu_run (liu_init nS Nt N1 N2 N3 W1 W2 W3) o2 = Some s2 ->
  starts_with_step o2 -> (1 <= steps o2)%nat ->
  no_less o1 o2 -> (forall j, (j < nS)%nat -> grows (g i j)) ->
  liu_superposition g s1 i <= liu_superposition g s2 i.
Proof.
  intros H1 H2 H3 G1 G2 G3 R1 R2 Ss St N Gr. destruct (no_less_combine _ _ N) as (o3 & C & Es & Es' & F).
  destruct (liu_linear nS Nt N1 N2 N3 W1 W2 W3 _ _ _ _ _ _ _ g i C R1 R2) as (s3 & R3 & E).
  destruct (liu_within nS Nt N1 N2 N3 W1 W2 W3 o3 s3 g i (fun _ => 0) (fun j => big (history j o3)) H1 H2 H3 G1 G2 G3 R3 (Es' Ss) ltac:(lia) Gr) as [B _].
  { intros j _. apply big_in, history_pos, F. }
  rewrite (sumn_zero nS) in B by (intros; lra). lra.
Qed.

(* --- idle starts --- *)
Lemma cj_row_zero w : cj_row_next w (repeat 0 (length w)) = repeat 0 (length w).
Proof.
  unfold cj_row_next. rewrite (map_ext_in _ (fun _ => 0)).
  - generalize 0%nat. generalize (length w). intros n. induction n; intros m; cbn; f_equal; auto.
  - intros j _. apply sumn_zero. intros k Hk. rewrite nth_repeat. ring.
Qed.
Lemma cj_idle w nS n ops : cj_run (cj_init w nS) (idle n ++ ops) = cj_run (cj_init w nS) ops.
Proof.
  induction n as [|n IH]; [reflexivity|]. cbn [idle repeat app cj_run cj_step cj_init cj_w cj_q].
  replace (map (cj_row_next w) (repeat (repeat 0 (length w)) nS)) with (repeat (repeat 0 (length w)) nS); [exact IH|].
  clear IH. induction nS as [|m IHm]; cbn; [reflexivity|]. rewrite cj_row_zero, <- IHm. reflexivity.
Qed.
Lemma steps_idle n ops : steps (idle n ++ ops) = (n + steps ops)%nat.
Proof. induction n; cbn; auto. Qed.
Lemma history_idle s n ops : starts_with_step ops -> history s (idle n ++ ops) = repeat 0 n ++ history s ops.
Proof.
  intros St. unfold history. rewrite fold_left_app.
  assert (E : fold_left (hist_step s) (idle n) [] = repeat 0 n).
  { assert (G : forall h, fold_left (hist_step s) (idle n) h = h ++ repeat 0 n).
    { induction n as [|n IH]; intros h; cbn; [rewrite app_nil_r; reflexivity|]. unfold idle in IH. rewrite IH, <- app_assoc. reflexivity. }
    apply G. }
  rewrite E. clear E. destruct ops as [|[|q] ops]; cbn [starts_with_step] in St; [cbn; rewrite app_nil_r; reflexivity| |contradiction].
  cbn [fold_left hist_step app]. generalize (repeat 0 n) as p. intros p.
  assert (G : forall h, h <> [] -> fold_left (hist_step s) ops (p ++ h) = p ++ fold_left (hist_step s) ops h).
  { induction ops as [|o ops IH]; intros h N; [reflexivity|]. cbn [fold_left]. destruct o as [|q]; cbn [hist_step].
    - rewrite <- app_assoc. apply IH. destruct h; discriminate.
    - rewrite removelast_app, <- app_assoc by exact N. apply IH. destruct (removelast h); discriminate. }
  apply G. discriminate.
Qed.
Lemma superpose_idle (g : nat -> R) n h : superpose g (repeat 0 n ++ h) = superpose g h.
Proof. induction n as [|n IH]; [reflexivity|]. cbn [repeat app]. rewrite superpose_cons, IH. ring. Qed.

Lemma mlaa_idle nS Nt N0 N1 N2 N3 n ops s1 s2 g i :
  (1 <= N0)%nat -> (1 <= N1)%nat -> (1 <= N2)%nat -> (1 <= N3)%nat ->
  starts_with_step ops -> (1 <= steps ops)%nat -> (n + steps ops <= N0)%nat ->
  mlaa_run (mlaa_init nS Nt N0 N1 N2 N3) ops = Some s1 -> mlaa_run (mlaa_init nS Nt N0 N1 N2 N3) (idle n ++ ops) = Some s2 ->
  mlaa_superposition g s2 i = mlaa_superposition g s1 i.
Proof.
  intros H0 H1 H2 H3 Ss St L R1 R2.
  rewrite (mlaa_exact_lemma nS Nt N0 N1 N2 N3 ops s1 g i H0 H1 H2 H3 R1 Ss ltac:(lia)).
  rewrite (mlaa_exact_lemma nS Nt N0 N1 N2 N3 _ s2 g i H0 H1 H2 H3 R2).
  - apply sumn_ext. intros j _. rewrite history_idle, superpose_idle by exact Ss. reflexivity.
  - destruct n; [exact Ss|exact I].
  - rewrite steps_idle. lia.
Qed.
Lemma liu_idle nS Nt N1 N2 N3 W1 W2 W3 n ops s1 s2 g i :
  (1 <= N1)%nat -> (1 <= N2)%nat -> (1 <= N3)%nat -> (1 <= W1)%nat -> (1 <= W2)%nat -> (1 <= W3)%nat ->
  starts_with_step ops -> (1 <= steps ops)%nat -> (n + steps ops < N1 + W1)%nat ->
  liu_run (liu_init nS Nt N1 N2 N3 W1 W2 W3) ops = Some s1 -> liu_run (liu_init nS Nt N1 N2 N3 W1 W2 W3) (idle n ++ ops) = Some s2 ->
  liu_superposition g s2 i = liu_superposition g s1 i.
Proof.
  intros H1 H2 H3 G1 G2 G3 Ss St L R1 R2.
  rewrite (liu_exact_lemma nS Nt N1 N2 N3 W1 W2 W3 ops s1 g i H1 H2 H3 G1 G2 G3 R1 Ss ltac:(lia)).
  rewrite (liu_exact_lemma nS Nt N1 N2 N3 W1 W2 W3 _ s2 g i H1 H2 H3 G1 G2 G3 R2).
  - apply sumn_ext. intros j _. rewrite history_idle, superpose_idle by exact Ss. reflexivity.
  - destruct n; [exact Ss|exact I].
  - rewrite steps_idle. lia.
Qed.
