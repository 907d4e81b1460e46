(** The load of the current time step. *)
From Verif Require Import Base LoadAgg_Model LoadAgg_Spec Agg_Spec Agg_Proofs Vary_Proofs.
From Verif Require Import LoadAgg_CJ_Proofs LoadAgg_MLAA_Proofs LoadAgg_Liu_Proofs.

Lemma upd_twice (l : list R) k x y : upd (upd l k x) k y = upd l k y.
Proof. revert k. induction l as [|z l IH]; intros [|k]; cbn; [reflexivity..|]. f_equal. apply IH. Qed.
Lemma set_twice k (Q : list (list R)) : forall a b, length a = length b ->
  map (fun p => upd (fst p) k (snd p)) (combine (map (fun p => upd (fst p) k (snd p)) (combine Q a)) b)
  = map (fun p => upd (fst p) k (snd p)) (combine Q b).
Proof.
  induction Q as [|r Q IH]; intros a b H; [reflexivity|]. destruct a as [|x a], b as [|y b]; try discriminate; [reflexivity|].
  cbn [combine map fst snd]. rewrite upd_twice. f_equal. apply IH. injection H as H. exact H.
Qed.
Lemma set_length k (Q : list (list R)) a : length a = length Q ->
  length (map (fun p => upd (fst p) k (snd p)) (combine Q a)) = length Q.
Proof. intros H. rewrite map_length, combine_length, H. apply Nat.min_id. Qed.

Lemma cj_set_twice s a b : length a = length b ->
  match cj_step s (SetLoad a) with Some s' => cj_step s' (SetLoad b) | None => None end = cj_step s (SetLoad b).
Proof.
  intros H. cbn [cj_step]. rewrite H. destruct (length b =? length (cj_q s))%nat eqn:E; [|reflexivity].
  apply Nat.eqb_eq in E. cbn [cj_step cj_q cj_w]. rewrite set_length by congruence. rewrite E, Nat.eqb_refl, set_twice by exact H. reflexivity.
Qed.
Lemma mlaa_set_twice s a b : length a = length b ->
  match mlaa_set s a with Some s' => mlaa_set s' b | None => None end = mlaa_set s b.
Proof.
  intros H. unfold mlaa_set at 1 3. rewrite H. destruct (length b =? length (ml_qb s))%nat eqn:E; [|reflexivity]. cbn [negb].
  destruct (ml_nt s =? 0)%nat eqn:En; [reflexivity|]. destruct (ml_N0 s =? 0)%nat eqn:E0; [reflexivity|].
  apply Nat.eqb_eq in E. unfold mlaa_set. cbn [ml_N0 ml_N1 ml_N2 ml_N3 ml_Nt ml_nt ml_n0 ml_n1 ml_n2 ml_n3 ml_n4 ml_qb ml_Q0 ml_Q1 ml_Q2 ml_Q3 ml_Q4].
  rewrite set_length by congruence. rewrite E, Nat.eqb_refl, En, E0. cbn [negb]. rewrite !set_twice by exact H. reflexivity.
Qed.
Lemma liu_set_twice s a b : length a = length b ->
  match liu_set s a with Some s' => liu_set s' b | None => None end = liu_set s b.
Proof.
  intros H. unfold liu_set at 1 3. rewrite H. destruct (length b =? length (li_Q0 s))%nat eqn:E; [|reflexivity]. cbn [negb].
  apply Nat.eqb_eq in E. unfold liu_set. cbn [li_N1 li_N2 li_N3 li_W1 li_W2 li_W3 li_Nt li_nt li_n0 li_n1 li_n2 li_n3 li_Q0 li_Q1 li_Q2 li_Q3].
  rewrite set_length by congruence. rewrite E, Nat.eqb_refl. cbn [negb]. rewrite set_twice by exact H. reflexivity.
Qed.

Lemma cj_last_counts o1 : forall s a b o2, length a = length b ->
  cj_run s (o1 ++ SetLoad a :: SetLoad b :: o2) = cj_run s (o1 ++ SetLoad b :: o2).
Proof.
  induction o1 as [|o o1 IH]; intros s a b o2 H; cbn [app cj_run].
  - rewrite <- (cj_set_twice s a b H). destruct (cj_step s (SetLoad a)); reflexivity.
  - destruct (cj_step s o); [apply IH; exact H|reflexivity].
Qed.
Lemma mlaa_last_counts o1 : forall s a b o2, length a = length b ->
  mlaa_run s (o1 ++ SetLoad a :: SetLoad b :: o2) = mlaa_run s (o1 ++ SetLoad b :: o2).
Proof.
  induction o1 as [|o o1 IH]; intros s a b o2 H; cbn [app mlaa_run].
  - cbn [mlaa_step]. rewrite <- (mlaa_set_twice s a b H). destruct (mlaa_set s a); reflexivity.
  - destruct (mlaa_step s o); [apply IH; exact H|reflexivity].
Qed.
Lemma liu_last_counts o1 : forall s a b o2, length a = length b ->
  liu_run s (o1 ++ SetLoad a :: SetLoad b :: o2) = liu_run s (o1 ++ SetLoad b :: o2).
Proof.
  induction o1 as [|o o1 IH]; intros s a b o2 H; cbn [app liu_run].
  - cbn [liu_step]. rewrite <- (liu_set_twice s a b H). destruct (liu_set s a); reflexivity.
  - destruct (liu_step s o); [apply IH; exact H|reflexivity].
Qed.

(** ** Response to the current load. *)
Lemma cj_run_app o1 : forall s o2, cj_run s (o1 ++ o2) = match cj_run s o1 with Some t => cj_run t o2 | None => None end.
Proof. induction o1 as [|o o1 IH]; intros s o2; [reflexivity|]. cbn [app cj_run]. destruct (cj_step s o); [apply IH|reflexivity]. Qed.

Lemma run_length w j ops : forall r, length r = length w -> length (row_run w j ops r) = length w.
Proof.
  unfold row_run. induction ops as [|o ops IH]; intros r H; [exact H|]. cbn [fold_left]. apply IH. apply row_step_length. exact H.
Qed.

Lemma cj_current w nS ops a b s1 s2 (g : nat -> nat -> nat -> R) i : (1 <= length w)%nat ->
  cj_run (cj_init w nS) (ops ++ [SetLoad a]) = Some s1 -> cj_run (cj_init w nS) (ops ++ [SetLoad b]) = Some s2 ->
  cj_superposition g s2 i - cj_superposition g s1 i = sumn nS (fun j => g i j 0%nat * (nth j b 0 - nth j a 0)).
Proof.
  intros Hw R1 R2. destruct (cj_run_rows _ _ _ R1) as (W1 & Q1 & A1). destruct (cj_run_rows _ _ _ R2) as (W2 & Q2 & A2).
  cbn [cj_init cj_w cj_q] in W1, W2, Q1, Q2. rewrite repeat_length in Q1, Q2.
  unfold cj_superposition. rewrite W1, W2, Q1, Q2, <- sumn_minus. apply sumn_ext. intros j Hj.
  destruct (A1 j) as (E1 & _); [cbn; rewrite repeat_length; exact Hj|]. destruct (A2 j) as (E2 & _); [cbn; rewrite repeat_length; exact Hj|].
  rewrite E1, E2, !cj_init_row by exact Hj. cbn [cj_init cj_w]. unfold row_run. rewrite !fold_left_app. cbn [fold_left row_step].
  pose proof (run_length w j ops (repeat 0 (length w)) (repeat_length _ _)) as L. unfold row_run in L.
  set (r := fold_left (row_step w j) ops (repeat 0 (length w))) in *.
  rewrite <- sumn_minus. rewrite (sumn_single _ 0%nat); [|lia|].
  - rewrite !nth_upd_eq by lia. cbn [cj_dg]. ring.
  - intros k _ Hk. rewrite !nth_upd_neq by congruence. ring.
Qed.

(** The difference of two simulations that differ in the current load. *)
Definition minus_itself (o : op) : op :=
  match o with Next => Next | SetLoad q => SetLoad (map (fun p => 1 * fst p + -1 * snd p) (combine q q)) end.
Definition differ (ops : list op) (a b : list R) : list op :=
  map minus_itself ops ++ [SetLoad (map (fun p => 1 * fst p + -1 * snd p) (combine b a))].

Lemma differ_combine ops a b : length a = length b ->
  combine_ops 1 (-1) (ops ++ [SetLoad b]) (ops ++ [SetLoad a]) = Some (differ ops a b).
Proof.
  intros H. induction ops as [|o ops IH].
  - cbn [app combine_ops differ map]. rewrite H, Nat.eqb_refl. reflexivity.
  - cbn [app]. destruct o as [|q]; cbn [combine_ops]; rewrite IH; [reflexivity|]. rewrite Nat.eqb_refl. reflexivity.
Qed.
Lemma differ_steps ops a b : steps (differ ops a b) = steps ops.
Proof. unfold differ. induction ops as [|[|q] ops IH]; cbn [map app steps minus_itself]; [reflexivity|f_equal; exact IH|exact IH]. Qed.
Lemma nth_minus_itself q s : nth s (map (fun p => 1 * fst p + -1 * snd p) (combine q q)) 0 = 0.
Proof. revert s. induction q as [|x q IH]; intros [|s]; cbn [combine map nth fst snd]; try reflexivity; [ring|apply IH]. Qed.
Lemma nth_minus a : forall b s, length a = length b ->
  nth s (map (fun p => 1 * fst p + -1 * snd p) (combine b a)) 0 = nth s b 0 - nth s a 0.
Proof.
  induction a as [|x a IH]; intros [|y b] s H; try discriminate; destruct s as [|s]; cbn [combine map nth fst snd]; try ring.
  apply IH. injection H as H. exact H.
Qed.
Lemma zero_history s ops : forall h, Forall (fun x => x = 0) h -> Forall (fun x => x = 0) (fold_left (hist_step s) (map minus_itself ops) h).
Proof.
  induction ops as [|o ops IH]; intros h H; [exact H|]. cbn [map fold_left]. apply IH. destruct o as [|q]; cbn [minus_itself hist_step].
  - apply Forall_app. split; [exact H|]. constructor; [reflexivity|constructor].
  - apply Forall_app. split.
    + destruct h as [|x h]; [constructor|]. rewrite (app_removelast_last 0 (l := x :: h)) in H by discriminate. apply Forall_app in H. apply H.
    + constructor; [apply nth_minus_itself|constructor].
Qed.
Lemma differ_history s ops a b : length a = length b -> exists z, Forall (fun x => x = 0) z /\ history s (differ ops a b) = z ++ [nth s b 0 - nth s a 0].
Proof.
  intros H. unfold history, differ. rewrite fold_left_app. cbn [fold_left hist_step].
  pose proof (zero_history s ops [] (Forall_nil _)) as Z. set (h := fold_left (hist_step s) (map minus_itself ops) []) in *.
  exists (removelast h). split; [|rewrite nth_minus by exact H; reflexivity].
  destruct h as [|x h]; [constructor|]. rewrite (app_removelast_last 0 (l := x :: h)) in Z by discriminate. apply Forall_app in Z. apply Z.
Qed.

Lemma superpose_zeros (g : nat -> R) z x : Forall (fun y => y = 0) z -> superpose g (z ++ [x]) = g 0%nat * x.
Proof.
  induction 1 as [|y z Hy H IH]; cbn [app]; rewrite superpose_cons; [|rewrite IH, Hy; ring]. unfold superpose. cbn. ring.
Qed.
Lemma zeros_in z : Forall (fun y => y = 0) z <-> Forall (fun y => 0 <= y <= 0) z.
Proof. split; apply Forall_impl; intros; lra. Qed.

(** Blurring the part before [r] of a history of zeros up to its last load changes nothing. *)
Lemma zeros_split (p r z : list R) x : z ++ [x] = p ++ r -> r <> [] -> Forall (fun y => y = 0) z ->
  Forall (fun y => y = 0) p /\ exists z', Forall (fun y => y = 0) z' /\ r = z' ++ [x].
Proof.
  intros E Hr Z.
  destruct (exists_last Hr) as [z' [y Er]]. subst r. rewrite app_assoc in E. apply app_inj_tail in E. destruct E as [E <-]. subst z.
  apply Forall_app in Z. destruct Z as [Zp Zr]. split; [exact Zp|]. exists z'. split; [exact Zr|reflexivity].
Qed.

Lemma mlaa_current nS Nt N0 N1 N2 N3 ops a b s1 s2 (g : nat -> nat -> nat -> R) i :
  (1 <= N0)%nat -> (1 <= N1)%nat -> (1 <= N2)%nat -> (1 <= N3)%nat -> length a = length b -> (1 <= steps ops)%nat ->
  mlaa_run (mlaa_init nS Nt N0 N1 N2 N3) (ops ++ [SetLoad a]) = Some s1 -> mlaa_run (mlaa_init nS Nt N0 N1 N2 N3) (ops ++ [SetLoad b]) = Some s2 ->
  mlaa_superposition g s2 i - mlaa_superposition g s1 i = sumn nS (fun j => g i j 0%nat * (nth j b 0 - nth j a 0)).
Proof.
  intros H0 H1 H2 H3 Hl Hn R1 R2.
  destruct (mlaa_linear nS Nt N0 N1 N2 N3 1 (-1) _ _ _ s2 s1 g i (differ_combine ops a b Hl) R2 R1) as [s3 [R3 E]].
  replace (mlaa_superposition g s2 i - mlaa_superposition g s1 i) with (mlaa_superposition g s3 i) by (rewrite E; ring). clear E.
  rewrite <- (differ_steps ops a b) in Hn.
  destruct (mlaa_lemma nS Nt N0 N1 N2 N3 _ s3 H0 H1 H2 H3 R3 Hn) as [B4 [B3 [B2 [B1 [R0 [A Sup]]]]]]. rewrite Sup.
  apply sumn_ext. intros j Hj. destruct (A j Hj) as [E [L0 _]]. destruct (differ_history j ops a b Hl) as [z [Z Ez]]. rewrite Ez in E.
  rewrite !app_assoc in E. apply zeros_split in E; [|intros N; rewrite N in L0; cbn in L0; lia|exact Z].
  destruct E as [Zp [z' [Zr Er]]]. rewrite Er, !app_assoc. apply superpose_zeros.
  repeat rewrite Forall_app in *. destruct Zp as [[[Y4 Y3] Y2] Y1]. repeat split; try exact Zr; apply zeros_in, averaged_in, zeros_in; assumption.
Qed.

Lemma liu_current nS Nt N1 N2 N3 W1 W2 W3 ops a b s1 s2 (g : nat -> nat -> nat -> R) i :
  (1 <= N1)%nat -> (1 <= N2)%nat -> (1 <= N3)%nat -> (1 <= W1)%nat -> (1 <= W2)%nat -> (1 <= W3)%nat ->
  length a = length b -> starts_with_step ops -> (1 <= steps ops)%nat ->
  liu_run (liu_init nS Nt N1 N2 N3 W1 W2 W3) (ops ++ [SetLoad a]) = Some s1 -> liu_run (liu_init nS Nt N1 N2 N3 W1 W2 W3) (ops ++ [SetLoad b]) = Some s2 ->
  liu_superposition g s2 i - liu_superposition g s1 i = sumn nS (fun j => g i j 0%nat * (nth j b 0 - nth j a 0)).
Proof.
  intros H1 H2 H3 X1 X2 X3 Hl Hs Hn R1 R2.
  destruct (liu_linear nS Nt N1 N2 N3 W1 W2 W3 1 (-1) _ _ _ s2 s1 g i (differ_combine ops a b Hl) R2 R1) as [s3 [R3 E]].
  replace (liu_superposition g s2 i - liu_superposition g s1 i) with (liu_superposition g s3 i) by (rewrite E; ring). clear E.
  assert (Hs' : starts_with_step (differ ops a b)).
  { unfold differ. destruct ops as [|[|q] ops]; [cbn in Hn; lia|exact I|destruct Hs]. }
  rewrite <- (differ_steps ops a b) in Hn.
  destruct (liu_lemma nS Nt N1 N2 N3 W1 W2 W3 _ s3 H1 H2 H3 X1 X2 X3 R3 Hs' Hn) as [Ls [Ms [Ss [R0 [A Sup]]]]]. rewrite Sup.
  apply sumn_ext. intros j Hj. destruct (A j Hj) as (E & _ & _ & _ & [L0 _] & _). destruct (differ_history j ops a b Hl) as [z [Z Ez]]. rewrite Ez in E.
  rewrite !app_assoc in E. apply zeros_split in E; [|intros N; rewrite N in L0; cbn in L0; lia|exact Z].
  destruct E as [Zp [z' [Zr Er]]]. rewrite Er, !app_assoc. apply superpose_zeros.
  repeat rewrite Forall_app in *. destruct Zp as [[Y3 Y2] Y1]. repeat split; try exact Zr; apply zeros_in, averaged_blocks_in, zeros_in; assumption.
Qed.
