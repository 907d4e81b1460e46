(* Simulations with a longer horizon. *)
From Verif Require Import Base LoadAgg_Model LoadAgg_Spec LoadAgg_CJ_Proofs LoadAgg_MLAA_Proofs LoadAgg_Liu_Proofs TimeGrid_Model TimeGrid_Spec TimeGrid_Proofs Agg_Spec Agg_Lin_Proofs.
Local Arguments Nat.sub : simpl never.

(* A row of [n] entries and the same row prolonged by zeros. *)
Definition longer (n : nat) (r r' : list R) : Prop := length r = n /\ exists m, r' = r ++ repeat 0 m.

Lemma longer_zero n n' : (n <= n')%nat -> longer n (repeat 0 n) (repeat 0 n').
Proof. intros H. split; [apply repeat_length|]. exists (n' - n)%nat. rewrite <- repeat_app. f_equal. lia. Qed.
Lemma longer_zeros n n' m : (n <= n')%nat -> Forall2 (longer n) (repeat (repeat 0 n) m) (repeat (repeat 0 n') m).
Proof. intros H. induction m; cbn; constructor; auto using longer_zero. Qed.
Lemma slice_app_l {A} a b (r z : list A) : (b <= length r)%nat -> slice a b (r ++ z) = slice a b r.
Proof.
  intros H. unfold slice. rewrite skipn_app, firstn_app, skipn_length.
  replace (b - a - (length r - a))%nat with O by lia. rewrite firstn_O, app_nil_r. reflexivity.
Qed.
Lemma longer_slice n r r' a b : longer n r r' -> (b <= n)%nat -> slice a b r' = slice a b r.
Proof. intros [L (m & ->)] H. apply slice_app_l. lia. Qed.
Lemma upd_app_l {A} (r z : list A) i v : (i < length r)%nat -> upd (r ++ z) i v = upd r i v ++ z.
Proof. revert i; induction r as [|x r IH]; intros i H; cbn in H; [lia|]. destruct i; cbn; [reflexivity|]. rewrite IH by lia. reflexivity. Qed.
Lemma longer_upd n r r' i v : longer n r r' -> (i < n)%nat -> longer n (upd r i v) (upd r' i v).
Proof. intros [L (m & ->)] H. split; [rewrite upd_length; exact L|]. exists m. apply upd_app_l. lia. Qed.
Lemma longer_means n a b Q Q' : Forall2 (longer n) Q Q' -> (b <= n)%nat -> map (fun r => mean (slice a b r)) Q' = map (fun r => mean (slice a b r)) Q.
Proof. intros F H. induction F; cbn; [reflexivity|]. rewrite (longer_slice n x y a b) by assumption. f_equal. exact IHF. Qed.
Lemma longer_window n k a b P Q Q' : Forall2 (longer n) Q Q' -> (b <= n)%nat ->
  map (fun p => firstn k (fst p) ++ slice a b (snd p)) (combine P Q') = map (fun p => firstn k (fst p) ++ slice a b (snd p)) (combine P Q).
Proof.
  intros F H. revert P. induction F; intros [|p P]; cbn; try reflexivity. rewrite (longer_slice n x y a b) by assumption. f_equal. apply IHF.
Qed.
Lemma longer_set n Q Q' q i : Forall2 (longer n) Q Q' -> (i < n)%nat ->
  Forall2 (longer n) (map (fun p => upd (fst p) i (snd p)) (combine Q q)) (map (fun p => upd (fst p) i (snd p)) (combine Q' q)).
Proof. intros F H. revert q. induction F; intros [|v q]; cbn; constructor; auto using longer_upd. Qed.
Lemma longer_count n Q Q' : Forall2 (longer n) Q Q' -> length Q' = length Q.
Proof. induction 1; cbn; auto. Qed.

(* --- MLAA --- *)
Record mlh (s t : mlaa) : Prop := {
  mh_N0 : ml_N0 t = ml_N0 s; mh_N1 : ml_N1 t = ml_N1 s; mh_N2 : ml_N2 t = ml_N2 s; mh_N3 : ml_N3 t = ml_N3 s;
  mh_Nt : (ml_Nt s <= ml_Nt t)%nat; mh_nt : ml_nt t = ml_nt s; mh_le : (ml_nt s <= ml_Nt s)%nat;
  mh_n0 : ml_n0 t = ml_n0 s; mh_n1 : ml_n1 t = ml_n1 s; mh_n2 : ml_n2 t = ml_n2 s; mh_n3 : ml_n3 t = ml_n3 s; mh_n4 : ml_n4 t = ml_n4 s;
  mh_qb : Forall2 (longer (ml_Nt s)) (ml_qb s) (ml_qb t);
  mh_Q0 : ml_Q0 t = ml_Q0 s; mh_Q1 : ml_Q1 t = ml_Q1 s; mh_Q2 : ml_Q2 t = ml_Q2 s; mh_Q3 : ml_Q3 t = ml_Q3 s; mh_Q4 : ml_Q4 t = ml_Q4 s }.

Lemma mlh_next s t s' : mlh s t -> mlaa_next s = Some s' -> exists t', mlaa_next t = Some t' /\ mlh s' t'.
Proof.
  intros [E0 E1 E2 E3 ENt Ent Ele En0 En1 En2 En3 En4 Eqb EQ0 EQ1 EQ2 EQ3 EQ4] H.
  unfold mlaa_next in *. rewrite Ent, E0, E1, E2, E3, EQ0, EQ1, EQ2, EQ3, EQ4.
  destruct (Nat.ltb_spec (ml_Nt s) (S (ml_nt s))) as [|L]; [discriminate|].
  destruct (Nat.ltb_spec (ml_Nt t) (S (ml_nt s))) as [L'|_]; [lia|]. cbv zeta in *. injection H as <-.
  eexists. split; [reflexivity|].
  constructor; mlcbn; try reflexivity; try assumption; try lia.
  - apply (longer_window _ _ _ _ _ _ _ Eqb). lia.
  - destruct (_ <=? _)%nat; [|reflexivity]. apply (longer_means _ _ _ _ _ Eqb). lia.
  - destruct (ml_N0 s + ml_N1 s + ml_N2 s <=? _)%nat; [|reflexivity]. apply (longer_means _ _ _ _ _ Eqb). lia.
  - destruct (ml_N0 s + ml_N1 s + ml_N2 s + ml_N3 s <=? _)%nat; [|reflexivity]. apply (longer_means _ _ _ _ _ Eqb). lia.
  - match goal with |- (if ?c then _ else _) = _ => destruct c end; [|reflexivity]. apply (longer_means _ _ _ _ _ Eqb). lia.
Qed.
Lemma mlh_set s t s' q : mlh s t -> mlaa_set s q = Some s' -> exists t', mlaa_set t q = Some t' /\ mlh s' t'.
Proof.
  intros [E0 E1 E2 E3 ENt Ent Ele En0 En1 En2 En3 En4 Eqb EQ0 EQ1 EQ2 EQ3 EQ4] H.
  unfold mlaa_set in *. rewrite Ent, E0, (longer_count _ _ _ Eqb), EQ0. destruct (negb _); [discriminate|].
  destruct (Nat.eqb_spec (ml_nt s) 0); [discriminate|]. destruct (ml_N0 s =? 0)%nat; [discriminate|]. injection H as <-.
  eexists. split; [reflexivity|]. constructor; mlcbn; try assumption; try reflexivity.
  apply longer_set; [exact Eqb|lia].
Qed.
Lemma mlh_run ops : forall s t s', mlh s t -> mlaa_run s ops = Some s' -> exists t', mlaa_run t ops = Some t' /\ mlh s' t'.
Proof.
  induction ops as [|o ops IH]; intros s t s' M H; cbn in H; [injection H as <-; exists t; auto|].
  destruct (mlaa_step s o) as [u|] eqn:E; [|discriminate].
  assert (X : exists v, mlaa_step t o = Some v /\ mlh u v) by (destruct o; [eapply mlh_next|eapply mlh_set]; eauto).
  destruct X as (v & Ev & Mv). cbn. rewrite Ev. eapply IH; eauto.
Qed.
Lemma mlaa_horizon nS Nt Nt' N0 N1 N2 N3 ops st : (Nt <= Nt')%nat ->
  mlaa_run (mlaa_init nS Nt N0 N1 N2 N3) ops = Some st ->
  exists st', mlaa_run (mlaa_init nS Nt' N0 N1 N2 N3) ops = Some st' /\ forall g i, mlaa_superposition g st' i = mlaa_superposition g st i.
Proof.
  intros L H.
  assert (M : mlh (mlaa_init nS Nt N0 N1 N2 N3) (mlaa_init nS Nt' N0 N1 N2 N3)).
  { constructor; cbn [mlaa_init ml_N0 ml_N1 ml_N2 ml_N3 ml_Nt ml_nt ml_n0 ml_n1 ml_n2 ml_n3 ml_n4 ml_qb ml_Q0 ml_Q1 ml_Q2 ml_Q3 ml_Q4]; auto using longer_zeros; lia. }
  destruct (mlh_run ops _ _ _ M H) as (st' & R' & M'). exists st'. split; [exact R'|]. intros g i.
  destruct M' as [E0 E1 E2 E3 ENt Ent Ele En0 En1 En2 En3 En4 Eqb EQ0 EQ1 EQ2 EQ3 EQ4].
  unfold mlaa_superposition. rewrite (longer_count _ _ _ Eqb), E0, En0, En1, En2, En3, En4, EQ0, EQ1, EQ2, EQ3, EQ4. reflexivity.
Qed.

(* --- Liu --- *)
Record lih (s t : liu) : Prop := {
  lh_N1 : li_N1 t = li_N1 s; lh_N2 : li_N2 t = li_N2 s; lh_N3 : li_N3 t = li_N3 s;
  lh_W1 : li_W1 t = li_W1 s; lh_W2 : li_W2 t = li_W2 s; lh_W3 : li_W3 t = li_W3 s;
  lh_Nt : (ceil_div (li_Nt s) (li_N1 s * li_N2 s * li_N3 s) <= ceil_div (li_Nt t) (li_N1 s * li_N2 s * li_N3 s))%nat;
  lh_nt : li_nt t = li_nt s; lh_n0 : li_n0 t = li_n0 s; lh_n1 : li_n1 t = li_n1 s; lh_n2 : li_n2 t = li_n2 s; lh_n3 : li_n3 t = li_n3 s;
  lh_le : (li_n3 s <= ceil_div (li_Nt s) (li_N1 s * li_N2 s * li_N3 s))%nat;
  lh_Q0 : li_Q0 t = li_Q0 s; lh_Q1 : li_Q1 t = li_Q1 s; lh_Q2 : li_Q2 t = li_Q2 s;
  lh_Q3 : Forall2 (longer (ceil_div (li_Nt s) (li_N1 s * li_N2 s * li_N3 s))) (li_Q3 s) (li_Q3 t);
  lh_zero : li_n3 s = O -> Forall (fun r => forall k, nth k r 0 = 0) (li_Q3 s) }.

Lemma shift_app n r z : (n <= length r)%nat -> liu_shift n (r ++ z) = liu_shift n r ++ z.
Proof.
  intros H. unfold liu_shift.
  assert (B : forall i, In i (rev (seq 1 (n - 1))) -> (i < length r)%nat) by (intros i I; apply in_rev, in_seq in I; lia).
  revert B. generalize (rev (seq 1 (n - 1))) as l. clear H. intros l. revert r. induction l as [|i l IH]; intros r B; [reflexivity|].
  cbn [fold_left]. assert (Hi : (i < length r)%nat) by (apply B; left; reflexivity).
  rewrite (app_nth1 r z) by lia. rewrite upd_app_l by exact Hi. apply IH. intros k K. rewrite upd_length. apply B. right. exact K.
Qed.
Lemma shift_len n r : length (liu_shift n r) = length r.
Proof.
  unfold liu_shift. generalize (rev (seq 1 (n - 1))) as l. intros l. revert r. induction l as [|i l IH]; intros r; [reflexivity|]. cbn [fold_left]. rewrite IH. apply upd_length.
Qed.
Lemma longer_push n m v r r' : longer n r r' -> (1 <= m <= n)%nat -> longer n (liu_push m r v) (liu_push m r' v).
Proof.
  intros [L (z & ->)] H. unfold liu_push. rewrite shift_app by lia. apply longer_upd; [|lia]. split; [rewrite shift_len; exact L|exists z; reflexivity].
Qed.
Lemma longer_pushes n m N k Q Q' P : Forall2 (longer n) Q Q' -> (1 <= m <= n)%nat ->
  Forall2 (longer n) (map (fun p => liu_push m (fst p) (liu_oldest N k (snd p))) (combine Q P)) (map (fun p => liu_push m (fst p) (liu_oldest N k (snd p))) (combine Q' P)).
Proof. intros F H. revert P. induction F; intros [|p P]; cbn; constructor; auto using longer_push. Qed.

Lemma lih_next s t s' : lih s t -> liu_next s = Some s' -> exists t', liu_next t = Some t' /\ lih s' t'.
Proof.
  intros [E1 E2 E3 F1 F2 F3 ENt Ent En0 En1 En2 En3 Ele EQ0 EQ1 EQ2 EQ3 Ez] H.
  unfold liu_next in *. rewrite Ent, E1, E2, E3, F1, F2, F3, En0, En1, En2, En3, EQ0, EQ1, EQ2. cbv zeta in *.
  destruct (_ <? S (li_n0 s))%nat; [discriminate|]. destruct (_ <=? S (li_n0 s))%nat.
  2:{ injection H as <-. eexists. split; [reflexivity|]. constructor; licbn; auto. }
  destruct (_ <? S (li_n1 s))%nat; [discriminate|]. destruct (_ <=? S (li_n1 s))%nat.
  2:{ injection H as <-. eexists. split; [reflexivity|]. constructor; licbn; auto. }
  destruct (_ <? S (li_n2 s))%nat; [discriminate|]. destruct (_ <=? S (li_n2 s))%nat.
  2:{ injection H as <-. eexists. split; [reflexivity|]. constructor; licbn; auto. }
  destruct (Nat.ltb_spec (ceil_div (li_Nt s) (li_N1 s * li_N2 s * li_N3 s)) (S (li_n3 s))) as [|L]; [discriminate|].
  destruct (Nat.ltb_spec (ceil_div (li_Nt t) (li_N1 s * li_N2 s * li_N3 s)) (S (li_n3 s))) as [L'|_]; [lia|].
  injection H as <-. eexists. split; [reflexivity|]. constructor; licbn; auto; try discriminate.
  apply longer_pushes; [exact EQ3|lia].
Qed.
Lemma lih_set s t s' q : lih s t -> liu_set s q = Some s' -> exists t', liu_set t q = Some t' /\ lih s' t'.
Proof.
  intros [E1 E2 E3 F1 F2 F3 ENt Ent En0 En1 En2 En3 Ele EQ0 EQ1 EQ2 EQ3 Ez] H.
  unfold liu_set in *. rewrite EQ0. destruct (negb _); [discriminate|]. injection H as <-.
  eexists. split; [reflexivity|]. constructor; licbn; auto.
Qed.
Lemma lih_run ops : forall s t s', lih s t -> liu_run s ops = Some s' -> exists t', liu_run t ops = Some t' /\ lih s' t'.
Proof.
  induction ops as [|o ops IH]; intros s t s' M H; cbn in H; [injection H as <-; exists t; auto|].
  destruct (liu_step s o) as [u|] eqn:E; [|discriminate].
  assert (X : exists v, liu_step t o = Some v /\ lih u v) by (destruct o; [eapply lih_next|eapply lih_set]; eauto).
  destruct X as (v & Ev & Mv). cbn. rewrite Ev. eapply IH; eauto.
Qed.

Lemma pv_longer n r r' i : longer n r r' -> (0 <= i < Z.of_nat n)%Z -> pv r' i = pv r i.
Proof.
  intros [L (m & ->)] H. replace i with (Z.of_nat (Z.to_nat i)) by lia. rewrite !pv_in by (rewrite ?app_length; lia).
  apply app_nth1. lia.
Qed.
Lemma pv_longer_zero n r r' i : longer n r r' -> (forall k, nth k r 0 = 0) -> pv r' i = pv r i.
Proof.
  intros [L (m & ->)] Z. rewrite (pv_zero r) by exact Z. apply pv_zero. intros k.
  destruct (Nat.lt_ge_cases k (length r)); [rewrite app_nth1 by assumption; apply Z|rewrite app_nth2 by assumption; apply nth_repeat].
Qed.
Lemma Forall2_at n (Q Q' : list (list R)) j : Forall2 (longer n) Q Q' -> (j < length Q)%nat -> longer n (nth j Q []) (nth j Q' []).
Proof. intros F. revert j. induction F; intros [|j] Hj; cbn in *; try lia; auto. apply IHF. lia. Qed.

Lemma liu_horizon nS Nt Nt' N1 N2 N3 W1 W2 W3 ops st :
  (1 <= N1)%nat -> (1 <= N2)%nat -> (1 <= N3)%nat -> (1 <= W1)%nat -> (1 <= W2)%nat -> (1 <= W3)%nat -> (Nt <= Nt')%nat ->
  liu_run (liu_init nS Nt N1 N2 N3 W1 W2 W3) ops = Some st -> starts_with_step ops -> (1 <= steps ops)%nat ->
  exists st', liu_run (liu_init nS Nt' N1 N2 N3 W1 W2 W3) ops = Some st' /\ forall g i, liu_superposition g st' i = liu_superposition g st i.
Proof.
  intros H1 H2 H3 G1 G2 G3 L Run Ss St.
  assert (M : lih (liu_init nS Nt N1 N2 N3 W1 W2 W3) (liu_init nS Nt' N1 N2 N3 W1 W2 W3)).
  { assert (Cd : (ceil_div Nt (N1 * N2 * N3) <= ceil_div Nt' (N1 * N2 * N3))%nat).
    { unfold ceil_div. apply Nat.div_le_mono; nia. }
    constructor; cbn [liu_init li_N1 li_N2 li_N3 li_W1 li_W2 li_W3 li_Nt li_nt li_n0 li_n1 li_n2 li_n3 li_Q0 li_Q1 li_Q2 li_Q3]; auto using longer_zeros; try lia.
    intros _. apply Forall_forall. intros r I. apply repeat_spec in I. subst r. intros k. apply nth_repeat. }
  destruct (lih_run ops _ _ _ M Run) as (st' & R' & M'). exists st'. split; [exact R'|]. intros g i.
  pose proof (linv_run nS Nt N1 N2 N3 W1 W2 W3 ops H1 H2 H3 G1 G2 G3 0 _ _ _ (or_intror Ss) (linv_init nS Nt N1 N2 N3 W1 W2 W3 H1 H2 H3) Run) as I.
  pose proof (ii_p _ _ _ _ _ _ _ _ _ _ _ I ltac:(lia)) as P0.
  destruct M' as [E1 E2 E3 F1 F2 F3 ENt Ent En0 En1 En2 En3 Ele EQ0 EQ1 EQ2 EQ3 Ez].
  rewrite !liu_superposition_rows by (rewrite ?En0; exact P0). cbv zeta. rewrite E1, E2, E3, En0, En1, En2, En3, EQ0, EQ1, EQ2.
  apply sumn_ext. intros j Lj.
  rewrite (ii_0 _ _ _ _ _ _ _ _ _ _ _ I) in Lj.
  pose proof (Forall2_at _ _ _ j EQ3 ltac:(rewrite (ii_3 _ _ _ _ _ _ _ _ _ _ _ I); exact Lj)) as Lg.
  set (c := ceil_div _ _) in *. set (r := nth j (li_Q3 st) []) in *. set (r' := nth j (li_Q3 st') []) in *.
  destruct (Nat.eq_dec (li_n3 st) 0) as [Z0|NZ].
  - assert (Zr : forall k, nth k r 0 = 0).
    { unfold r. apply (proj1 (Forall_forall _ _) (Ez Z0)), nth_In. rewrite (ii_3 _ _ _ _ _ _ _ _ _ _ _ I). exact Lj. }
    rewrite !(pv_longer_zero c r r') by assumption. f_equal. f_equal. apply sumn_ext. intros k _. rewrite !(pv_longer_zero c r r') by assumption. reflexivity.
  - rewrite (pv_longer c r r' 0), (pv_longer c r r' (Z.of_nat (li_n3 st) - 1)) by (assumption || lia). f_equal. f_equal.
    apply sumn_ext. intros k Hk. rewrite !(pv_longer c r r') by (assumption || lia). reflexivity.
Qed.

(* --- ClaessonJaved --- *)
Lemma gloop_prefix f : forall f' dt t1 t2 w t i r1 r2, t1 <= t2 -> gloop f dt t1 w t i = Some r1 -> gloop f' dt t2 w t i = Some r2 -> exists m, r2 = r1 ++ m.
Proof.
  induction f as [|f IH]; intros f' dt t1 t2 w t i r1 r2 L H1 H2; cbn in H1.
  - destruct (Rltb t t1); [discriminate|]. injection H1 as <-. exists r2. reflexivity.
  - destruct (Rltb t t1) eqn:E; [|injection H1 as <-; exists r2; reflexivity].
    destruct (gloop f dt t1 w (t + w i * dt) (S i)) as [q1|] eqn:E1; [|discriminate]. injection H1 as <-.
    apply Rltb_true in E. destruct f' as [|f']; cbn in H2; rewrite (proj2 (Rltb_true t t2)) in H2 by lra; [discriminate|].
    destruct (gloop f' dt t2 w (t + w i * dt) (S i)) as [q2|] eqn:E2; [|discriminate]. injection H2 as <-.
    destruct (IH _ _ _ _ _ _ _ _ _ L E1 E2) as (m & ->). exists m. reflexivity.
Qed.
Lemma diffs_app a b : a <> [] -> exists m, diffs (a ++ b) = diffs a ++ m.
Proof.
  induction a as [|x a IH]; intros N; [congruence|]. destruct a as [|y a].
  - exists (diffs (x :: b)). reflexivity.
  - destruct (IH ltac:(discriminate)) as (m & E). exists m. cbn [app diffs] in *. rewrite E. reflexivity.
Qed.
Lemma width_app dt a b : a <> [] -> exists m, cj_width_of dt (a ++ b) = cj_width_of dt a ++ m.
Proof. intros N. destruct (diffs_app a b N) as (m & E). unfold cj_width_of. rewrite E, map_app. eexists. reflexivity. Qed.

Lemma row_prefix w m s ops : (0 < length w)%nat -> nth 0 w 0 = 1 -> forall r r', length r = length w -> length r' = length (w ++ m) ->
  (forall k, (k < length w)%nat -> nth k r' 0 = nth k r 0) ->
  forall k, (k < length w)%nat -> nth k (row_run (w ++ m) s ops r') 0 = nth k (row_run w s ops r) 0.
Proof.
  intros Hw H1. induction ops as [|o ops IH]; intros r r' Lr Lr' E; [exact E|].
  assert (Lm : (length w <= length (w ++ m))%nat) by (rewrite app_length; lia).
  cbn [row_run fold_left]. apply IH; try (apply row_step_length; assumption).
  intros k Hk. destruct o as [|q]; cbn [row_step].
  - destruct k as [|k].
    + rewrite !nth_row_next_0; auto; [lia|]. rewrite app_nth1 by lia. exact H1.
    + rewrite !nth_row_next_S by (auto; lia). rewrite !(app_nth1 w m) by lia. rewrite !E by lia. reflexivity.
  - destruct k as [|k]; [rewrite !nth_upd_eq by lia; reflexivity|]. rewrite !nth_upd_neq by lia. apply E. exact Hk.
Qed.
Lemma row_front w s ops : (0 < length w)%nat -> nth 0 w 0 = 1 -> forall c r, length r = length w -> ((1 <= c)%nat \/ starts_with_step ops) ->
  (forall k, (c <= k)%nat -> nth k r 0 = 0) -> forall k, (c + steps ops <= k)%nat -> nth k (row_run w s ops r) 0 = 0.
Proof.
  intros Hw H1. induction ops as [|o ops IH]; intros c r Lr C Z k Hk; [apply Z; cbn in Hk; lia|].
  cbn [row_run fold_left]. destruct o as [|q]; cbn [steps row_step] in *.
  - apply (IH (S c)); [apply row_next_length|left; lia| |lia]. intros j Hj. destruct j as [|j]; [lia|].
    destruct (Nat.lt_ge_cases (S j) (length w)); [|apply nth_overflow; rewrite row_next_length; assumption].
    rewrite nth_row_next_S, !Z by (auto; lia). ring.
  - destruct C as [C|[]]. apply (IH c); [rewrite upd_length; exact Lr|left; exact C| |lia].
    intros j Hj. rewrite nth_upd_neq by lia. apply Z. exact Hj.
Qed.

Lemma cj_runs_any w w' nS ops st : cj_run (cj_init w nS) ops = Some st -> exists st', cj_run (cj_init w' nS) ops = Some st'.
Proof.
  intros H. assert (G : forall s s' st, length (cj_q s) = length (cj_q s') -> cj_run s ops = Some st -> exists st', cj_run s' ops = Some st').
  2:{ eapply G; [|exact H]. cbn [cj_init cj_q]. rewrite !repeat_length. reflexivity. }
  clear. induction ops as [|o ops IH]; intros s s' st L H; [eexists; reflexivity|]. cbn in *. destruct o as [|q]; cbn [cj_step] in *.
  - eapply IH; [|exact H]. cbn. rewrite !map_length. exact L.
  - rewrite <- L. destruct (length q =? length (cj_q s))%nat; [|discriminate]. eapply IH; [|exact H]. cbn. rewrite !map_length, !combine_length, L. reflexivity.
Qed.

Lemma cj_split f1 f2 dt tmax1 tmax2 cpl time1 time2 nS ops st :
  0 < dt -> 0 < tmax1 <= tmax2 -> (1 <= cpl)%nat ->
  time_ClaessonJaved f1 dt tmax1 cpl = Some time1 -> time_ClaessonJaved f2 dt tmax2 cpl = Some time2 ->
  cj_run (cj_init (cj_width_of dt time1) nS) ops = Some st ->
  exists more st', time2 = time1 ++ more /\ cj_run (cj_init (cj_width_of dt time2) nS) ops = Some st'
  /\ (forall g i, cj_superposition g st' i = cj_superposition g st i
       + sumn nS (fun j => sumn (length more) (fun k => cj_dg g i j (length time1 + k)%nat * nth (length time1 + k) (nth j (cj_q st') []) 0)))
  /\ (starts_with_step ops -> forall j k, (j < nS)%nat -> (steps ops <= k)%nat -> nth k (nth j (cj_q st') []) 0 = 0).
Proof.
  intros Hd [Ht Ht2] Hc T1 T2 Run.
  destruct (cjt_good dt tmax1 cpl f1 time1 Hd Ht Hc T1) as (Gt & _ & _).
  destruct (cjt_good dt tmax2 cpl f2 time2 Hd ltac:(lra) Hc T2) as (Gt2 & _ & _).
  destruct (good_width _ _ Gt) as (Wl & Wp & W1 & _). destruct (good_width _ _ Gt2) as (Wl2 & Wp2 & W12 & _).
  unfold time_ClaessonJaved in T1, T2. rewrite cjt_gloop in T1, T2 by exact Hc.
  destruct (gloop_prefix _ _ _ _ _ _ _ _ _ _ Ht2 T1 T2) as (more & ->). exists more.
  destruct (width_app dt time1 more) as (m & Em); [destruct Gt as (_ & N & _); exact N|]. rewrite Em in *.
  destruct (cj_runs_any _ (cj_width_of dt time1 ++ m) _ _ _ Run) as (st' & Run'). exists st'. split; [reflexivity|]. split; [exact Run'|].
  destruct (cj_run_rows _ _ _ Run) as (Ew & En & Er). destruct (cj_run_rows _ _ _ Run') as (Ew' & En' & Er').
  cbn [cj_init cj_w cj_q] in Ew, Ew', En, En', Er, Er'. rewrite repeat_length in En, En', Er, Er'.
  assert (Lm : length m = length more) by (rewrite !app_length in Wl2; lia).
  split.
  - intros g i. unfold cj_superposition. rewrite En, En', Ew, Ew', <- sumn_plus. apply sumn_ext. intros j Lj. rewrite (proj1 (Er j Lj)), (proj1 (Er' j Lj)).
    rewrite !nth_repeat_in by exact Lj. rewrite app_length, sumn_split, Lm, Wl. set (w := cj_width_of dt time1) in *. f_equal.
    apply sumn_ext. intros k Hk. f_equal. rewrite <- Wl. apply row_prefix; [exact Wp|exact W1|apply repeat_length|rewrite repeat_length, ?app_length, ?Lm; reflexivity|intros k' _; rewrite !nth_repeat; reflexivity|lia].
  - intros Ss j k Lj Hk. rewrite (proj1 (Er' j Lj)), nth_repeat_in by exact Lj.
    apply (row_front _ j ops Wp2 W12 O); [apply repeat_length|right; exact Ss|intros; apply nth_repeat|exact Hk].
Qed.

Lemma cj_horizon f1 f2 dt tmax1 tmax2 cpl time1 time2 nS ops st :
  0 < dt -> 0 < tmax1 <= tmax2 -> (1 <= cpl)%nat ->
  time_ClaessonJaved f1 dt tmax1 cpl = Some time1 -> time_ClaessonJaved f2 dt tmax2 cpl = Some time2 ->
  cj_run (cj_init (cj_width_of dt time1) nS) ops = Some st -> starts_with_step ops -> (steps ops <= length time1)%nat ->
  (exists more, time2 = time1 ++ more)
  /\ exists st', cj_run (cj_init (cj_width_of dt time2) nS) ops = Some st' /\ forall g i, cj_superposition g st' i = cj_superposition g st i.
Proof.
  intros Hd Ht Hc T1 T2 Run Ss St. destruct (cj_split f1 f2 dt tmax1 tmax2 cpl time1 time2 nS ops st Hd Ht Hc T1 T2 Run) as (more & st' & E & Run' & Sp & Z).
  split; [exists more; exact E|]. exists st'. split; [exact Run'|]. intros g i. rewrite Sp, sumn_zero; [lra|].
  intros j Lj. apply sumn_zero. intros k _. rewrite (Z Ss j) by (assumption || lia). ring.
Qed.

Lemma cj_horizon_below f1 f2 dt tmax1 tmax2 cpl time1 time2 nS ops st hi (g : nat -> nat -> nat -> R) i :
  0 < dt -> 0 < tmax1 <= tmax2 -> (1 <= cpl)%nat ->
  time_ClaessonJaved f1 dt tmax1 cpl = Some time1 -> time_ClaessonJaved f2 dt tmax2 cpl = Some time2 ->
  cj_run (cj_init (cj_width_of dt time1) nS) ops = Some st -> 0 <= hi -> Forall (load_in 0 hi) ops ->
  (forall j, (j < nS)%nat -> grows (g i j)) ->
  exists st', cj_run (cj_init (cj_width_of dt time2) nS) ops = Some st' /\ cj_superposition g st i <= cj_superposition g st' i.
Proof.
  intros Hd Ht Hc T1 T2 Run Hi F Gr. destruct (cj_split f1 f2 dt tmax1 tmax2 cpl time1 time2 nS ops st Hd Ht Hc T1 T2 Run) as (more & st' & E & Run' & Sp & _).
  exists st'. split; [exact Run'|]. rewrite Sp.
  destruct (cjt_good dt tmax2 cpl f2 time2 Hd ltac:(lra) Hc T2) as (Gt2 & _ & Gap).
  assert (P : 0 <= sumn nS (fun j => sumn (length more) (fun k => cj_dg g i j (length time1 + k)%nat * nth (length time1 + k) (nth j (cj_q st') []) 0))); [|lra].
  apply sumn_nonneg. intros j Lj. apply sumn_nonneg. intros k _. apply Rmult_le_pos.
  - destruct (Gr j Lj) as [G0 G]. destruct (length time1 + k)%nat as [|n]; cbn; [exact G0|]. pose proof (G n). lra.
  - apply (cj_bounds_lemma dt time2 nS ops st' 0 hi j Gt2 Gap ltac:(lra) F Run' Lj).
Qed.
