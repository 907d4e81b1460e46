(* Linear combinations of simulations with MLAA and Liu. *)
From Verif Require Import Base LoadAgg_Model LoadAgg_Spec LoadAgg_CJ_Proofs LoadAgg_MLAA_Proofs LoadAgg_Liu_Proofs.
Local Arguments Nat.sub : simpl never.

Ltac mlcbn := cbn [ml_N0 ml_N1 ml_N2 ml_N3 ml_Nt ml_nt ml_n0 ml_n1 ml_n2 ml_n3 ml_n4 ml_qb ml_Q0 ml_Q1 ml_Q2 ml_Q3 ml_Q4].

Section Lin.
Variables a b : R.

Inductive row3 : list R -> list R -> list R -> Prop :=
| row_nil : row3 [] [] []
| row_cons x y z r1 r2 r3 : z = a * x + b * y -> row3 r1 r2 r3 -> row3 (x :: r1) (y :: r2) (z :: r3).
Inductive tab3 : list (list R) -> list (list R) -> list (list R) -> Prop :=
| tab_nil : tab3 [] [] []
| tab_cons x y z r1 r2 r3 : row3 x y z -> tab3 r1 r2 r3 -> tab3 (x :: r1) (y :: r2) (z :: r3).

Lemma row_len r1 r2 r3 : row3 r1 r2 r3 -> length r1 = length r3 /\ length r2 = length r3.
Proof. induction 1; cbn; intuition lia. Qed.
Lemma tab_len r1 r2 r3 : tab3 r1 r2 r3 -> length r1 = length r3 /\ length r2 = length r3.
Proof. induction 1; cbn; intuition lia. Qed.
Lemma row_nth r1 r2 r3 k : row3 r1 r2 r3 -> nth k r3 0 = a * nth k r1 0 + b * nth k r2 0.
Proof. intros H. revert k; induction H; intros [|k]; cbn; try lra; auto. Qed.
Lemma tab_nth r1 r2 r3 k : tab3 r1 r2 r3 -> row3 (nth k r1 []) (nth k r2 []) (nth k r3 []).
Proof. intros H. revert k; induction H; intros [|k]; cbn; auto using row_nil. Qed.
Lemma row_zero n : row3 (repeat 0 n) (repeat 0 n) (repeat 0 n).
Proof. induction n; cbn; constructor; auto. lra. Qed.
Lemma tab_zero m n : tab3 (repeat (repeat 0 n) m) (repeat (repeat 0 n) m) (repeat (repeat 0 n) m).
Proof. induction m; cbn; constructor; auto using row_zero. Qed.
Lemma row_upd r1 r2 r3 i x y z : row3 r1 r2 r3 -> z = a * x + b * y -> row3 (upd r1 i x) (upd r2 i y) (upd r3 i z).
Proof. intros H E. revert i; induction H; intros [|i]; cbn; constructor; auto. Qed.
Lemma row_app p1 p2 p3 r1 r2 r3 : row3 p1 p2 p3 -> row3 r1 r2 r3 -> row3 (p1 ++ r1) (p2 ++ r2) (p3 ++ r3).
Proof. induction 1; cbn; intros; auto. constructor; auto. Qed.
Lemma row_firstn n r1 r2 r3 : row3 r1 r2 r3 -> row3 (firstn n r1) (firstn n r2) (firstn n r3).
Proof. intros H. revert n; induction H; intros [|n]; cbn; constructor; auto. Qed.
Lemma row_skipn n r1 r2 r3 : row3 r1 r2 r3 -> row3 (skipn n r1) (skipn n r2) (skipn n r3).
Proof. intros H. revert n; induction H; intros [|n]; cbn; auto using row_nil. constructor; auto. Qed.
Lemma row_slice m n r1 r2 r3 : row3 r1 r2 r3 -> row3 (slice m n r1) (slice m n r2) (slice m n r3).
Proof. intros. apply row_firstn, row_skipn. auto. Qed.
Lemma row_sum r1 r2 r3 : row3 r1 r2 r3 -> Rsum r3 = a * Rsum r1 + b * Rsum r2.
Proof. induction 1; cbn; [lra|]. subst. rewrite IHrow3. ring. Qed.
Lemma row_mean r1 r2 r3 : row3 r1 r2 r3 -> mean r3 = a * mean r1 + b * mean r2.
Proof. intros H. unfold mean. destruct (row_len _ _ _ H) as [-> ->]. rewrite (row_sum _ _ _ H). unfold Rdiv. ring. Qed.
Lemma row_of q1 q2 : length q1 = length q2 -> row3 q1 q2 (map (fun p => a * fst p + b * snd p) (combine q1 q2)).
Proof. revert q2; induction q1 as [|x q1 IH]; intros [|y q2] L; cbn in *; try lia; constructor; auto. Qed.

Lemma tab_map (f : list R -> list R) r1 r2 r3 : (forall x y z, row3 x y z -> row3 (f x) (f y) (f z)) ->
  tab3 r1 r2 r3 -> tab3 (map f r1) (map f r2) (map f r3).
Proof. intros F. induction 1; cbn; constructor; auto. Qed.
Lemma tab_map_row (f : list R -> R) r1 r2 r3 : (forall x y z, row3 x y z -> f z = a * f x + b * f y) ->
  tab3 r1 r2 r3 -> row3 (map f r1) (map f r2) (map f r3).
Proof. intros F. induction 1; cbn; constructor; auto. Qed.
Lemma tab_map2 (f : list R -> list R -> list R) p1 p2 p3 r1 r2 r3 :
  (forall x y z x' y' z', row3 x y z -> row3 x' y' z' -> row3 (f x x') (f y y') (f z z')) ->
  tab3 p1 p2 p3 -> tab3 r1 r2 r3 ->
  tab3 (map (fun p => f (fst p) (snd p)) (combine p1 r1)) (map (fun p => f (fst p) (snd p)) (combine p2 r2)) (map (fun p => f (fst p) (snd p)) (combine p3 r3)).
Proof.
  intros F H. revert r1 r2 r3. induction H; intros s1 s2 s3 S; [constructor|]. destruct S; cbn; constructor; auto.
Qed.
Lemma tab_set i p1 p2 p3 q1 q2 q3 : tab3 p1 p2 p3 -> row3 q1 q2 q3 ->
  tab3 (map (fun p => upd (fst p) i (snd p)) (combine p1 q1)) (map (fun p => upd (fst p) i (snd p)) (combine p2 q2)) (map (fun p => upd (fst p) i (snd p)) (combine p3 q3)).
Proof.
  intros H. revert q1 q2 q3. induction H; intros s1 s2 s3 S; [constructor|]. destruct S; cbn; constructor; auto. apply row_upd; auto.
Qed.

Lemma sumn_lin n f1 f2 f3 : (forall i, f3 i = a * f1 i + b * f2 i) -> sumn n f3 = a * sumn n f1 + b * sumn n f2.
Proof. intros H. rewrite <- !sumn_scal, <- sumn_plus. apply sumn_ext. intros. apply H. Qed.

(* --- MLAA --- *)
Definition ml3 (s1 s2 s3 : mlaa) : Prop :=
  (ml_N0 s1 = ml_N0 s3 /\ ml_N1 s1 = ml_N1 s3 /\ ml_N2 s1 = ml_N2 s3 /\ ml_N3 s1 = ml_N3 s3 /\ ml_Nt s1 = ml_Nt s3
   /\ ml_nt s1 = ml_nt s3 /\ ml_n0 s1 = ml_n0 s3 /\ ml_n1 s1 = ml_n1 s3 /\ ml_n2 s1 = ml_n2 s3 /\ ml_n3 s1 = ml_n3 s3 /\ ml_n4 s1 = ml_n4 s3)
  /\ (ml_N0 s2 = ml_N0 s3 /\ ml_N1 s2 = ml_N1 s3 /\ ml_N2 s2 = ml_N2 s3 /\ ml_N3 s2 = ml_N3 s3 /\ ml_Nt s2 = ml_Nt s3
   /\ ml_nt s2 = ml_nt s3 /\ ml_n0 s2 = ml_n0 s3 /\ ml_n1 s2 = ml_n1 s3 /\ ml_n2 s2 = ml_n2 s3 /\ ml_n3 s2 = ml_n3 s3 /\ ml_n4 s2 = ml_n4 s3)
  /\ tab3 (ml_qb s1) (ml_qb s2) (ml_qb s3) /\ tab3 (ml_Q0 s1) (ml_Q0 s2) (ml_Q0 s3)
  /\ row3 (ml_Q1 s1) (ml_Q1 s2) (ml_Q1 s3) /\ row3 (ml_Q2 s1) (ml_Q2 s2) (ml_Q2 s3)
  /\ row3 (ml_Q3 s1) (ml_Q3 s2) (ml_Q3 s3) /\ row3 (ml_Q4 s1) (ml_Q4 s2) (ml_Q4 s3).

Lemma ml3_init nS Nt N0 N1 N2 N3 : ml3 (mlaa_init nS Nt N0 N1 N2 N3) (mlaa_init nS Nt N0 N1 N2 N3) (mlaa_init nS Nt N0 N1 N2 N3).
Proof. unfold ml3, mlaa_init. cbn. repeat split; auto using tab_zero, row_zero. Qed.

Lemma block_mean m n r1 r2 r3 : tab3 r1 r2 r3 -> row3 (map (fun r => mean (slice m n r)) r1) (map (fun r => mean (slice m n r)) r2) (map (fun r => mean (slice m n r)) r3).
Proof. apply tab_map_row. intros. apply row_mean, row_slice. auto. Qed.

Lemma ml3_next s1 s2 s3 t1 t2 : ml3 s1 s2 s3 -> mlaa_next s1 = Some t1 -> mlaa_next s2 = Some t2 -> exists t3, mlaa_next s3 = Some t3 /\ ml3 t1 t2 t3.
Proof.
  destruct s1 as [N0a N1a N2a N3a Nta nta n0a n1a n2a n3a n4a qba Q0a Q1a Q2a Q3a Q4a], s2 as [N0b N1b N2b N3b Ntb ntb n0b n1b n2b n3b n4b qbb Q0b Q1b Q2b Q3b Q4b], s3 as [N0c N1c N2c N3c Ntc ntc n0c n1c n2c n3c n4c qbc Q0c Q1c Q2c Q3c Q4c]. unfold ml3.
  mlcbn.
  intros [(? & ? & ? & ? & ? & ? & ? & ? & ? & ? & ?) [(? & ? & ? & ? & ? & ? & ? & ? & ? & ? & ?) (A & B & C1 & C2 & C3 & C4)]]. subst.
  unfold mlaa_next. mlcbn.
  destruct (Ntc <? S ntc)%nat; [discriminate|]. cbv zeta. intros [= <-] [= <-]. eexists. split; [reflexivity|].
  mlcbn.
  split; [repeat split|]. split; [repeat split|]. split; [exact A|]. split.
  - refine (tab_map2 (fun q0 q => firstn _ q0 ++ slice _ _ q) _ _ _ _ _ _ _ B A). intros. apply row_app; [apply row_firstn|apply row_slice]; assumption.
  - split; [|split; [|split]]; match goal with |- row3 (if ?c then _ else _) _ _ => destruct c end; try assumption; apply block_mean; exact A.
Qed.

Lemma ml3_set s1 s2 s3 t1 t2 q1 q2 q3 : ml3 s1 s2 s3 -> row3 q1 q2 q3 -> mlaa_set s1 q1 = Some t1 -> mlaa_set s2 q2 = Some t2 ->
  exists t3, mlaa_set s3 q3 = Some t3 /\ ml3 t1 t2 t3.
Proof.
  destruct s1 as [N0a N1a N2a N3a Nta nta n0a n1a n2a n3a n4a qba Q0a Q1a Q2a Q3a Q4a], s2 as [N0b N1b N2b N3b Ntb ntb n0b n1b n2b n3b n4b qbb Q0b Q1b Q2b Q3b Q4b], s3 as [N0c N1c N2c N3c Ntc ntc n0c n1c n2c n3c n4c qbc Q0c Q1c Q2c Q3c Q4c]. unfold ml3.
  mlcbn.
  intros [(? & ? & ? & ? & ? & ? & ? & ? & ? & ? & ?) [(? & ? & ? & ? & ? & ? & ? & ? & ? & ? & ?) (A & B & C1 & C2 & C3 & C4)]] Q. subst.
  unfold mlaa_set. mlcbn.
  destruct (row_len _ _ _ Q) as [-> ->], (tab_len _ _ _ A) as [-> ->].
  destruct (negb _); [discriminate|]. destruct (_ =? 0)%nat; [discriminate|]. destruct (_ =? 0)%nat; [discriminate|].
  intros [= <-] [= <-]. eexists. split; [reflexivity|].
  mlcbn.
  split; [repeat split|]. split; [repeat split|]. split; [apply tab_set; assumption|]. split; [apply tab_set; assumption|auto].
Qed.

Lemma ml3_run o1 : forall o2 o3 s1 s2 s3 t1 t2, ml3 s1 s2 s3 -> combine_ops a b o1 o2 = Some o3 ->
  mlaa_run s1 o1 = Some t1 -> mlaa_run s2 o2 = Some t2 -> exists t3, mlaa_run s3 o3 = Some t3 /\ ml3 t1 t2 t3.
Proof.
  induction o1 as [|[|q1] o1 IH]; intros [|[|q2] o2] o3 s1 s2 s3 t1 t2 M C; cbn [combine_ops] in C; try discriminate.
  - injection C as <-. cbn. intros [= <-] [= <-]. eauto.
  - destruct (combine_ops a b o1 o2) as [r|] eqn:E; [|discriminate]. injection C as <-. cbn [mlaa_run mlaa_step].
    destruct (mlaa_next s1) as [u1|] eqn:E1; [|discriminate]. destruct (mlaa_next s2) as [u2|] eqn:E2; [|discriminate]. intros H1 H2.
    destruct (ml3_next _ _ _ _ _ M E1 E2) as (u3 & -> & M'). exact (IH _ _ _ _ _ _ _ M' E H1 H2).
  - destruct (Nat.eqb_spec (length q1) (length q2)) as [L|]; [|discriminate].
    destruct (combine_ops a b o1 o2) as [r|] eqn:E; [|discriminate]. injection C as <-. cbn [mlaa_run mlaa_step].
    destruct (mlaa_set s1 q1) as [u1|] eqn:E1; [|discriminate]. destruct (mlaa_set s2 q2) as [u2|] eqn:E2; [|discriminate]. intros H1 H2.
    destruct (ml3_set _ _ _ _ _ _ _ _ M (row_of q1 q2 L) E1 E2) as (u3 & -> & M'). exact (IH _ _ _ _ _ _ _ M' E H1 H2).
Qed.

Lemma ml3_superposition g i s1 s2 s3 : ml3 s1 s2 s3 -> mlaa_superposition g s3 i = a * mlaa_superposition g s1 i + b * mlaa_superposition g s2 i.
Proof.
  destruct s1 as [N0a N1a N2a N3a Nta nta n0a n1a n2a n3a n4a qba Q0a Q1a Q2a Q3a Q4a], s2 as [N0b N1b N2b N3b Ntb ntb n0b n1b n2b n3b n4b qbb Q0b Q1b Q2b Q3b Q4b], s3 as [N0c N1c N2c N3c Ntc ntc n0c n1c n2c n3c n4c qbc Q0c Q1c Q2c Q3c Q4c]. unfold ml3.
  mlcbn.
  intros [(? & ? & ? & ? & ? & ? & ? & ? & ? & ? & ?) [(? & ? & ? & ? & ? & ? & ? & ? & ? & ? & ?) (A & B & C1 & C2 & C3 & C4)]]. subst.
  unfold mlaa_superposition. mlcbn.
  destruct (tab_len _ _ _ A) as [-> ->]. cbv zeta.
  rewrite !Rmult_plus_distr_l.
  match goal with |- ?x1 + ?x2 + ?x3 + ?x4 + ?x5 + ?x6 = (a * ?y1 + a * ?y2 + a * ?y3 + a * ?y4 + a * ?y5 + a * ?y6) + (b * ?z1 + b * ?z2 + b * ?z3 + b * ?z4 + b * ?z5 + b * ?z6) =>
    assert (E1 : x1 = a * y1 + b * z1); [|assert (E2 : x2 = a * y2 + b * z2); [|assert (E3 : x3 = a * y3 + b * z3); [|assert (E4 : x4 = a * y4 + b * z4);
    [|assert (E5 : x5 = a * y5 + b * z5); [|assert (E6 : x6 = a * y6 + b * z6); [|rewrite E1, E2, E3, E4, E5, E6; ring]]]]]] end.
  - apply sumn_lin. intros it. apply sumn_lin. intros j. rewrite !(row_nth _ _ _ _ (tab_nth _ _ _ j B)). ring.
  - apply sumn_lin. intros j. rewrite !(row_nth _ _ _ _ (tab_nth _ _ _ j B)), (row_nth _ _ _ _ C1). ring.
  - apply sumn_lin. intros j. rewrite (row_nth _ _ _ _ C1), (row_nth _ _ _ _ C2). ring.
  - apply sumn_lin. intros j. rewrite (row_nth _ _ _ _ C2), (row_nth _ _ _ _ C3). ring.
  - apply sumn_lin. intros j. rewrite (row_nth _ _ _ _ C3), (row_nth _ _ _ _ C4). ring.
  - apply sumn_lin. intros j. rewrite (row_nth _ _ _ _ C4). ring.
Qed.

(* --- Liu --- *)
Definition li3 (s1 s2 s3 : liu) : Prop :=
  (li_N1 s1 = li_N1 s3 /\ li_N2 s1 = li_N2 s3 /\ li_N3 s1 = li_N3 s3 /\ li_W1 s1 = li_W1 s3 /\ li_W2 s1 = li_W2 s3 /\ li_W3 s1 = li_W3 s3
   /\ li_Nt s1 = li_Nt s3 /\ li_nt s1 = li_nt s3 /\ li_n0 s1 = li_n0 s3 /\ li_n1 s1 = li_n1 s3 /\ li_n2 s1 = li_n2 s3 /\ li_n3 s1 = li_n3 s3)
  /\ (li_N1 s2 = li_N1 s3 /\ li_N2 s2 = li_N2 s3 /\ li_N3 s2 = li_N3 s3 /\ li_W1 s2 = li_W1 s3 /\ li_W2 s2 = li_W2 s3 /\ li_W3 s2 = li_W3 s3
   /\ li_Nt s2 = li_Nt s3 /\ li_nt s2 = li_nt s3 /\ li_n0 s2 = li_n0 s3 /\ li_n1 s2 = li_n1 s3 /\ li_n2 s2 = li_n2 s3 /\ li_n3 s2 = li_n3 s3)
  /\ tab3 (li_Q0 s1) (li_Q0 s2) (li_Q0 s3) /\ tab3 (li_Q1 s1) (li_Q1 s2) (li_Q1 s3)
  /\ tab3 (li_Q2 s1) (li_Q2 s2) (li_Q2 s3) /\ tab3 (li_Q3 s1) (li_Q3 s2) (li_Q3 s3).

Lemma li3_init nS Nt N1 N2 N3 W1 W2 W3 : let s := liu_init nS Nt N1 N2 N3 W1 W2 W3 in li3 s s s.
Proof. unfold li3, liu_init. cbn [li_N1 li_N2 li_N3 li_W1 li_W2 li_W3 li_Nt li_nt li_n0 li_n1 li_n2 li_n3 li_Q0 li_Q1 li_Q2 li_Q3]. repeat split; auto using tab_zero. Qed.

Lemma row_shift n r1 r2 r3 : row3 r1 r2 r3 -> row3 (liu_shift n r1) (liu_shift n r2) (liu_shift n r3).
Proof.
  unfold liu_shift. generalize (rev (seq 1 (n - 1))) as l. intros l. revert r1 r2 r3. induction l as [|i l IH]; intros r1 r2 r3 H; [exact H|].
  cbn [fold_left]. apply IH. apply row_upd; [exact H|]. apply row_nth. exact H.
Qed.
Lemma tab_push m N n p1 p2 p3 r1 r2 r3 : tab3 p1 p2 p3 -> tab3 r1 r2 r3 ->
  tab3 (map (fun p => liu_push m (fst p) (liu_oldest N n (snd p))) (combine p1 r1))
       (map (fun p => liu_push m (fst p) (liu_oldest N n (snd p))) (combine p2 r2))
       (map (fun p => liu_push m (fst p) (liu_oldest N n (snd p))) (combine p3 r3)).
Proof.
  apply (tab_map2 (fun c f => liu_push m c (liu_oldest N n f))). intros. unfold liu_push, liu_oldest. apply row_upd; [apply row_shift; assumption|apply row_mean, row_slice; assumption].
Qed.

Lemma li3_next s1 s2 s3 t1 t2 : li3 s1 s2 s3 -> liu_next s1 = Some t1 -> liu_next s2 = Some t2 -> exists t3, liu_next s3 = Some t3 /\ li3 t1 t2 t3.
Proof.
  destruct s1 as [N1a N2a N3a W1a W2a W3a Nta nta n0a n1a n2a n3a Q0a Q1a Q2a Q3a], s2 as [N1b N2b N3b W1b W2b W3b Ntb ntb n0b n1b n2b n3b Q0b Q1b Q2b Q3b], s3 as [N1c N2c N3c W1c W2c W3c Ntc ntc n0c n1c n2c n3c Q0c Q1c Q2c Q3c]. unfold li3. licbn.
  intros [(? & ? & ? & ? & ? & ? & ? & ? & ? & ? & ? & ?) [(? & ? & ? & ? & ? & ? & ? & ? & ? & ? & ? & ?) (A & B & C & D)]]. subst.
  unfold liu_next. licbn. cbv zeta.
  set (z0 := fun r => upd (liu_shift _ r) 0 0). 
  assert (A' : tab3 (map z0 Q0a) (map z0 Q0b) (map z0 Q0c)) by (apply tab_map; [|exact A]; intros; apply row_upd; [apply row_shift; assumption|lra]).
  destruct (_ <? S n0c)%nat; [discriminate|]. destruct (_ <=? S n0c)%nat.
  2:{ intros [= <-] [= <-]. eexists. split; [reflexivity|]. licbn. repeat (split; [repeat split|]); assumption. }
  destruct (_ <? S n1c)%nat; [discriminate|]. destruct (_ <=? S n1c)%nat.
  2:{ intros [= <-] [= <-]. eexists. split; [reflexivity|]. licbn. repeat (split; [repeat split|]); auto using tab_push. }
  destruct (_ <? S n2c)%nat; [discriminate|]. destruct (_ <=? S n2c)%nat.
  2:{ intros [= <-] [= <-]. eexists. split; [reflexivity|]. licbn. repeat (split; [repeat split|]); auto using tab_push. }
  destruct (_ <? S n3c)%nat; [discriminate|].
  intros [= <-] [= <-]. eexists. split; [reflexivity|]. licbn. repeat (split; [repeat split|]); auto 6 using tab_push.
Qed.

Lemma li3_set s1 s2 s3 t1 t2 q1 q2 q3 : li3 s1 s2 s3 -> row3 q1 q2 q3 -> liu_set s1 q1 = Some t1 -> liu_set s2 q2 = Some t2 ->
  exists t3, liu_set s3 q3 = Some t3 /\ li3 t1 t2 t3.
Proof.
  destruct s1 as [N1a N2a N3a W1a W2a W3a Nta nta n0a n1a n2a n3a Q0a Q1a Q2a Q3a], s2 as [N1b N2b N3b W1b W2b W3b Ntb ntb n0b n1b n2b n3b Q0b Q1b Q2b Q3b], s3 as [N1c N2c N3c W1c W2c W3c Ntc ntc n0c n1c n2c n3c Q0c Q1c Q2c Q3c]. unfold li3. licbn.
  intros [(? & ? & ? & ? & ? & ? & ? & ? & ? & ? & ? & ?) [(? & ? & ? & ? & ? & ? & ? & ? & ? & ? & ? & ?) (A & B & C & D)]] Q. subst.
  unfold liu_set. licbn. destruct (row_len _ _ _ Q) as [-> ->], (tab_len _ _ _ A) as [-> ->].
  destruct (negb _); [discriminate|]. intros [= <-] [= <-]. eexists. split; [reflexivity|]. licbn.
  split; [repeat split|]. split; [repeat split|]. split; [apply tab_set; assumption|auto].
Qed.

Lemma li3_run o1 : forall o2 o3 s1 s2 s3 t1 t2, li3 s1 s2 s3 -> combine_ops a b o1 o2 = Some o3 ->
  liu_run s1 o1 = Some t1 -> liu_run s2 o2 = Some t2 -> exists t3, liu_run s3 o3 = Some t3 /\ li3 t1 t2 t3.
Proof.
  induction o1 as [|[|q1] o1 IH]; intros [|[|q2] o2] o3 s1 s2 s3 t1 t2 M C; cbn [combine_ops] in C; try discriminate.
  - injection C as <-. cbn. intros [= <-] [= <-]. eauto.
  - destruct (combine_ops a b o1 o2) as [r|] eqn:E; [|discriminate]. injection C as <-. cbn [liu_run liu_step].
    destruct (liu_next s1) as [u1|] eqn:E1; [|discriminate]. destruct (liu_next s2) as [u2|] eqn:E2; [|discriminate]. intros H1 H2.
    destruct (li3_next _ _ _ _ _ M E1 E2) as (u3 & -> & M'). exact (IH _ _ _ _ _ _ _ M' E H1 H2).
  - destruct (Nat.eqb_spec (length q1) (length q2)) as [L|]; [|discriminate].
    destruct (combine_ops a b o1 o2) as [r|] eqn:E; [|discriminate]. injection C as <-. cbn [liu_run liu_step].
    destruct (liu_set s1 q1) as [u1|] eqn:E1; [|discriminate]. destruct (liu_set s2 q2) as [u2|] eqn:E2; [|discriminate]. intros H1 H2.
    destruct (li3_set _ _ _ _ _ _ _ _ M (row_of q1 q2 L) E1 E2) as (u3 & -> & M'). exact (IH _ _ _ _ _ _ _ M' E H1 H2).
Qed.

Lemma row_pyget r1 r2 r3 i : row3 r1 r2 r3 ->
  match pyget r3 i with Some v => v | None => 0 end = a * match pyget r1 i with Some v => v | None => 0 end + b * match pyget r2 i with Some v => v | None => 0 end.
Proof.
  intros H. destruct (row_len _ _ _ H) as [L1 L2].
  assert (E : forall k, match nth_error r3 k with Some v => v | None => 0 end = a * match nth_error r1 k with Some v => v | None => 0 end + b * match nth_error r2 k with Some v => v | None => 0 end).
  { clear L1 L2. intros k. revert k; induction H; intros [|k]; cbn; try lra; auto. }
  unfold pyget. rewrite L1, L2. repeat match goal with |- context [if ?c then _ else _] => destruct c end; try lra; apply E.
Qed.
Lemma qz_lin r1 r2 r3 j i : tab3 r1 r2 r3 -> qz r3 j i = a * qz r1 j i + b * qz r2 j i.
Proof. intros H. unfold qz. apply row_pyget, tab_nth, H. Qed.

Lemma li3_superposition g i s1 s2 s3 : li3 s1 s2 s3 -> liu_superposition g s3 i = a * liu_superposition g s1 i + b * liu_superposition g s2 i.
Proof.
  destruct s1 as [N1a N2a N3a W1a W2a W3a Nta nta n0a n1a n2a n3a Q0a Q1a Q2a Q3a], s2 as [N1b N2b N3b W1b W2b W3b Ntb ntb n0b n1b n2b n3b Q0b Q1b Q2b Q3b], s3 as [N1c N2c N3c W1c W2c W3c Ntc ntc n0c n1c n2c n3c Q0c Q1c Q2c Q3c]. unfold li3. licbn.
  intros [(? & ? & ? & ? & ? & ? & ? & ? & ? & ? & ? & ?) [(? & ? & ? & ? & ? & ? & ? & ? & ? & ? & ? & ?) (A & B & C & D)]]. subst.
  unfold liu_superposition. licbn. destruct (tab_len _ _ _ A) as [-> ->]. cbv zeta.
  rewrite !Rmult_plus_distr_l.
  match goal with |- ?x1 + ?x2 + ?x3 + ?x4 + ?x5 + ?x6 + ?x7 + ?x8 = (a * ?y1 + a * ?y2 + a * ?y3 + a * ?y4 + a * ?y5 + a * ?y6 + a * ?y7 + a * ?y8) + (b * ?z1 + b * ?z2 + b * ?z3 + b * ?z4 + b * ?z5 + b * ?z6 + b * ?z7 + b * ?z8) =>
    assert (E1 : x1 = a * y1 + b * z1); [|assert (E2 : x2 = a * y2 + b * z2); [|assert (E3 : x3 = a * y3 + b * z3); [|assert (E4 : x4 = a * y4 + b * z4);
    [|assert (E5 : x5 = a * y5 + b * z5); [|assert (E6 : x6 = a * y6 + b * z6); [|assert (E7 : x7 = a * y7 + b * z7); [|assert (E8 : x8 = a * y8 + b * z8); [|rewrite E1, E2, E3, E4, E5, E6, E7, E8; ring]]]]]]]] end;
  repeat (apply sumn_lin; intros ?); rewrite ?(qz_lin _ _ _ _ _ A), ?(qz_lin _ _ _ _ _ B), ?(qz_lin _ _ _ _ _ C), ?(qz_lin _ _ _ _ _ D); ring.
Qed.
End Lin.
