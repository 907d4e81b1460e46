(* Simulations of sources that share their loads. *)
From Verif Require Import Base LoadAgg_Model LoadAgg_Spec LoadAgg_CJ_Proofs LoadAgg_MLAA_Proofs LoadAgg_Liu_Proofs Agg_Lin_Proofs Group_Spec.
Local Arguments Nat.sub : simpl never.

Section Group.
Variable phi : list nat.
Variable n1 : nat.
Hypothesis Phi : Forall (fun c => (c < n1)%nat) phi.
Let nS := length phi.

Definition pick {A} (d : A) (l : list A) : list A := map (fun c => nth c l d) phi.

Lemma pick_len {A} (d : A) l : length (pick d l) = nS.
Proof. apply map_length. Qed.
Lemma pick_ext {A} (d d' : A) l l' : (forall c, (c < n1)%nat -> nth c l d = nth c l' d') -> pick d l = pick d' l'.
Proof. intros H. unfold pick. apply map_ext_in. intros c I. apply H. exact (proj1 (Forall_forall _ _) Phi c I). Qed.
Lemma pick_map {A B} (f : A -> B) d d' l : length l = n1 -> map f (pick d l) = pick d' (map f l).
Proof.
  intros L. unfold pick. rewrite map_map. apply map_ext_in. intros c I. pose proof (proj1 (Forall_forall _ _) Phi c I) as Hc. cbn in Hc.
  rewrite (nth_indep (map f l) d' (f d)) by (rewrite map_length; lia). rewrite map_nth. reflexivity.
Qed.
Lemma pick_combine {A B} (d : A) (d' : B) l l' : length l = n1 -> length l' = n1 -> combine (pick d l) (pick d' l') = pick (d, d') (combine l l').
Proof.
  intros L L'. unfold pick. rewrite (map_ext _ _ (fun c => combine_nth l l' c d d' (eq_trans L (eq_sym L')))).
  induction phi as [|c p IH]; cbn; [reflexivity|]. inversion Phi; subst. f_equal. auto.
Qed.
Lemma pick_map2 {A B C} (f : A * B -> C) d d' d'' l l' : length l = n1 -> length l' = n1 ->
  map f (combine (pick d l) (pick d' l')) = pick d'' (map f (combine l l')).
Proof. intros L L'. rewrite pick_combine by assumption. apply pick_map. rewrite combine_length. lia. Qed.
Lemma pick_repeat {A} (d x : A) : pick d (repeat x n1) = repeat x nS.
Proof.
  unfold pick, nS. induction phi as [|c p IH]; cbn; [reflexivity|]. inversion Phi as [|? ? H1 H2]; subst. rewrite IH by exact H2.
  f_equal. rewrite (nth_indep _ d x) by (rewrite repeat_length; exact H1). apply nth_repeat.
Qed.
Lemma nth_pick {A} (d : A) l j : (j < nS)%nat -> nth j (pick d l) d = nth (nth j phi O) l d.
Proof.
  intros H. unfold pick. rewrite (nth_indep _ d (nth O l d)) by (rewrite map_length; exact H). apply (map_nth (fun c => nth c l d)).
Qed.

(* Sums over the sources are sums over the groups. *)
Lemma group_sum (a : nat -> R) (v : nat -> R) :
  sumn nS (fun j => a j * v (nth j phi O)) = sumn n1 (fun c => sumn nS (fun j => if (nth j phi O =? c)%nat then a j else 0) * v c).
Proof.
  rewrite (sumn_ext n1 _ (fun c => sumn nS (fun j => (if (nth j phi O =? c)%nat then a j else 0) * v c))) by (intros c _; rewrite sumn_scal_r; reflexivity).
  rewrite <- sumn_swap. apply sumn_ext. intros j Hj.
  assert (Hc : (nth j phi O < n1)%nat) by (apply (proj1 (Forall_forall _ _) Phi), nth_In; exact Hj).
  revert Hc. generalize (nth j phi O) as c. intros c Hc. clear Hj.
  assert (G : forall n, sumn n (fun k => (if (c =? k)%nat then a j else 0) * v k) = if (c <? n)%nat then a j * v c else 0).
  { induction n as [|n IH]; [reflexivity|]. cbn [sumn]. rewrite IH. destruct (Nat.ltb_spec c n), (Nat.ltb_spec c (S n)), (Nat.eqb_spec c n); subst; try lia; lra. }
  rewrite G. destruct (Nat.ltb_spec c n1); [reflexivity|lia].
Qed.

(* --- ClaessonJaved --- *)
Definition cjg (s t : cj) : Prop := cj_w t = cj_w s /\ length (cj_q s) = n1 /\ cj_q t = pick [] (cj_q s).
Lemma cjg_step s t o s' : cjg s t -> cj_step s o = Some s' -> exists t', cj_step t (match o with Next => Next | SetLoad q => SetLoad (hand_out phi q) end) = Some t' /\ cjg s' t'.
Proof.
  intros (Ew & L & Eq) H. destruct o as [|q]; cbn [cj_step] in *.
  - injection H as <-. eexists. split; [reflexivity|]. unfold cjg. cbn. rewrite map_length, Ew, Eq. split; [reflexivity|]. split; [exact L|]. apply pick_map. exact L.
  - destruct (Nat.eqb_spec (length q) (length (cj_q s))) as [E|]; [|discriminate]. injection H as <-.
    rewrite Eq, pick_len. unfold hand_out at 1. rewrite map_length. fold nS. rewrite Nat.eqb_refl. eexists. split; [reflexivity|].
    unfold cjg. cbn. rewrite map_length, combine_length. split; [exact Ew|]. split; [lia|].
    change (hand_out phi q) with (pick 0 q). apply pick_map2; lia.
Qed.
Lemma cjg_run ops : forall s t s', cjg s t -> cj_run s ops = Some s' -> exists t', cj_run t (expand phi ops) = Some t' /\ cjg s' t'.
Proof.
  induction ops as [|o ops IH]; intros s t s' M H; [cbn in *; injection H as <-; exists t; auto|]. cbn [cj_run] in H.
  destruct (cj_step s o) as [u|] eqn:E; [|discriminate]. destruct (cjg_step _ _ _ _ M E) as (v & Ev & Mv).
  cbn [expand map cj_run]. rewrite Ev. exact (IH _ _ _ Mv H).
Qed.
Lemma cj_group w ops st : cj_run (cj_init w n1) ops = Some st ->
  exists st', cj_run (cj_init w nS) (expand phi ops) = Some st' /\ forall g i, cj_superposition g st' i = cj_superposition (grouped phi g) st i.
Proof.
  intros H. assert (M : cjg (cj_init w n1) (cj_init w nS)) by (unfold cjg; cbn [cj_init cj_w cj_q]; rewrite repeat_length, pick_repeat; auto).
  destruct (cjg_run ops _ _ _ M H) as (st' & Run' & Ew & L & Eq).
  exists st'. split; [exact Run'|]. intros g i. unfold cj_superposition. rewrite Eq, pick_len, L, Ew.
  rewrite sumn_swap. rewrite (sumn_swap n1). apply sumn_ext. intros k _.
  rewrite (sumn_ext nS _ (fun j => cj_dg g i j k * (fun c => nth k (nth c (cj_q st) []) 0) (nth j phi O))) by (intros j Hj; rewrite nth_pick by exact Hj; reflexivity).
  rewrite (group_sum (fun j => cj_dg g i j k) (fun c => nth k (nth c (cj_q st) []) 0)). apply sumn_ext. intros c _. f_equal. unfold grouped. fold nS.
  destruct k as [|k]; cbn [cj_dg]; [reflexivity|]. rewrite <- sumn_minus. apply sumn_ext. intros j _. destruct (_ =? _)%nat; lra.
Qed.

(* --- MLAA --- *)
Record mlg (s t : mlaa) : Prop := {
  mg_N0 : ml_N0 t = ml_N0 s; mg_N1 : ml_N1 t = ml_N1 s; mg_N2 : ml_N2 t = ml_N2 s; mg_N3 : ml_N3 t = ml_N3 s;
  mg_Nt : ml_Nt t = ml_Nt s; mg_nt : ml_nt t = ml_nt s;
  mg_n0 : ml_n0 t = ml_n0 s; mg_n1 : ml_n1 t = ml_n1 s; mg_n2 : ml_n2 t = ml_n2 s; mg_n3 : ml_n3 t = ml_n3 s; mg_n4 : ml_n4 t = ml_n4 s;
  mg_lb : length (ml_qb s) = n1; mg_l0 : length (ml_Q0 s) = n1;
  mg_qb : ml_qb t = pick [] (ml_qb s); mg_Q0 : ml_Q0 t = pick [] (ml_Q0 s);
  mg_Q1 : ml_Q1 t = pick 0 (ml_Q1 s); mg_Q2 : ml_Q2 t = pick 0 (ml_Q2 s); mg_Q3 : ml_Q3 t = pick 0 (ml_Q3 s); mg_Q4 : ml_Q4 t = pick 0 (ml_Q4 s) }.

Lemma mlg_next s t s' : mlg s t -> mlaa_next s = Some s' -> exists t', mlaa_next t = Some t' /\ mlg s' t'.
Proof.
  intros [E0 E1 E2 E3 ENt Ent En0 En1 En2 En3 En4 Lb L0 Eqb EQ0 EQ1 EQ2 EQ3 EQ4] H.
  unfold mlaa_next in *. rewrite Ent, ENt, E0, E1, E2, E3, EQ0, EQ1, EQ2, EQ3, EQ4, Eqb.
  destruct (ml_Nt s <? S (ml_nt s))%nat; [discriminate|]. cbv zeta in *. injection H as <-.
  eexists. split; [reflexivity|]. constructor; mlcbn; try reflexivity; try assumption.
  - rewrite map_length, combine_length. lia.
  - apply pick_map2; assumption.
  - destruct (ml_N0 s + ml_N1 s <=? _)%nat; [|reflexivity]. apply pick_map. exact Lb.
  - destruct (ml_N0 s + ml_N1 s + ml_N2 s <=? _)%nat; [|reflexivity]. apply pick_map. exact Lb.
  - destruct (ml_N0 s + ml_N1 s + ml_N2 s + ml_N3 s <=? _)%nat; [|reflexivity]. apply pick_map. exact Lb.
  - match goal with |- (if ?c then _ else _) = _ => destruct c end; [|reflexivity]. apply pick_map. exact Lb.
Qed.
Lemma mlg_set s t s' q : mlg s t -> mlaa_set s q = Some s' -> exists t', mlaa_set t (hand_out phi q) = Some t' /\ mlg s' t'.
Proof.
  intros [E0 E1 E2 E3 ENt Ent En0 En1 En2 En3 En4 Lb L0 Eqb EQ0 EQ1 EQ2 EQ3 EQ4] H.
  unfold mlaa_set in *. rewrite Ent, E0, Eqb, EQ0, pick_len. unfold hand_out at 1. rewrite map_length. fold nS. rewrite Nat.eqb_refl. cbn [negb].
  destruct (Nat.eqb_spec (length q) (length (ml_qb s))) as [Lq|]; [|discriminate]. cbn [negb] in H.
  destruct (ml_nt s =? 0)%nat; [discriminate|]. destruct (ml_N0 s =? 0)%nat; [discriminate|]. injection H as <-.
  change (hand_out phi q) with (pick 0 q).
  eexists. split; [reflexivity|]. constructor; mlcbn; try assumption; try reflexivity; try (rewrite map_length, combine_length; lia); try (apply pick_map2; lia).
Qed.
Lemma mlg_run ops : forall s t s', mlg s t -> mlaa_run s ops = Some s' -> exists t', mlaa_run t (expand phi ops) = Some t' /\ mlg s' t'.
Proof.
  induction ops as [|o ops IH]; intros s t s' M H; [cbn in *; injection H as <-; exists t; auto|]. cbn [mlaa_run] in H.
  destruct (mlaa_step s o) as [u|] eqn:E; [|discriminate].
  assert (X : exists v, mlaa_step t (match o with Next => Next | SetLoad q => SetLoad (hand_out phi q) end) = Some v /\ mlg u v) by (destruct o; [eapply mlg_next|eapply mlg_set]; eauto).
  destruct X as (v & Ev & Mv). cbn [expand map mlaa_run]. rewrite Ev. exact (IH _ _ _ Mv H).
Qed.
Lemma group_dot g i k (v v' : nat -> R) : (forall j, (j < nS)%nat -> v' j = v (nth j phi O)) ->
  sumn nS (fun j => g i j k * v' j) = sumn n1 (fun c => grouped phi g i c k * v c).
Proof.
  intros H. rewrite (sumn_ext nS _ (fun j => g i j k * v (nth j phi O))) by (intros j Hj; rewrite H by exact Hj; reflexivity).
  apply (group_sum (fun j => g i j k) v).
Qed.
Lemma mlaa_group Nt N0 N1 N2 N3 ops st : mlaa_run (mlaa_init n1 Nt N0 N1 N2 N3) ops = Some st ->
  exists st', mlaa_run (mlaa_init nS Nt N0 N1 N2 N3) (expand phi ops) = Some st' /\ forall g i, mlaa_superposition g st' i = mlaa_superposition (grouped phi g) st i.
Proof.
  intros H.
  assert (M : mlg (mlaa_init n1 Nt N0 N1 N2 N3) (mlaa_init nS Nt N0 N1 N2 N3)).
  { constructor; cbn [mlaa_init ml_N0 ml_N1 ml_N2 ml_N3 ml_Nt ml_nt ml_n0 ml_n1 ml_n2 ml_n3 ml_n4 ml_qb ml_Q0 ml_Q1 ml_Q2 ml_Q3 ml_Q4]; rewrite ?repeat_length, ?pick_repeat; reflexivity. }
  destruct (mlg_run ops _ _ _ M H) as (st' & Run' & [E0 E1 E2 E3 ENt Ent En0 En1 En2 En3 En4 Lb L0 Eqb EQ0 EQ1 EQ2 EQ3 EQ4]).
  exists st'. split; [exact Run'|]. intros g i.
  unfold mlaa_superposition. rewrite Eqb, pick_len, Lb, E0, En0, En1, En2, En3, En4, EQ0, EQ1, EQ2, EQ3, EQ4. cbv zeta.
  repeat match goal with |- _ + _ = _ + _ => apply f_equal2 end; try (apply sumn_ext; intros it _); apply group_dot; intros j Hj; rewrite ?nth_pick by exact Hj; reflexivity.
Qed.

(* --- Liu --- *)
Record lig (s t : liu) : Prop := {
  lg_N1 : li_N1 t = li_N1 s; lg_N2 : li_N2 t = li_N2 s; lg_N3 : li_N3 t = li_N3 s;
  lg_W1 : li_W1 t = li_W1 s; lg_W2 : li_W2 t = li_W2 s; lg_W3 : li_W3 t = li_W3 s; lg_Nt : li_Nt t = li_Nt s;
  lg_nt : li_nt t = li_nt s; lg_n0 : li_n0 t = li_n0 s; lg_n1 : li_n1 t = li_n1 s; lg_n2 : li_n2 t = li_n2 s; lg_n3 : li_n3 t = li_n3 s;
  lg_l0 : length (li_Q0 s) = n1; lg_l1 : length (li_Q1 s) = n1; lg_l2 : length (li_Q2 s) = n1; lg_l3 : length (li_Q3 s) = n1;
  lg_Q0 : li_Q0 t = pick [] (li_Q0 s); lg_Q1 : li_Q1 t = pick [] (li_Q1 s); lg_Q2 : li_Q2 t = pick [] (li_Q2 s); lg_Q3 : li_Q3 t = pick [] (li_Q3 s) }.

Lemma lig_next s t s' : lig s t -> liu_next s = Some s' -> exists t', liu_next t = Some t' /\ lig s' t'.
Proof.
  intros [E1 E2 E3 F1 F2 F3 ENt Ent En0 En1 En2 En3 L0 L1 L2 L3 EQ0 EQ1 EQ2 EQ3] H.
  unfold liu_next in *. rewrite Ent, ENt, E1, E2, E3, F1, F2, F3, En0, En1, En2, En3, EQ0, EQ1, EQ2, EQ3. cbv zeta in *.
  set (z0 := fun r => upd (liu_shift _ r) 0 0) in *.
  rewrite (pick_map z0 [] [] (li_Q0 s) L0) in *.
  assert (Lz : length (map z0 (li_Q0 s)) = n1) by (rewrite map_length; exact L0).
  assert (PM : forall m N k A B, length A = n1 -> length B = n1 ->
    length (map (fun p => liu_push m (fst p) (liu_oldest N k (snd p))) (combine A B)) = n1
    /\ map (fun p => liu_push m (fst p) (liu_oldest N k (snd p))) (combine (pick [] A) (pick [] B)) = pick [] (map (fun p => liu_push m (fst p) (liu_oldest N k (snd p))) (combine A B))).
  { intros. split; [rewrite map_length, combine_length; lia|]. apply pick_map2; assumption. }
  destruct (_ <? S (li_n0 s))%nat; [discriminate|]. destruct (_ <=? S (li_n0 s))%nat.
  2:{ injection H as <-. eexists. split; [reflexivity|]. constructor; licbn; auto. }
  destruct (PM (S (li_n1 s)) (li_N1 s) (S (li_n0 s)) _ _ L1 Lz) as [K1 ->].
  destruct (_ <? S (li_n1 s))%nat; [discriminate|]. destruct (_ <=? S (li_n1 s))%nat.
  2:{ injection H as <-. eexists. split; [reflexivity|]. constructor; licbn; auto. }
  destruct (PM (S (li_n2 s)) (li_N2 s) (S (li_n1 s)) _ _ L2 K1) as [K2 ->].
  destruct (_ <? S (li_n2 s))%nat; [discriminate|]. destruct (_ <=? S (li_n2 s))%nat.
  2:{ injection H as <-. eexists. split; [reflexivity|]. constructor; licbn; auto. }
  destruct (PM (S (li_n3 s)) (li_N3 s) (S (li_n2 s)) _ _ L3 K2) as [K3 ->].
  destruct (_ <? S (li_n3 s))%nat; [discriminate|].
  injection H as <-. eexists. split; [reflexivity|]. constructor; licbn; auto.
Qed.
Lemma lig_set s t s' q : lig s t -> liu_set s q = Some s' -> exists t', liu_set t (hand_out phi q) = Some t' /\ lig s' t'.
Proof.
  intros [E1 E2 E3 F1 F2 F3 ENt Ent En0 En1 En2 En3 L0 L1 L2 L3 EQ0 EQ1 EQ2 EQ3] H.
  unfold liu_set in *. rewrite EQ0, pick_len. unfold hand_out at 1. rewrite map_length. fold nS. rewrite Nat.eqb_refl. cbn [negb].
  destruct (Nat.eqb_spec (length q) (length (li_Q0 s))) as [Lq|]; [|discriminate]. cbn [negb] in H. injection H as <-.
  change (hand_out phi q) with (pick 0 q).
  eexists. split; [reflexivity|]. constructor; licbn; auto; [rewrite map_length, combine_length; lia|apply pick_map2; lia].
Qed.
Lemma lig_run ops : forall s t s', lig s t -> liu_run s ops = Some s' -> exists t', liu_run t (expand phi ops) = Some t' /\ lig s' t'.
Proof.
  induction ops as [|o ops IH]; intros s t s' M H; [cbn in *; injection H as <-; exists t; auto|]. cbn [liu_run] in H.
  destruct (liu_step s o) as [u|] eqn:E; [|discriminate].
  assert (X : exists v, liu_step t (match o with Next => Next | SetLoad q => SetLoad (hand_out phi q) end) = Some v /\ lig u v) by (destruct o; [eapply lig_next|eapply lig_set]; eauto).
  destruct X as (v & Ev & Mv). cbn [expand map liu_run]. rewrite Ev. exact (IH _ _ _ Mv H).
Qed.
Lemma qz_pick Q j k : (j < nS)%nat -> qz (pick [] Q) j k = qz Q (nth j phi O) k.
Proof. intros H. unfold qz. rewrite nth_pick by exact H. reflexivity. Qed.
Lemma liu_group Nt N1 N2 N3 W1 W2 W3 ops st : liu_run (liu_init n1 Nt N1 N2 N3 W1 W2 W3) ops = Some st ->
  exists st', liu_run (liu_init nS Nt N1 N2 N3 W1 W2 W3) (expand phi ops) = Some st' /\ forall g i, liu_superposition g st' i = liu_superposition (grouped phi g) st i.
Proof.
  intros H.
  assert (M : lig (liu_init n1 Nt N1 N2 N3 W1 W2 W3) (liu_init nS Nt N1 N2 N3 W1 W2 W3)).
  { constructor; cbn [liu_init li_N1 li_N2 li_N3 li_W1 li_W2 li_W3 li_Nt li_nt li_n0 li_n1 li_n2 li_n3 li_Q0 li_Q1 li_Q2 li_Q3]; rewrite ?repeat_length, ?pick_repeat; reflexivity. }
  destruct (lig_run ops _ _ _ M H) as (st' & Run' & [E1 E2 E3 F1 F2 F3 ENt Ent En0 En1 En2 En3 L0 L1 L2 L3 EQ0 EQ1 EQ2 EQ3]).
  exists st'. split; [exact Run'|]. intros g i.
  unfold liu_superposition. rewrite EQ0, pick_len, L0, ENt, E1, E2, E3, En0, En1, En2, En3, EQ1, EQ2, EQ3. cbv zeta.
  repeat match goal with |- _ + _ = _ + _ => apply f_equal2 end; try (apply sumn_ext; intros it _); apply group_dot; intros j Hj; rewrite ?qz_pick by exact Hj; reflexivity.
Qed.
End Group.
