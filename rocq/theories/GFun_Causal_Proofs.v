(** Later times have no effect on the values at earlier times. *)
From Coq Require Import FunctionalExtensionality.
From Verif Require Import Base LinAlg Bore_Model Net_Model Solve_Model Solve_Spec Solve_Rec_Proofs Solve_Loop_Proofs Solve_Eq_Proofs Solve_Sol_Proofs.

Lemma left_app xs rest x k : (k < length xs)%nat -> x <= nth k xs 0 ->
  searchsorted_left (xs ++ rest) x = searchsorted_left xs x /\ (searchsorted_left xs x <= k)%nat.
Proof.
  revert k. induction xs as [|a xs IH]; intros k Hk L; simpl in *; [lia|]. destruct (Rltb a x) eqn:E.
  - apply Rltb_true in E. destruct k as [|k]; [lra|]. destruct (IH k ltac:(lia) L) as [A B]. rewrite A. split; auto. lia.
  - split; auto. lia.
Qed.

Lemma sorted_app_l a b : sorted (a ++ b) -> sorted a.
Proof. intros S i j L Hj. specialize (S i j L ltac:(rewrite app_length; lia)). rewrite !app_nth1 in S by lia. auto. Qed.

Lemma interp_prefix xs rest x k : sorted (xs ++ rest) -> (1 < length xs)%nat -> (k < length xs)%nat -> x <= nth k xs 0 ->
  match interp1d (xs ++ rest) x, interp1d xs x with
  | Some f, Some f' => forall ys ys', (forall i, (i < length xs)%nat -> nth i ys 0 = nth i ys' 0) -> f ys = f' ys'
  | None, None => True
  | _, _ => False
  end.
Proof.
  intros S Lx Hk Le. pose proof (sorted_app_l _ _ S) as S1. unfold interp1d.
  assert (Hd : hd 0 (xs ++ rest) = hd 0 xs) by (destruct xs; simpl in *; auto; lia). rewrite Hd.
  destruct (Rltb x (hd 0 xs)); cbn [orb]; auto.
  assert (xs <> []) by (destruct xs; simpl in *; [lia|discriminate]).
  assert (A1 : Rltb (last xs 0) x = false).
  { apply Rltb_false. rewrite last_nth. specialize (S1 k (length xs - 1)%nat ltac:(lia) ltac:(lia)). lra. }
  assert (A2 : Rltb (last (xs ++ rest) 0) x = false).
  { apply Rltb_false. rewrite last_nth.
    specialize (S k (length (xs ++ rest) - 1)%nat ltac:(rewrite app_length; lia) ltac:(rewrite app_length; lia)). rewrite app_nth1 in S by lia. lra. }
  rewrite A1, A2. destruct (left_app xs rest x k Hk Le) as [B1 B2]. rewrite B1.
  replace (Nat.min (length (xs ++ rest) - 1) (Nat.max 1 (searchsorted_left xs x))) with (Nat.max 1 (searchsorted_left xs x)) by (rewrite app_length; lia).
  replace (Nat.min (length xs - 1) (Nat.max 1 (searchsorted_left xs x))) with (Nat.max 1 (searchsorted_left xs x)) by lia.
  intros ys ys' E. rewrite !app_nth1 by lia. rewrite !E by lia. auto.
Qed.

Definition nonneg (l : list R) : Prop := forall t, In t l -> 0 <= t.

Section Prefix.
  Variables (n : nat) (resp : nat -> nat -> R -> R).
  Local Notation trf := (on_grid resp).

  Lemma step_prefix tl rest p Q : sorted (0 :: tl ++ rest) -> (p < length tl)%nat ->
    step_data n trf (tl ++ rest) 0 p Q = step_data n trf tl 0 p Q.
  Proof.
    intros S Hp. unfold step_data.
    assert (D : match p with O => nth 0 (tl ++ rest) 0 | Datatypes.S q => nth p (tl ++ rest) 0 - nth q (tl ++ rest) 0 end
              = match p with O => nth 0 tl 0 | Datatypes.S q => nth p tl 0 - nth q tl 0 end).
    { destruct p; rewrite !app_nth1 by lia; auto. }
    rewrite D. set (dt := match p with O => nth 0 tl 0 | Datatypes.S q => nth p tl 0 - nth q tl 0 end) in *.
    assert (Ld : dt <= nth (Datatypes.S p) (0 :: tl) 0).
    { cbn [nth]. unfold dt. destruct p as [|q]; [lra|].
      pose proof (S O (Datatypes.S q) ltac:(lia) ltac:(simpl; rewrite app_length; lia)) as B. cbn [nth] in B. rewrite app_nth1 in B by lia. lra. }
    assert (Sl : slice 0 (p + 1) (tl ++ rest) = slice 0 (p + 1) tl).
    { unfold slice. cbn [skipn]. rewrite firstn_app. replace (p + 1 - 0 - length tl)%nat with O by lia. cbn [firstn]. apply app_nil_r. }
    rewrite Sl. pose proof (interp_prefix (0 :: tl) rest dt (Datatypes.S p) S ltac:(simpl; lia) ltac:(simpl; lia) Ld) as I.
    cbn [app] in I. change ((0 :: tl) ++ rest) with (0 :: tl ++ rest) in I.
    destruct (interp1d (0 :: tl ++ rest) dt) as [f|], (interp1d (0 :: tl) dt) as [f'|]; try contradiction; auto.
    destruct (all_some _) as [Qrec|] eqn:EQ; auto. f_equal. f_equal.
    - apply functional_extensionality. intros i. apply functional_extensionality. intros j. apply I.
      intros [|k] Hk; cbn [nth]; auto. simpl in Hk. rewrite !nth_map_seq by (rewrite ?app_length; lia). unfold on_grid. rewrite app_nth1 by lia. auto.
    - apply functional_extensionality. intros i. unfold temporal_superposition. apply sumn_ext. intros j Hj. apply sumn_ext. intros k Hk.
      unfold on_grid. rewrite app_nth1; auto.
      assert (L : (length (hd [] Qrec) <= p + 1)%nat); [|lia].
      destruct n as [|n']; [lia|]. cbn [seq map all_some] in EQ.
      destruct (reconstruct _ _) as [q|] eqn:Er in EQ; [|discriminate]. destruct (all_some _) in EQ; [|discriminate]. injection EQ as <-. cbn [hd].
      unfold reconstruct in Er. destruct (all_some _) as [v|] in Er; [|discriminate]. injection Er as <-.
      rewrite map_length, combine_length, rev_length.
      assert (Ls : forall u, length (steps u) = length u).
      { intros [|x u]; auto. simpl. f_equal. revert x. induction u as [|y u IH]; intros x; simpl; auto. }
      rewrite Ls. unfold slice. rewrite firstn_length. lia.
  Qed.

  Context {O : Type}.
  Variable sol : Mx -> vec -> option (vec * O).

  Lemma grun_prefix tl rest m s : sorted (0 :: tl ++ rest) -> forall p, (p + m <= length tl)%nat ->
    grun n trf sol (tl ++ rest) (seq p m) s = grun n trf sol tl (seq p m) s.
  Proof.
    intros S. revert s. induction m as [|m IH]; intros s p Hp; cbn [seq grun]; auto.
    rewrite step_prefix by (auto; lia). destruct (step_data n trf tl 0 p (fst s ++ [zero_vec])) as [[h T]|]; auto.
    destruct (sol h T) as [[q o]|]; auto. apply IH. lia.
  Qed.

  Lemma grun_app tl a b s : grun n trf sol tl (a ++ b) s = match grun n trf sol tl a s with None => None | Some s' => grun n trf sol tl b s' end.
  Proof.
    revert s. induction a as [|p a IH]; intros s; cbn [app grun]; auto.
    destruct (step_data n trf tl 0 p (fst s ++ [zero_vec])) as [[h T]|]; auto. destruct (sol h T) as [[q o]|]; auto.
  Qed.

  Lemma run_prefix (d : O) tl rest a b : sorted (0 :: tl ++ rest) ->
    grun n trf sol (tl ++ rest) (seq 0 (length (tl ++ rest))) ([], []) = Some (a, b) ->
    grun n trf sol tl (seq 0 (length tl)) ([], []) = Some (firstn (length tl) a, firstn (length tl) b).
  Proof.
    intros S E. rewrite app_length, seq_app, grun_app, grun_prefix in E by (auto; lia). cbn [Nat.add] in E.
    destruct (grun n trf sol tl (seq 0 (length tl)) ([], [])) as [[a' b']|] eqn:E1; [|discriminate].
    destruct (grun_spec n trf sol tl (length tl) 0%nat [] [] a' b' d eq_refl eq_refl E1) as [[x [Ex Lx]] [[y [Ey Ly]] _]]. cbn [app] in Ex, Ey. subst x y.
    destruct (grun_spec n trf sol (tl ++ rest) (length rest) (length tl) a' b' a b d Lx Ly E) as [[x [Ex _]] [[y [Ey _]] _]].
    subst a b. f_equal. f_equal; rewrite firstn_app; rewrite ?Lx, ?Ly, Nat.sub_diag; cbn [firstn]; rewrite app_nil_r, firstn_all2; auto; lia.
  Qed.
End Prefix.

(** ** Linearised values *)
Lemma lin_nth time thr (os : list R) k : length os = length (time_long time thr) -> (k < length time)%nat ->
  nth k (linearise time thr (repeat 0 (p_zero time thr) ++ os)) 0
  = if Nat.ltb k (p_long time thr) then nth 0 os 0 * nth k time 0 / thr else nth (k - p_zero time thr) os 0.
Proof.
  intros L Hk. pose proof (long_length time thr) as LL. pose proof (right_le time thr) as RL. fold (p_long time thr) in RL.
  assert (G : forall j, (p_zero time thr <= j)%nat -> nth j (repeat 0 (p_zero time thr) ++ os) 0 = nth (j - p_zero time thr) os 0).
  { intros j Hj. rewrite app_nth2 by (rewrite repeat_length; auto). rewrite repeat_length. auto. }
  unfold linearise. destruct (Nat.ltb_spec 0 (p_long time thr)) as [P|P].
  - rewrite nth_map_seq by (rewrite app_length, repeat_length; lia). rewrite (G (p_zero time thr)) by lia. rewrite Nat.sub_diag.
    destruct (Nat.ltb_spec k (p_long time thr)); auto. apply G. unfold p_zero. lia.
  - destruct (Nat.ltb_spec k (p_long time thr)); [lia|]. apply G. unfold p_zero. lia.
Qed.

(** ** The times that are kept are a prefix *)
Lemma right_app l l' x : searchsorted_right (l ++ l') x
  = if Nat.ltb (searchsorted_right l x) (length l) then searchsorted_right l x else (length l + searchsorted_right l' x)%nat.
Proof.
  induction l as [|a l IH]; cbn [app searchsorted_right length]; auto. destruct (Rleb a x); auto. rewrite IH.
  change (S (searchsorted_right l x) <? S (length l))%nat with (searchsorted_right l x <? length l)%nat. destruct (Nat.ltb _ _); auto.
Qed.

Lemma long_prefix l l' thr : l <> [] ->
  exists rest, time_long (l ++ l') thr = time_long l thr ++ rest /\
  (p_long (l ++ l') thr = p_long l thr \/ (p_long l thr = length l /\ (length l <= p_long (l ++ l') thr)%nat)).
Proof.
  intros N. unfold time_long, p_long. rewrite right_app. pose proof (right_le l thr) as RL.
  assert (0 < length l)%nat by (destruct l; [contradiction|simpl; lia]).
  destruct (Nat.ltb_spec (searchsorted_right l thr) (length l)) as [L|L].
  - exists l'. split; auto. destruct (Nat.ltb 0 (searchsorted_right l thr)) eqn:E; auto.
    rewrite skipn_app. replace (searchsorted_right l thr - length l)%nat with O by lia. auto.
  - assert (Eq : searchsorted_right l thr = length l) by lia. rewrite Eq.
    exists (skipn (searchsorted_right l' thr) l'). split; [|right; lia].
    replace (Nat.ltb 0 (length l)) with true by (symmetry; apply Nat.ltb_lt; lia).
    replace (Nat.ltb 0 (length l + searchsorted_right l' thr)) with true by (symmetry; apply Nat.ltb_lt; lia).
    rewrite skipn_app, skipn_all2 by lia. replace (length l + searchsorted_right l' thr - length l)%nat with (searchsorted_right l' thr) by lia.
    rewrite (skipn_all2 l) by lia. auto.
Qed.

Lemma long_sorted time thr : sorted time -> nonneg time -> sorted (0 :: time_long time thr).
Proof.
  intros S N. assert (K : sorted (time_long time thr)) by (rewrite time_long_kept by auto; apply kept_sorted; auto).
  assert (P : nonneg (time_long time thr)).
  { unfold time_long. destruct (Nat.ltb_spec 0 (p_long time thr)) as [L|L]; auto. intros t [<-|I].
    - pose proof (right_below time thr O L) as B. pose proof (right_le time thr) as RL. fold (p_long time thr) in RL.
      assert (In (nth 0 time 0) time) by (apply nth_In; lia). specialize (N _ H). lra.
    - apply N. rewrite <- (firstn_skipn (p_long time thr) time). apply in_or_app. auto. }
  intros [|i] [|j] L Hj; cbn [nth]; try lra; try lia.
  - apply P. apply nth_In. simpl in Hj. lia.
  - apply K; simpl in *; lia.
Qed.

(** values that are prefixes before the linearisation are prefixes *)
Lemma lin_prefix l l' thr (os os' : list R) : l <> [] -> length os = length (time_long l thr) -> length os' = length (time_long (l ++ l') thr) ->
  os = firstn (length os) os' ->
  linearise l thr (repeat 0 (p_zero l thr) ++ os) = firstn (length l) (linearise (l ++ l') thr (repeat 0 (p_zero (l ++ l') thr) ++ os')).
Proof.
  intros N L L' E. pose proof (long_length l thr) as LL. pose proof (long_length (l ++ l') thr) as LL'. rewrite app_length in LL'.
  destruct (long_prefix l l' thr N) as [rest [Er Pl]].
  assert (0 < length l)%nat by (destruct l; [contradiction|simpl; lia]).
  pose proof (right_le l thr) as RL. fold (p_long l thr) in RL.
  assert (Pos : (0 < length os)%nat).
  { rewrite L. unfold time_long. destruct (Nat.ltb_spec 0 (p_long l thr)); simpl; lia. }
  apply (list_eq_nth 0).
  - rewrite firstn_length, !lin_length, !app_length, !repeat_length. lia.
  - intros k Hk. rewrite lin_length, app_length, repeat_length in Hk. rewrite nth_firstn by lia.
    rewrite lin_nth by (auto; lia). rewrite lin_nth by (rewrite ?app_length; auto; lia). rewrite app_nth1 by lia.
    assert (E0 : forall j, (j < length os)%nat -> nth j os 0 = nth j os' 0) by (intros j Hj; rewrite E, nth_firstn by lia; auto).
    destruct Pl as [Pl|[P1 P2]].
    + unfold p_zero. rewrite Pl. destruct (Nat.ltb_spec k (p_long l thr)); [rewrite (E0 O) by lia; auto|]. apply E0. unfold p_zero in *. lia.
    + destruct (Nat.ltb_spec k (p_long l thr)); [|lia]. destruct (Nat.ltb_spec k (p_long (l ++ l') thr)); [|lia]. rewrite (E0 O) by lia. auto.
Qed.

Section Causal.
  Variables (n : nat) (H : vec) (resp : nat -> nat -> R -> R).
  Local Notation trf := (on_grid resp).

  Lemma uhtr_causal l l' thr : l <> [] -> fst (solve_uhtr n H trf l thr) = firstn (length l) (fst (solve_uhtr n H trf (l ++ l') thr)).
  Proof.
    intros N. rewrite !uhtr_run. cbn [fst]. destruct (long_prefix l l' thr N) as [rest [Er _]].
    apply lin_prefix; auto; try (rewrite map_length, seq_length; auto).
    rewrite firstn_map. rewrite Er, app_length, seq_app, firstn_app, seq_length, Nat.sub_diag. cbn [firstn]. rewrite app_nil_r.
    rewrite firstn_all2 by (rewrite seq_length; lia). apply map_ext_in. intros k Hk. apply in_seq in Hk.
    unfold g_of. f_equal. apply sumn_ext. intros i Hi. f_equal. unfold row_sum. apply sumn_ext. intros j Hj. unfold on_grid. rewrite app_nth1 by lia. auto.
  Qed.

  Lemma ubwt_causal l l' thr Q g : l <> [] -> sorted (l ++ l') -> nonneg (l ++ l') -> solve_ubwt n H trf (l ++ l') thr = Some (Q, g) ->
    exists Q', solve_ubwt n H trf l thr = Some (Q', firstn (length l) g).
  Proof.
    intros N S P. rewrite !ubwt_run. destruct (long_prefix l l' thr N) as [rest [Er _]].
    pose proof (long_sorted (l ++ l') thr S P) as Sl. rewrite Er in *.
    destruct (grun n trf (ubwt_sol n H) (time_long l thr ++ rest) (seq 0 (length (time_long l thr ++ rest))) ([], [])) as [[a b]|] eqn:E; [|discriminate].
    intros Eq. injection Eq as _ <-. pose proof (run_length n trf (ubwt_sol n H) _ a b 0 E) as [La [Lb _]].
    rewrite (run_prefix n resp (ubwt_sol n H) 0 _ _ _ _ Sl E).
    assert (Lf : length (firstn (length (time_long l thr)) b) = length (time_long l thr)) by (rewrite firstn_length, Lb, app_length; lia).
    eexists. f_equal. f_equal. apply lin_prefix; auto; [rewrite Er; auto|]. rewrite Lf. auto.
  Qed.

  Variables (k_s : R) (Hi : vec).

  (** one mass flow rate: the values are those of the run *)
  Lemma mift_one F time thr : solve_mift n H trf k_s Hi [F] time thr
    = match grun n trf (mift_sol n H k_s Hi F) (time_long time thr) (seq 0 (length (time_long time thr))) ([], []) with
      | None => None
      | Some ab => solve_mift n H trf k_s Hi [F] time thr
      end.
  Proof. rewrite mift_all. unfold runs_of. cbn [map all_some]. destruct (grun _ _ _ _ _ _); auto. Qed.

  Lemma mift_one_some F time thr a b : grun n trf (mift_sol n H k_s Hi F) (time_long time thr) (seq 0 (length (time_long time thr))) ([], []) = Some (a, b) ->
    exists g Q T, solve_mift n H trf k_s Hi [F] time thr = Some (g, Q, T) /\
    forall k, (k < length time)%nat -> g O O k = nth k (linearise time thr (repeat 0 (p_zero time thr) ++ map snd b)) 0.
  Proof.
    intros E. rewrite mift_all. unfold runs_of. cbn [map all_some]. rewrite E. cbv zeta. unfold linearise_all. cbn [length Nat.eqb map].
    pose proof (run_length n trf (mift_sol n H k_s Hi F) _ a b (zero_vec, 0) E) as [La [Lb _]].
    pose proof (long_length time thr) as LL. pose proof (right_le time thr) as RL. fold (p_long time thr) in RL.
    destruct (Nat.ltb 0 (p_long time thr)) eqn:P.
    - do 3 eexists. split; [reflexivity|]. intros k Hk. cbv beta. unfold linearise. rewrite P.
      rewrite nth_map_seq by (rewrite app_length, repeat_length, map_length; lia). unfold g_runs. cbn [Nat.eqb nth map pad snd fst]. auto.
    - do 3 eexists. split; [reflexivity|]. intros k Hk. unfold linearise. rewrite P. unfold g_runs. cbn [Nat.eqb nth map pad snd fst]. auto.
  Qed.

  Lemma mift_causal F l l' thr g Q T : l <> [] -> sorted (l ++ l') -> nonneg (l ++ l') -> solve_mift n H trf k_s Hi [F] (l ++ l') thr = Some (g, Q, T) ->
    exists g' Q' T', solve_mift n H trf k_s Hi [F] l thr = Some (g', Q', T') /\ forall k, (k < length l)%nat -> g' O O k = g O O k.
  Proof.
    intros N S P Eg. destruct (long_prefix l l' thr N) as [rest [Er Pl]].
    pose proof (long_sorted (l ++ l') thr S P) as Sl. rewrite mift_one in Eg.
    destruct (grun n trf (mift_sol n H k_s Hi F) (time_long (l ++ l') thr) (seq 0 (length (time_long (l ++ l') thr))) ([], [])) as [[a b]|] eqn:E; [|discriminate].
    destruct (mift_one_some F (l ++ l') thr a b E) as [g0 [Q0 [T0 [E0 V0]]]]. rewrite E0 in Eg. injection Eg as <- <- <-.
    pose proof (run_length n trf (mift_sol n H k_s Hi F) _ a b (zero_vec, 0) E) as [La [Lb _]].
    rewrite Er in E, Sl. pose proof (run_prefix n resp (mift_sol n H k_s Hi F) (zero_vec, 0) _ _ _ _ Sl E) as E1.
    destruct (mift_one_some F l thr _ _ E1) as [g1 [Q1 [T1 [E2 V1]]]]. exists g1, Q1, T1. split; auto. intros k Hk.
    rewrite V1, V0 by (rewrite ?app_length; lia).
    assert (Lf : length (map snd (firstn (length (time_long l thr)) b)) = length (time_long l thr)) by (rewrite map_length, firstn_length, Lb, Er, app_length; lia).
    rewrite (lin_prefix l l' thr (map snd (firstn (length (time_long l thr)) b)) (map snd b)); auto.
    - rewrite nth_firstn by auto. auto.
    - rewrite map_length. auto.
    - rewrite Lf, firstn_map. auto.
  Qed.

  (** several mass flow rates, no time below the threshold *)
  Lemma mifts_causal Fs l l' thr g Q T : l <> [] -> sorted (l ++ l') -> nonneg (l ++ l') -> (forall t, In t (l ++ l') -> thr < t) ->
    solve_mift n H trf k_s Hi Fs (l ++ l') thr = Some (g, Q, T) ->
    exists g' Q' T', solve_mift n H trf k_s Hi Fs l thr = Some (g', Q', T') /\
      forall i j k, (i < length Fs)%nat -> (j < length Fs)%nat -> (k < length l)%nat -> g' i j k = g i j k.
  Proof.
    intros N S P A Eg. pose proof (no_long _ thr A) as Z. assert (A1 : forall t, In t l -> thr < t) by (intros t I; apply A, in_or_app; auto).
    pose proof (no_long _ thr A1) as Z1. pose proof (long_sorted (l ++ l') thr S P) as Sl.
    rewrite mift_all in Eg |- *. unfold time_long, p_zero, linearise_all in *. rewrite Z, Z1 in *. cbn [Nat.ltb Nat.leb] in *.
    destruct (runs_of n H trf k_s Hi Fs (l ++ l')) as [rs|] eqn:E; [|discriminate]. injection Eg as <- _ _.
    assert (K : runs_of n H trf k_s Hi Fs l = Some (map (fun ab => (firstn (length l) (fst ab), firstn (length l) (snd ab))) rs)).
    { unfold runs_of in *. revert rs E. induction Fs as [|F Fs IH]; intros rs E; cbn [map all_some] in *; [injection E as <-; auto|].
      destruct (grun n trf (mift_sol n H k_s Hi F) (l ++ l') (seq 0 (length (l ++ l'))) ([], [])) as [[a b]|] eqn:Er; [|discriminate].
      destruct (all_some _) as [rs'|]; [|discriminate]. injection E as <-. rewrite (IH rs' eq_refl).
      rewrite (run_prefix n resp (mift_sol n H k_s Hi F) (zero_vec, 0) _ _ _ _ Sl Er). auto. }
    rewrite K. do 3 eexists. split; [reflexivity|]. intros i j k Hi0 Hj Hk. unfold g_runs.
    destruct (runs_nth n H trf k_s Hi Fs _ rs j E Hj) as [Lr Rj]. destruct (nth j rs ([], [])) as [a b] eqn:Ej.
    pose proof (run_length n trf (mift_sol n H k_s Hi (nth j Fs flow0)) _ a b (zero_vec, 0) Rj) as [La [Lb _]]. rewrite app_length in Lb.
    rewrite !pad_nth by (rewrite ?map_length; lia). rewrite (nth_map _ _ j ([], []) ([], [])) by lia. rewrite Ej. cbn [pad fst snd].
    unfold p_zero. rewrite Z, Z1. cbn [Nat.sub repeat app]. rewrite <- !firstn_map. rewrite !nth_firstn by auto. auto.
  Qed.
End Causal.
