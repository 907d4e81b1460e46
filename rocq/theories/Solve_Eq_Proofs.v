(** The equations satisfied by the results of the solver. *)
From Verif Require Import Base LinAlg Bore_Model Net_Model Solve_Model Solve_Spec Solve_Rec_Proofs Solve_Loop_Proofs.

Lemma firstn_at tl p k : (p < length tl)%nat -> (k <= S p)%nat -> at_time (firstn (S p) tl) k = at_time tl k.
Proof.
  intros Hp Hk. unfold at_time. destruct k as [|k]; auto. cbn [nth]. apply nth_firstn; lia.
Qed.

Lemma firstn_grid tl p : grid tl -> (p < length tl)%nat -> grid (firstn (S p) tl) /\ length (firstn (S p) tl) = S p.
Proof.
  intros [N G] Hp. assert (L : length (firstn (S p) tl) = S p) by (rewrite firstn_length; lia). split; auto. split.
  - intros E. rewrite E in L. discriminate.
  - intros k Hk. rewrite L in Hk. rewrite !firstn_at by lia. apply G. lia.
Qed.

Lemma grid_incr tl : grid tl -> incr (0 :: tl).
Proof. intros G i j L Hj. apply (grid_lt tl G i j L). simpl in Hj. lia. Qed.

Lemma at_Sn tl k : at_time tl (S k) = nth k tl 0. Proof. reflexivity. Qed.

Lemma step_len tl p : match p with O => nth 0 tl 0 | S q => nth p tl 0 - nth q tl 0 end = at_time tl (S p) - at_time tl p.
Proof. unfold at_time. destruct p; cbn [nth]; lra. Qed.

Lemma step_range tl p : grid tl -> (p < length tl)%nat -> 0 <= at_time tl (S p) - at_time tl p <= end_time tl.
Proof.
  intros G Hp. pose proof (grid_lt tl G p (S p) ltac:(lia) ltac:(lia)). pose proof (grid_le tl G O p ltac:(lia) ltac:(lia)).
  pose proof (grid_le tl G (S p) (length tl) ltac:(lia) ltac:(lia)). rewrite at_zero in *. unfold end_time. lra.
Qed.

Lemma nth_0map (f : nat -> R) m k : (k <= m)%nat -> nth k (0 :: map f (seq 0 m)) 0 = match k with O => 0 | S j => f j end.
Proof. intros Hk. destruct k; auto. cbn [nth]. rewrite nth_map_seq; auto. Qed.

Section Step.
  Variables (n : nat) (resp : nat -> nat -> R -> R).
  Local Notation step := (step_data n (on_grid resp)).

  Lemma step_some tl p past : grid tl -> (p < length tl)%nat -> length past = p ->
    exists h_dt T_b0, step tl 0 p (past ++ [zero_vec]) = Some (h_dt, T_b0) /\
      (forall i j, interpolated tl (resp i j) (at_time tl (S p) - at_time tl p) (h_dt i j)) /\
      (forall i, (0 < n)%nat -> T_b0 i =
        sumn n (fun j => sumn (S p) (fun k =>
          (mean_load (firstn (S p) tl) (map (fun v => v j) past ++ [0]) k
           - match k with O => 0 | S l => mean_load (firstn (S p) tl) (map (fun v => v j) past ++ [0]) l end)
          * resp i j (at_time tl (S p) - reversed_time (firstn (S p) tl) k)))).
  Proof.
    intros G Hp Lp. destruct (firstn_grid tl p G Hp) as [Gp Lt]. unfold step_data. rewrite step_len.
    pose proof (step_range tl p G Hp) as SR.
    destruct (grid_cell tl _ G SR) as [c [Hc Bc]].
    destruct (interp_cell (0 :: tl) (at_time tl (S p) - at_time tl p) (S c)) as [g [Eg Vg]].
    { apply grid_incr; auto. } { lia. } { simpl; lia. }
    { replace (S c - 1)%nat with c by lia. exact Bc. }
    rewrite Eg. replace (p + 0 + 1)%nat with (S p) by lia. replace (p + 1)%nat with (S p) by lia.
    unfold slice. cbn [skipn]. rewrite !Nat.sub_0_r. rewrite (firstn_all2 (past ++ [zero_vec])) by (rewrite app_length; simpl; lia).
    set (tp := firstn (S p) tl) in *.
    set (ld := fun j : nat => map (fun v : nat -> R => v j) past ++ [0]).
    assert (Lld : forall j, length (ld j) = length tp).
    { intros; unfold ld; rewrite app_length, map_length, Lt; cbn [length]. rewrite Nat.add_1_r. f_equal. exact Lp. }
    rewrite (all_some_map _ (fun i => map (mean_load tp (ld i)) (seq 0 (length tp)))).
    2:{ intros i _. rewrite (map_app (fun v : vec => v i) past). exact (reconstruct_mean tp (ld i) Gp (Lld i)). }
    do 2 eexists. split; [reflexivity|]. split.
    - intros i j. exists c. split; auto. split; auto. rewrite Vg. replace (S c - 1)%nat with c by lia.
      rewrite !nth_0map by lia. change (nth (S c) (0 :: tl) 0) with (at_time tl (S c)). change (nth c (0 :: tl) 0) with (at_time tl c).
      cbv zeta. unfold on_grid. change (nth c tl 0) with (at_time tl (S c)).
      pose proof (grid_lt tl G c (S c) ltac:(lia) ltac:(lia)) as GL.
      assert (N : at_time tl (S c) - at_time tl c <> 0) by lra.
      destruct c as [|c]; [|change (nth c tl 0) with (at_time tl (S c))]; field; auto.
    - intros i Hn.
      assert (E : temporal_superposition n (on_grid resp tl) (map (fun i0 => map (mean_load tp (ld i0)) (seq 0 (length tp))) (seq 0 n)) i
        = temporal_superposition n (fun i j k => resp i j (at_time tp (S k))) (map (fun i0 => map (mean_load tp (ld i0)) (seq 0 (length tp))) (seq 0 n)) i).
      { unfold temporal_superposition. apply sumn_ext. intros j Hj. apply sumn_ext. intros k Hk. f_equal. unfold on_grid.
        rewrite <- at_Sn. f_equal. unfold tp. symmetry. apply firstn_at; auto.
        destruct n as [|n']; [lia|]. cbn [seq map hd] in Hk. rewrite map_length, seq_length in Hk. lia. }
      rewrite E. rewrite superposition_time; auto.
      + apply sumn_ext. intros j Hj. rewrite Lt. apply sumn_ext. intros k Hk. rewrite nth_map_seq by auto.
        rewrite nth_map_seq by lia. f_equal.
        * f_equal. destruct k as [|k]; auto. rewrite nth_map_seq by lia. auto.
        * f_equal. f_equal. unfold end_time. rewrite Lt. apply firstn_at; auto.
      + rewrite map_length, seq_length. auto.
      + intros q Hq. apply in_map_iff in Hq. destruct Hq as [x [<- _]]. rewrite map_length, seq_length. auto.
  Qed.

  Lemma step_superposed tl p Q h_dt T_b0 i : (0 < n)%nat -> grid tl -> (p < length tl)%nat -> length Q = length tl ->
    step tl 0 p (firstn p Q ++ [zero_vec]) = Some (h_dt, T_b0) ->
    superposed n resp tl Q p i (sumn n (fun j => h_dt i j * nth p Q zero_vec j) + T_b0 i).
  Proof.
    intros Hn G Hp LQ E. destruct (step_some tl p (firstn p Q) G Hp ltac:(rewrite firstn_length; lia)) as [h [T [E2 [HI HT]]]].
    rewrite E in E2. injection E2 as <- <-. exists (fun j => h_dt i j). split.
    - intros j _. apply HI.
    - rewrite (HT i Hn). reflexivity.
  Qed.
End Step.

Section Solvers.
  Variables (n : nat) (H : vec) (trf : list R -> nat -> nat -> nat -> R).

  (** the solver in terms of the loop over the kept times *)
  Lemma ubwt_run time thr : solve_ubwt n H trf time thr
    = match grun n trf (ubwt_sol n H) (time_long time thr) (seq 0 (length (time_long time thr))) ([], []) with
      | None => None
      | Some (a, b) => Some (linearise_loads time thr (repeat zero_vec (p_zero time thr) ++ a), linearise time thr (repeat 0 (p_zero time thr) ++ b))
      end.
  Proof.
    unfold solve_ubwt. set (tl := time_long time thr).
    rewrite <- (long_length time thr). fold tl. rewrite !repeat_app.
    pose proof (ubwt_sim n H trf tl (p_zero time thr) (length tl) O (repeat zero_vec (p_zero time thr)) (repeat 0 (p_zero time thr)) [] []) as E.
    rewrite !repeat_length in E. specialize (E eq_refl eq_refl eq_refl eq_refl). cbn [app] in E. rewrite E.
    destruct (grun n trf (ubwt_sol n H) tl (seq 0 (length tl)) ([], [])) as [[a b]|]; auto.
  Qed.

  Lemma uhtr_run time thr : solve_uhtr n H trf time thr
    = (linearise time thr (repeat 0 (p_zero time thr) ++ map (g_of n H (trf (time_long time thr))) (seq 0 (length (time_long time thr)))),
       linearise_vec time thr (repeat zero_vec (p_zero time thr) ++ map (row_sum n (trf (time_long time thr))) (seq 0 (length (time_long time thr))))).
  Proof.
    unfold solve_uhtr. set (tl := time_long time thr).
    rewrite <- (long_length time thr). fold tl. rewrite !repeat_app.
    rewrite (uhtr_loop_spec n H (trf tl) (p_zero time thr) (length tl) O) by (rewrite repeat_length; lia). auto.
  Qed.

  Variables (k_s : R) (Hi : vec).

  Lemma mift_run F time thr : let tl := time_long time thr in
    mift_loop n H trf k_s Hi F tl (p_zero time thr) (seq 0 (length tl)) (repeat zero_vec (length time), repeat zero_vec (length time), repeat 0 (length time))
    = match grun n trf (mift_sol n H k_s Hi F) tl (seq 0 (length tl)) ([], []) with
      | None => None
      | Some (a, b) => Some (repeat zero_vec (p_zero time thr) ++ a, repeat zero_vec (p_zero time thr) ++ map fst b, repeat 0 (p_zero time thr) ++ map snd b)
      end.
  Proof.
    intros tl. rewrite <- (long_length time thr). fold tl. rewrite !repeat_app.
    pose proof (mift_sim n H trf k_s Hi F tl (p_zero time thr) (length tl) O (repeat zero_vec (p_zero time thr)) (repeat 0 (p_zero time thr)) [] []) as E.
    rewrite !repeat_length in E. specialize (E eq_refl eq_refl eq_refl eq_refl). cbn [app map] in E. exact E.
  Qed.

  (** sum of the last equation *)
  Lemma ubwt_sol_eq h_dt T_b0 q T : ubwt_sol n H h_dt T_b0 = Some (q, T) ->
    sumn n (fun j => H j * q j) = H_total n H /\ (forall i, (i < n)%nat -> sumn n (fun j => h_dt i j * q j) + T_b0 i = T).
  Proof.
    unfold ubwt_sol. destruct (lin_solve (n + 1) (ubwt_A n H h_dt) (ubwt_B n H T_b0)) as [X|] eqn:E; [|discriminate].
    intros EE. injection EE as <- <-. pose proof (lin_solve_sound _ _ _ _ E) as S. split.
    - specialize (S n ltac:(lia)). replace (n + 1)%nat with (Datatypes.S n) in S by lia. cbn [sumn] in S.
      unfold ubwt_A, ubwt_B in S. rewrite !Nat.ltb_irrefl in S. rewrite <- S.
      rewrite Rmult_0_l, Rplus_0_r. apply sumn_ext. intros j Hj. destruct (Nat.ltb_spec j n); [auto|lia].
    - intros i Hi0. specialize (S i ltac:(lia)). replace (n + 1)%nat with (Datatypes.S n) in S by lia. cbn [sumn] in S.
      unfold ubwt_A, ubwt_B in S. rewrite !Nat.ltb_irrefl in S. destruct (Nat.ltb_spec i n); [|lia].
      rewrite (sumn_ext n (fun j => (if (j <? n)%nat then h_dt i j else -1) * X j) (fun j => h_dt i j * (if (j <? n)%nat then X j else 0))) in S.
      + lra.
      + intros j Hj. destruct (Nat.ltb_spec j n); [auto|lia].
  Qed.

  Lemma mift_sum (a b c : vec) (X : vec) : sumn (2 * n + 1) (fun j => (if (j <? n)%nat then a j else if (j <? 2 * n)%nat then b (j - n)%nat else c j) * X j)
    = sumn n (fun j => a j * X j) + sumn n (fun j => b j * X (n + j)%nat) + c (2 * n)%nat * X (2 * n)%nat.
  Proof.
    replace (2 * n + 1)%nat with (S (2 * n)) by lia. cbn [sumn].
    destruct (Nat.ltb_spec (2 * n) n); [lia|]. rewrite Nat.ltb_irrefl. f_equal.
    replace (2 * n)%nat with (n + n)%nat at 1 by lia. rewrite sumn_split. f_equal.
    - apply sumn_ext. intros j Hj. destruct (Nat.ltb_spec j n); [auto|lia].
    - apply sumn_ext. intros j Hj. destruct (Nat.ltb_spec (n + j) n); [lia|]. destruct (Nat.ltb_spec (n + j) (2 * n)); [|lia].
      f_equal. f_equal. lia.
  Qed.

  Lemma id_sum i (x : vec) : (i < n)%nat -> sumn n (fun j => id_mx i j * x j) = x i.
  Proof.
    intros Hi0. rewrite (sumn_single n i).
    - unfold id_mx. rewrite Nat.eqb_refl. ring.
    - auto.
    - intros j Hj Ne. unfold id_mx. destruct (Nat.eqb_spec i j); [congruence|ring].
  Qed.

  Lemma mift_sol_eq F h_dt T_b0 q T g : mift_sol n H k_s Hi F h_dt T_b0 = Some (q, (T, g)) ->
    sumn n (fun j => H j * q j) = H_total n H /\
    (forall i, (i < n)%nat -> sumn n (fun j => h_dt i j * q j) + T_b0 i = T i) /\
    exists Tin, g = effective n H k_s F Tin /\
      forall i, (i < n)%nat -> q i + f_in F i / (2 * PI * k_s * Hi i) * Tin + sumn n (fun j => f_b F i j / (2 * PI * k_s * Hi i) * T j) = 0.
  Proof.
    unfold mift_sol. destruct (lin_solve (2 * n + 1) (mift_A n H k_s Hi F h_dt) (mift_B n H T_b0)) as [X|] eqn:E; [|discriminate].
    intros EE. injection EE as <- <- <-. pose proof (lin_solve_sound _ _ _ _ E) as S.
    assert (A : forall (a : vec), sumn n (fun j => a j * (if (j <? n)%nat then X j else 0)) = sumn n (fun j => a j * X j)).
    { intros a. apply sumn_ext. intros j Hj. destruct (Nat.ltb_spec j n); [auto|lia]. }
    assert (B : forall (a : vec), sumn n (fun j => a j * (if (j <? n)%nat then X (n + j)%nat else 0)) = sumn n (fun j => a j * X (n + j)%nat)).
    { intros a. apply sumn_ext. intros j Hj. destruct (Nat.ltb_spec j n); [auto|lia]. }
    split; [|split].
    - rewrite A. specialize (S (2 * n)%nat ltac:(lia)). unfold mift_A, mift_B in S.
      destruct (Nat.ltb_spec (2 * n) n); [lia|]. rewrite Nat.ltb_irrefl in S. rewrite <- S.
      rewrite (sumn_ext (2 * n + 1) _ (fun j => (if (j <? n)%nat then H j else if (j <? 2 * n)%nat then zero_vec (j - n)%nat else zero_vec j) * X j)).
      + rewrite mift_sum. unfold zero_vec. rewrite (sumn_zero n (fun j => 0 * X (n + j)%nat)) by (intros; ring). ring.
      + intros j Hj. destruct (j <? n)%nat; auto. destruct (j <? 2 * n)%nat; auto.
    - intros i Hi0. rewrite A. destruct (Nat.ltb_spec i n); [|lia]. specialize (S i ltac:(lia)). unfold mift_A, mift_B in S.
      destruct (Nat.ltb_spec i n); [|lia].
      rewrite (mift_sum (fun j => h_dt i j) (fun j => - id_mx i j) zero_vec) in S. unfold zero_vec in S.
      rewrite (sumn_ext n (fun j => - id_mx i j * X (n + j)%nat) (fun j => - (id_mx i j * X (n + j)%nat))) in S by (intros; ring).
      rewrite sumn_opp, (id_sum i (fun j => X (n + j)%nat)) in S by auto. lra.
    - exists (X (2 * n)%nat). split; auto. intros i Hi0. rewrite B. destruct (Nat.ltb_spec i n); [|lia].
      specialize (S (n + i)%nat ltac:(lia)). unfold mift_A, mift_B in S.
      destruct (Nat.ltb_spec (n + i) n); [lia|]. destruct (Nat.ltb_spec (n + i) (2 * n)); [|lia].
      replace (n + i - n)%nat with i in S by lia.
      rewrite (mift_sum (fun j => id_mx i j) (fun j => f_b F i j / (2 * PI * k_s * Hi i)) (fun _ => f_in F i / (2 * PI * k_s * Hi i))) in S.
      rewrite id_sum in S by auto. lra.
  Qed.
End Solvers.
