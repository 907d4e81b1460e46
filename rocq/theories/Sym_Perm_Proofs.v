(** Systems of equations whose sources are permuted, and whose lengths are multiplied by
    the same number. *)
From Coq Require Import Permutation.
From Verif Require Import Base LinAlg LinInv.
From Verif Require Import Bore_Model Net_Model Solve_Model Solve_Spec Solve_Loop_Proofs Solve_Eq_Proofs Solve_Sol_Proofs Solve_Extra_Proofs Sym_Time_Proofs.
Local Open Scope R_scope.

Lemma Rsum_permutation l l' : Permutation l l' -> Rsum l = Rsum l'.
Proof. induction 1; cbn [Rsum fold_right] in *; unfold Rsum in *; cbn [fold_right]; lra. Qed.

Section Perm.
  Variables (n : nat) (sg : list nat).
  Hypothesis Pm : Permutation sg (seq 0 n).
  Definition pi (i : nat) : nat := nth i sg 0%nat.

  Lemma sg_length : length sg = n. Proof. rewrite (Permutation_length Pm). apply seq_length. Qed.
  Lemma pi_lt i : (i < n)%nat -> (pi i < n)%nat.
  Proof.
    intros Hi. assert (K : In (pi i) (seq 0 n)). { apply (Permutation_in _ Pm). apply nth_In. rewrite sg_length. auto. } apply in_seq in K. lia.
  Qed.
  Lemma pi_onto k : (k < n)%nat -> exists i, (i < n)%nat /\ pi i = k.
  Proof.
    intros Hk. assert (K : In k sg). { apply (Permutation_in _ (Permutation_sym Pm)). apply in_seq. lia. }
    destruct (In_nth sg k 0%nat K) as [i [Hi E]]. exists i. rewrite sg_length in Hi. auto.
  Qed.
  Lemma pi_inj i j : (i < n)%nat -> (j < n)%nat -> pi i = pi j -> i = j.
  Proof.
    intros Hi Hj E. assert (N : NoDup sg). { apply (Permutation_NoDup (Permutation_sym Pm)). apply seq_NoDup. }
    apply (proj1 (NoDup_nth sg 0%nat) N); auto; rewrite sg_length; auto.
  Qed.
  Lemma pi_sum f : sumn n (fun i => f (pi i)) = sumn n f.
  Proof.
    rewrite <- (Rsum_map_seq f n), <- (Rsum_permutation _ _ (Permutation_map f Pm)), <- (Rsum_map_seq (fun i => f (pi i)) n). f_equal.
    apply (list_eq_nth 0). { rewrite !map_length, seq_length. symmetry. apply sg_length. }
    intros i Hi. rewrite map_length, seq_length in Hi. rewrite nth_map_seq by auto. rewrite (nth_map f sg i 0%nat 0); auto. rewrite sg_length. auto.
  Qed.

  (** the inverse *)
  Definition rho (k : nat) : nat := match find (fun i => Nat.eqb (pi i) k) (seq 0 n) with Some i => i | None => 0%nat end.
  Lemma rho_spec k : (k < n)%nat -> (rho k < n)%nat /\ pi (rho k) = k.
  Proof.
    intros Hk. destruct (pi_onto k Hk) as [i [Hi E]]. unfold rho. destruct (find _ _) as [j|] eqn:F.
    - apply find_some in F as [F1 F2]. apply in_seq in F1. apply Nat.eqb_eq in F2. split; auto. lia.
    - exfalso. assert (G : Nat.eqb (pi i) k = false) by (apply (find_none _ _ F); apply in_seq; lia). rewrite E, Nat.eqb_refl in G. discriminate.
  Qed.
  Lemma rho_pi i : (i < n)%nat -> rho (pi i) = i.
  Proof. intros Hi. destruct (rho_spec (pi i) (pi_lt i Hi)) as [R1 R2]. apply pi_inj; auto. Qed.

  Variables (H H' : vec) (lam : R).
  Hypothesis Lp : 0 < lam.
  Hypothesis EH : forall i, (i < n)%nat -> H' i = lam * H (pi i).

  Lemma perm_total : H_total n H' = lam * H_total n H.
  Proof.
    unfold H_total. rewrite <- sumn_scal. rewrite <- (pi_sum (fun i => lam * H i)). apply sumn_ext. intros i Hi. apply EH. auto.
  Qed.

  Lemma ubwt_rows (G : vec) h x b : (forall i, (i < n + 1)%nat -> sumn (n + 1) (fun j => ubwt_A n G h i j * x j) = b i) <->
    (forall i, (i < n)%nat -> sumn n (fun j => h i j * x j) - x n = b i) /\ sumn n (fun j => G j * x j) = b n.
  Proof.
    assert (Ei : forall i, (i < n)%nat -> sumn (n + 1) (fun j => ubwt_A n G h i j * x j) = sumn n (fun j => h i j * x j) - x n).
    { intros i Hi. rewrite Nat.add_1_r. cbn [sumn]. unfold ubwt_A. destruct (Nat.ltb_spec i n) as [_|]; [|lia]. destruct (Nat.ltb_spec n n) as [|_]; [lia|].
      rewrite (sumn_ext n _ (fun j => h i j * x j)). { ring. } intros j Hj. destruct (Nat.ltb_spec j n); [auto|lia]. }
    assert (En : sumn (n + 1) (fun j => ubwt_A n G h n j * x j) = sumn n (fun j => G j * x j)).
    { rewrite Nat.add_1_r. cbn [sumn]. unfold ubwt_A. destruct (Nat.ltb_spec n n) as [|_]; [lia|].
      rewrite (sumn_ext n _ (fun j => G j * x j)). { ring. } intros j Hj. destruct (Nat.ltb_spec j n); [auto|lia]. }
    split.
    - intros K. split. { intros i Hi. rewrite <- Ei by auto. apply K. lia. } rewrite <- En. apply K. lia.
    - intros [K1 K2] i Hi. destruct (Nat.lt_ge_cases i n) as [L|L]. { rewrite Ei; auto. } replace i with n by lia. rewrite En. auto.
  Qed.

  (** one step: the solution of the permuted system *)
  Lemma perm_sol h h' T T' q g : (forall i j, (i < n)%nat -> (j < n)%nat -> h' i j = h (pi i) (pi j)) -> (forall i, (i < n)%nat -> T' i = T (pi i)) ->
    ubwt_sol n H h T = Some (q, g) -> exists q', ubwt_sol n H' h' T' = Some (q', g) /\ forall i, (i < n)%nat -> q' i = q (pi i).
  Proof.
    intros Eh ET. unfold ubwt_sol. destruct (lin_solve (n + 1) (ubwt_A n H h) (ubwt_B n H T)) as [X|] eqn:EX; [|discriminate]. intros E. injection E as <- <-.
    pose proof (solve_nonsingular _ _ _ _ EX) as NS. pose proof (lin_solve_sound _ _ _ _ EX) as SX. apply ubwt_rows in SX as [S1 S2].
    assert (NS' : nonsingular (n + 1) (ubwt_A n H' h')).
    { intros x Kx. apply (ubwt_rows H' h' x (fun _ => 0)) in Kx as [K1 K2].
      set (y := fun k => if Nat.ltb k n then x (rho k) else x k).
      assert (Yp : forall j, (j < n)%nat -> y (pi j) = x j). { intros j Hj. unfold y. destruct (Nat.ltb_spec (pi j) n) as [_|L]; [|pose proof (pi_lt j Hj); lia]. rewrite rho_pi; auto. }
      assert (Yn : y n = x n). { unfold y. destruct (Nat.ltb_spec n n); [lia|auto]. }
      assert (Z : forall i, (i < n + 1)%nat -> y i = 0).
      { apply NS. apply (ubwt_rows H h y (fun _ => 0)). split.
        - intros k Hk. destruct (rho_spec k Hk) as [R1 R2]. rewrite <- R2. rewrite <- (pi_sum (fun j => h (pi (rho k)) j * y j)), Yn. rewrite <- (K1 (rho k) R1). f_equal.
          apply sumn_ext. intros j Hj. rewrite Yp by auto. rewrite Eh by auto. auto.
        - rewrite <- (pi_sum (fun j => H j * y j)). apply Rmult_eq_reg_l with lam; [|lra]. rewrite Rmult_0_r, <- K2, <- sumn_scal. apply sumn_ext. intros j Hj. rewrite Yp by auto. rewrite EH by auto. ring. }
      intros i Hi. destruct (Nat.lt_ge_cases i n) as [L|L]. { rewrite <- Yp by auto. apply Z. pose proof (pi_lt i L). lia. } replace i with n by lia. rewrite <- Yn. apply Z. lia. }
    destruct (lin_solve_some (n + 1) (ubwt_A n H' h') (ubwt_B n H' T') NS') as [X' EX']. rewrite EX'.
    pose proof (lin_solve_sound _ _ _ _ EX') as SX'.
    set (Y := fun k => if Nat.ltb k n then X (pi k) else X k).
    assert (U : forall i, (i < n + 1)%nat -> X' i = Y i).
    { apply (solution_unique (n + 1) (ubwt_A n H' h') (ubwt_B n H' T')); auto. apply ubwt_rows.
      assert (Yn : Y n = X n). { unfold Y. destruct (Nat.ltb_spec n n); [lia|auto]. }
      assert (Yi : forall j, (j < n)%nat -> Y j = X (pi j)). { intros j Hj. unfold Y. destruct (Nat.ltb_spec j n); [auto|lia]. }
      split.
      - intros i Hi. rewrite Yn. unfold ubwt_B. destruct (Nat.ltb_spec i n) as [_|]; [|lia]. rewrite ET by auto.
        pose proof (S1 (pi i) (pi_lt i Hi)) as Q. unfold ubwt_B in Q. destruct (Nat.ltb_spec (pi i) n) as [_|L]; [|pose proof (pi_lt i Hi); lia]. rewrite <- Q. f_equal.
        rewrite <- (pi_sum (fun j => h (pi i) j * X j)). apply sumn_ext. intros j Hj. rewrite Yi by auto. rewrite Eh by auto. auto.
      - unfold ubwt_B. destruct (Nat.ltb_spec n n) as [|_]; [lia|]. rewrite perm_total. unfold ubwt_B in S2. destruct (Nat.ltb_spec n n) as [|_]; [lia|]. rewrite <- S2, <- sumn_scal.
        rewrite <- (pi_sum (fun j => lam * (H j * X j))). apply sumn_ext. intros j Hj. rewrite Yi by auto. rewrite EH by auto. ring. }
    exists (fun i => if Nat.ltb i n then X' i else 0). split.
    - f_equal. f_equal. rewrite U by lia. unfold Y. destruct (Nat.ltb_spec n n); [lia|auto].
    - intros i Hi. cbv beta. destruct (Nat.ltb_spec i n) as [_|]; [|lia]. rewrite U by lia. unfold Y. destruct (Nat.ltb_spec i n) as [_|]; [|lia].
      destruct (Nat.ltb_spec (pi i) n) as [_|L]; auto. pose proof (pi_lt i Hi). lia.
  Qed.

  Variables (trf trf' : list R -> nat -> nat -> nat -> R).
  Variables (mu : R) (tg : list R).
  Hypothesis Mu : 0 < mu.
  Local Notation tg' := (map (Rmult mu) tg).
  Hypothesis ET : forall i j k, (i < n)%nat -> (j < n)%nat -> (k < length tg)%nat -> trf' tg' i j k = trf tg (pi i) (pi j) k.

  (** the history of the sources *)
  Definition rel_loads (Q Q' : list vec) : Prop := Forall2 (fun v v' : vec => forall i, (i < n)%nat -> v' i = v (pi i)) Q Q'.

  Lemma reconstruct_length t q r q' r' : reconstruct t q = Some r -> reconstruct t q' = Some r' -> length r = length r'.
  Proof.
    unfold reconstruct. destruct (all_some _) as [v|] eqn:E; [|discriminate]. intros K. injection K as <-.
    destruct (all_some (map (fun x : R => match interp1d _ x with Some g => Some (g ((0 :: cumsum (mul_lists q' _)) ++ _)) | None => None end) _)) as [v'|] eqn:E'; [|discriminate]. intros K. injection K as <-. rewrite !map_length, !combine_length.
    apply (all_some_nth _ _ 0) in E as [E _]. apply (all_some_nth _ _ 0) in E' as [E' _]. rewrite map_length in E, E'. replace (length (tl v)) with (length (tl v')) by (destruct v, v'; cbn [length tl] in *; lia). rewrite E, E'. auto.
  Qed.

  Lemma reconstruct_short t q r : reconstruct t q = Some r -> (length r <= length t)%nat.
  Proof.
    unfold reconstruct. destruct (all_some _) as [v|] eqn:E; [|discriminate]. intros K. injection K as <-. rewrite map_length, combine_length, rev_length.
    replace (length (steps t)) with (length t). { lia. } clear E. destruct t as [|x t]; auto. cbn [steps length]. f_equal. generalize x. induction t as [|y t IH]; intros z; cbn; auto.
  Qed.

  Lemma rel_columns Q Q' i : rel_loads Q Q' -> (i < n)%nat -> map (fun v : nat -> R => v i) Q' = map (fun v : nat -> R => v (pi i)) Q.
  Proof. intros Rl Hi. induction Rl as [|v v' Q Q' E Rl IH]; cbn; auto. rewrite IH, E; auto. Qed.

  Lemma all_some_intro {A} (l : list (option A)) : (forall x, In x l -> x <> None) -> exists r, all_some l = Some r.
  Proof.
    induction l as [|[x|] l IH]; intros K; cbn.
    - eauto.
    - destruct IH as [r ->]; [intros; apply K; cbn; auto|]. eauto.
    - exfalso. apply (K None); cbn; auto.
  Qed.

  Lemma rel_slice a b Q Q' : rel_loads Q Q' -> rel_loads (slice a b Q) (slice a b Q').
  Proof.
    unfold slice. intros Rl. revert a. assert (F : forall a l l', rel_loads l l' -> rel_loads (skipn a l) (skipn a l')).
    { induction a; intros l l' K; cbn; auto. destruct K; [constructor|]. apply IHa. auto. }
    assert (G : forall a l l', rel_loads l l' -> rel_loads (firstn a l) (firstn a l')).
    { induction a; intros l l' K; cbn; [constructor|]. destruct K; [constructor|]. constructor; auto. apply IHa. auto. }
    intros a. auto.
  Qed.

  Lemma perm_step p0 p Q Q' h T : rel_loads Q Q' -> step_data n trf tg p0 p Q = Some (h, T) ->
    exists h' T', step_data n trf' tg' p0 p Q' = Some (h', T') /\ (forall i j, (i < n)%nat -> (j < n)%nat -> h' i j = h (pi i) (pi j)) /\ (forall i, (i < n)%nat -> T' i = T (pi i)).
  Proof.
    intros Rl. unfold step_data. set (dt := match p with O => nth 0 tg 0 | S q => nth p tg 0 - nth q tg 0 end).
    assert (Edt : match p with O => nth 0 tg' 0 | S q => nth p tg' 0 - nth q tg' 0 end = mu * dt) by (unfold dt; destruct p; rewrite !sc_nth; ring). rewrite Edt.
    rewrite (sc_zero mu). pose proof (sc_interp mu Mu (0 :: tg) dt) as KI.
    destruct (interp1d (0 :: tg) dt) as [at_dt|], (interp1d (map (Rmult mu) (0 :: tg)) (mu * dt)) as [at_dt'|]; try contradiction; [|discriminate]. destruct KI as [KI _].
    pose proof (rel_slice p0 (p + p0 + 1) _ _ Rl) as Rs. set (S0 := slice p0 (p + p0 + 1) Q) in *. set (S1 := slice p0 (p + p0 + 1) Q') in *. set (t := slice 0 (p + 1) tg).
    assert (Et : slice 0 (p + 1) tg' = map (Rmult mu) t) by (unfold t, slice; rewrite skipn_map, firstn_map; auto). rewrite Et.
    assert (Lt : (length t <= length tg)%nat) by (unfold t, slice; rewrite firstn_length, skipn_length; lia).
    destruct (all_some (map _ (seq 0 n))) as [Qr|] eqn:EQ; [|discriminate]. intros K. injection K as <- <-.
    pose proof (all_some_nth _ _ [] EQ) as [LQ NQ]. rewrite map_length, seq_length in LQ, NQ.
    assert (V : forall i, (i < n)%nat -> reconstruct t (map (fun v : nat -> R => v i) S0) = Some (nth i Qr [])). { intros i Hi. rewrite <- NQ by auto. rewrite nth_map_seq by auto. auto. }
    assert (V1 : forall i, (i < n)%nat -> reconstruct (map (Rmult mu) t) (map (fun v : nat -> R => v i) S1) = Some (nth (pi i) Qr [])).
    { intros i Hi. rewrite (sc_reconstruct mu Mu), (rel_columns _ _ i Rs) by auto. apply V. apply pi_lt. auto. }
    destruct (all_some_intro (map (fun i => reconstruct (map (Rmult mu) t) (map (fun v : nat -> R => v i) S1)) (seq 0 n))) as [Qr' EQ'].
    { intros x Hx. apply in_map_iff in Hx as [i [<- Hi]]. apply in_seq in Hi. rewrite V1 by lia. discriminate. }
    rewrite EQ'. pose proof (all_some_nth _ _ [] EQ') as [LQ' NQ']. rewrite map_length, seq_length in LQ', NQ'.
    assert (V' : forall i, (i < n)%nat -> nth i Qr' [] = nth (pi i) Qr []).
    { intros i Hi. specialize (NQ' i Hi). rewrite nth_map_seq in NQ' by auto. rewrite V1 in NQ' by auto. injection NQ' as ->. auto. }
    eexists. eexists. split; [reflexivity|]. split.
    - intros i j Hi Hj. cbv beta. rewrite KI, map_length. f_equal. f_equal. apply map_ext_in. intros k Hk. apply in_seq in Hk. apply ET; auto. lia.
    - intros i Hi. unfold temporal_superposition. assert (Hn : (0 < n)%nat) by lia.
      assert (H0 : hd [] Qr = nth 0 Qr []) by (destruct Qr; auto).
      assert (L : length (hd [] Qr') = length (hd [] Qr)).
      { replace (hd [] Qr') with (nth 0 Qr' []) by (destruct Qr'; auto). rewrite H0.
        rewrite V' by auto. apply (reconstruct_length t _ _ _ _ (V _ (pi_lt 0 Hn)) (V _ Hn)). }
      assert (L2 : (length (hd [] Qr) <= length tg)%nat) by (rewrite H0; pose proof (reconstruct_short _ _ _ (V _ Hn)); lia).
      rewrite L. rewrite <- (pi_sum (fun j => sumn (length (hd [] Qr)) (fun k => trf tg (pi i) j k * nth k (rev (steps (nth j Qr []))) 0))).
      apply sumn_ext. intros j Hj. apply sumn_ext. intros k Hk. rewrite ET, V' by (auto; lia). auto.
  Qed.

  Lemma perm_grun ps : forall Q Q' (os : list R) a b, rel_loads Q Q' -> grun n trf (ubwt_sol n H) tg ps (Q, os) = Some (a, b) ->
    exists a', grun n trf' (ubwt_sol n H') tg' ps (Q', os) = Some (a', b) /\ rel_loads a a'.
  Proof.
    induction ps as [|p ps IH]; intros Q Q' os a b Rl E; cbn [grun fst snd] in *.
    - injection E as <- <-. eauto.
    - destruct (step_data n trf tg 0 p (Q ++ [zero_vec])) as [[h T]|] eqn:Es; [|discriminate].
      assert (Rz : rel_loads (Q ++ [zero_vec]) (Q' ++ [zero_vec])). { apply Forall2_app; auto. }
      destruct (perm_step 0 p _ _ h T Rz Es) as [h' [T' [Es' [Eh' ET']]]]. rewrite Es'.
      destruct (ubwt_sol n H h T) as [[q g]|] eqn:Eg; [|discriminate].
      destruct (perm_sol h h' T T' q g Eh' ET' Eg) as [q' [Eg' Eq']]. rewrite Eg'.
      apply (IH (Q ++ [q]) (Q' ++ [q']) (os ++ [g]) a b); auto. apply Forall2_app; auto.
  Qed.

End Perm.

Section Solvers.
  Variables (n : nat) (sg : list nat).
  Hypothesis Pm : Permutation sg (seq 0 n).
  Variables (H H' : vec) (lam : R).
  Hypothesis Lp : 0 < lam.
  Hypothesis EH : forall i, (i < n)%nat -> H' i = lam * H (pi sg i).
  Variables (trf trf' : list R -> nat -> nat -> nat -> R) (mu : R) (time : list R) (thr : R).
  Hypothesis Mu : 0 < mu.
  Local Notation tg := (time_long time thr).
  Hypothesis ET : forall i j k, (i < n)%nat -> (j < n)%nat -> (k < length tg)%nat -> trf' (map (Rmult mu) tg) i j k = trf tg (pi sg i) (pi sg j) k.

  Lemma perm_ubwt r : solve_ubwt n H trf time thr = Some r -> exists r', solve_ubwt n H' trf' (map (Rmult mu) time) (mu * thr) = Some r' /\ snd r' = snd r.
  Proof.
    rewrite !ubwt_run. rewrite (sc_time_long mu Mu), map_length. destruct (grun n trf _ _ _ _) as [[a b]|] eqn:E; [|discriminate]. intros K. injection K as <-.
    destruct (perm_grun n sg Pm H H' lam Lp EH trf trf' mu tg Mu ET _ [] [] [] a b (Forall2_nil _) E) as [a' [-> _]]. eexists. split; [reflexivity|]. cbn [snd]. unfold p_zero. rewrite (sc_long mu Mu). apply sc_linearise. auto.
  Qed.

  Lemma perm_uhtr : fst (solve_uhtr n H' trf' (map (Rmult mu) time) (mu * thr)) = fst (solve_uhtr n H trf time thr).
  Proof.
    rewrite !uhtr_run. cbn [fst]. rewrite (sc_linearise mu Mu), (sc_time_long mu Mu), map_length. unfold p_zero. rewrite (sc_long mu Mu). f_equal. f_equal. apply map_ext_in. intros k Hk. apply in_seq in Hk. unfold g_of.
    rewrite (perm_total n sg Pm H H' lam EH). unfold Rdiv. rewrite Rinv_mult. rewrite <- (pi_sum n sg Pm (fun i => row_sum n (trf tg) k i * H i)).
    rewrite (sumn_ext n _ (fun i => lam * (row_sum n (trf tg) k (pi sg i) * H (pi sg i)))), sumn_scal. { set (A := sumn n _). set (B := / H_total n H). replace (lam * A * (/ lam * B)) with ((lam * / lam) * (A * B)) by ring. rewrite Rinv_r by lra. ring. }
    intros i Hi. rewrite EH by auto. unfold row_sum. rewrite <- (pi_sum n sg Pm (fun j => trf tg (pi sg i) j k)). rewrite (sumn_ext n (fun j => trf' _ i j k) (fun j => trf tg (pi sg i) (pi sg j) k)); [ring|]. intros j Hj. apply ET; auto. lia.
  Qed.
End Solvers.

(** the same times *)
Section Order.
  Variables (n : nat) (sg : list nat).
  Hypothesis Pm : Permutation sg (seq 0 n).
  Variables (H H' : vec).
  Hypothesis EH : forall i, (i < n)%nat -> H' i = 1 * H (pi sg i).
  Variables (trf trf' : list R -> nat -> nat -> nat -> R) (time : list R) (thr : R).
  Hypothesis ET : forall tl i j k, (i < n)%nat -> (j < n)%nat -> trf' tl i j k = trf tl (pi sg i) (pi sg j) k.
  Lemma same_times (l : list R) : map (Rmult 1) l = l.
  Proof. rewrite <- (map_id l) at 2. apply map_ext. intros x. ring. Qed.
  Lemma order_ubwt r : solve_ubwt n H trf time thr = Some r -> exists r', solve_ubwt n H' trf' time thr = Some r' /\ snd r' = snd r.
  Proof.
    intros E. pose proof (perm_ubwt n sg Pm H H' 1 Rlt_0_1 EH trf trf' 1 time thr Rlt_0_1) as K. rewrite !same_times, Rmult_1_l in K. apply K; auto.
  Qed.
  Lemma order_uhtr : fst (solve_uhtr n H' trf' time thr) = fst (solve_uhtr n H trf time thr).
  Proof.
    pose proof (perm_uhtr n sg Pm H H' 1 Rlt_0_1 EH trf trf' 1 time thr Rlt_0_1) as K. rewrite !same_times, Rmult_1_l in K. apply K; auto.
  Qed.
End Order.
