(** Times in another unit: interpolations, reconstructed loads and the linear start. *)
From Verif Require Import Base LinAlg.
From Verif Require Import Bore_Model Net_Model Solve_Model.
Local Open Scope R_scope.

Section Unit.
  Variable mu : R.
  Hypothesis Mu : 0 < mu.
  Local Notation sc := (map (Rmult mu)).

  Lemma sc_lt a b : Rltb (mu * a) (mu * b) = Rltb a b.
  Proof.
    destruct (Rltb a b) eqn:E.
    - apply Rltb_true in E. apply Rltb_true. apply Rmult_lt_compat_l; auto.
    - apply Rltb_false in E. apply Rltb_false. apply Rmult_le_compat_l; lra.
  Qed.
  Lemma sc_le a b : Rleb (mu * a) (mu * b) = Rleb a b.
  Proof.
    destruct (Rleb a b) eqn:E.
    - apply Rleb_true in E. apply Rleb_true. apply Rmult_le_compat_l; lra.
    - apply Rleb_false in E. apply Rleb_false. apply Rmult_lt_compat_l; auto.
  Qed.
  Lemma sc_right l x : searchsorted_right (sc l) (mu * x) = searchsorted_right l x.
  Proof. induction l as [|a l IH]; cbn; auto. rewrite sc_le, IH. auto. Qed.
  Lemma sc_left l x : searchsorted_left (sc l) (mu * x) = searchsorted_left l x.
  Proof. induction l as [|a l IH]; cbn; auto. rewrite sc_lt, IH. auto. Qed.
  Lemma sc_nth k l : nth k (sc l) 0 = mu * nth k l 0.
  Proof. revert k. induction l as [|a l IH]; intros [|k]; cbn; auto; ring. Qed.
  Lemma sc_hd l : hd 0 (sc l) = mu * hd 0 l.
  Proof. destruct l; cbn; ring. Qed.
  Lemma sc_last l : last (sc l) 0 = mu * last l 0.
  Proof. induction l as [|a [|b l] IH]; [cbn; ring|reflexivity|]. cbn [map] in *. cbn [last] in *. exact IH. Qed.
  Lemma sc_cancel a b : mu * a / (mu * b) = a / b.
  Proof. unfold Rdiv. rewrite Rinv_mult. replace (mu * a * (/ mu * / b)) with ((mu * / mu) * (a * / b)) by ring. rewrite Rinv_r by lra. ring. Qed.

  (** interpolation at the same point, of the same values *)
  Lemma sc_interp xs x : match interp1d xs x, interp1d (sc xs) (mu * x) with
    | Some f, Some f' => (forall ys, f' ys = f ys) /\ forall ys, f' (sc ys) = mu * f ys
    | None, None => True
    | _, _ => False
    end.
  Proof.
    unfold interp1d. rewrite sc_hd, sc_last, !sc_lt, sc_left, map_length. destruct (_ || _); auto.
    set (k := Nat.min _ _). assert (E : forall a b, a / (mu * nth k xs 0 - mu * nth (k - 1) xs 0) * (mu * x - mu * nth (k - 1) xs 0) + b = a / (nth k xs 0 - nth (k - 1) xs 0) * (x - nth (k - 1) xs 0) + b).
    { intros a b. rewrite <- !Rmult_minus_distr_l. unfold Rdiv. rewrite Rinv_mult. f_equal.
      replace (a * (/ mu * / (nth k xs 0 - nth (k - 1) xs 0)) * (mu * (x - nth (k - 1) xs 0))) with ((mu * / mu) * (a * / (nth k xs 0 - nth (k - 1) xs 0) * (x - nth (k - 1) xs 0))) by ring. rewrite Rinv_r by lra. ring. }
    split; intros ys; rewrite !sc_nth.
    - apply E.
    - rewrite E. unfold Rdiv. ring.
  Qed.

  Lemma sc_diffs l p : diffs (mu * p) (sc l) = sc (diffs p l).
  Proof. revert p. induction l as [|a l IH]; intros p; cbn; auto. rewrite IH. f_equal. ring. Qed.
  Lemma sc_steps l : steps (sc l) = sc (steps l).
  Proof. destruct l; cbn; auto. rewrite sc_diffs. auto. Qed.
  Lemma sc_cumsum_from l a : cumsum_from (mu * a) (sc l) = sc (cumsum_from a l).
  Proof. revert a. induction l as [|x l IH]; intros a; cbn; auto. replace (mu * a + mu * x) with (mu * (a + x)) by ring. rewrite IH. auto. Qed.
  Lemma sc_cumsum l : cumsum (sc l) = sc (cumsum l).
  Proof. unfold cumsum. rewrite <- sc_cumsum_from. f_equal. ring. Qed.
  Lemma sc_mul q l : mul_lists q (sc l) = sc (mul_lists q l).
  Proof. unfold mul_lists. revert q. induction l as [|x l IH]; intros [|y q]; cbn; auto. f_equal; [ring|]. apply IH. Qed.
  Lemma sc_zero l : 0 :: sc l = sc (0 :: l).
  Proof. cbn. f_equal. ring. Qed.

  (** the reconstructed loads *)
  Lemma sc_reconstruct time q : reconstruct (sc time) q = reconstruct time q.
  Proof.
    unfold reconstruct. rewrite sc_steps, sc_mul, sc_cumsum, <- (map_rev (Rmult mu)), sc_cumsum, sc_last, sc_hd, !sc_zero.
    replace (0 :: sc time ++ [mu * last time 0 + mu * hd 0 time]) with (sc (0 :: time ++ [last time 0 + hd 0 time])).
    2: { cbn [map]. rewrite map_app. cbn [map]. f_equal; [ring|]. do 2 f_equal. ring. }
    set (t := 0 :: time ++ _). set (tr := 0 :: cumsum (rev (steps time))). set (f := 0 :: cumsum (mul_lists q (steps time))). rewrite sc_last.
    replace (sc f ++ [mu * last f 0]) with (sc (f ++ [last f 0])) by (rewrite map_app; auto). set (ff := f ++ [last f 0]).
    assert (A : all_some (map (fun x => match interp1d (sc t) x with Some g => Some (g (sc ff)) | None => None end) (sc tr))
                = option_map sc (all_some (map (fun x => match interp1d t x with Some g => Some (g ff) | None => None end) tr))).
    { clearbody tr t ff. induction tr as [|x tr IH]; auto. cbn [map all_some]. rewrite IH. pose proof (sc_interp t x) as K. destruct (interp1d t x) as [g|], (interp1d (sc t) (mu * x)) as [g'|]; try contradiction; [|reflexivity].
      rewrite (proj2 K). destruct (all_some (map _ tr)); reflexivity. }
    rewrite A. destruct (all_some (map _ tr)) as [v|]; [|reflexivity]. cbn [option_map]. f_equal. clear A.
    generalize (rev (steps time)). intros d. revert d. destruct v as [|a v]; auto. cbn [map tl]. revert a. induction v as [|b v IH]; intros a [|x d]; cbn; auto.
    apply f_equal2; [|exact (IH b d)]. rewrite <- Rmult_minus_distr_l. apply sc_cancel.
  Qed.

  (** the linear start *)
  Lemma sc_long time thr : p_long (sc time) (mu * thr) = p_long time thr.
  Proof. apply sc_right. Qed.
  Lemma sc_time_long time thr : time_long (sc time) (mu * thr) = sc (time_long time thr).
  Proof. unfold time_long. rewrite sc_long. destruct (Nat.ltb _ _); auto. cbn [map]. rewrite skipn_map. auto. Qed.
  Lemma sc_linearise time thr g : linearise (sc time) (mu * thr) g = linearise time thr g.
  Proof.
    unfold linearise, p_zero. rewrite sc_long. destruct (Nat.ltb 0 _); auto. apply map_ext. intros k. destruct (Nat.ltb _ _); auto. rewrite sc_nth. unfold Rdiv. rewrite Rinv_mult.
    set (A := nth (p_long time thr - 1) g 0). replace (A * (mu * nth k time 0) * (/ mu * / thr)) with ((mu * / mu) * (A * nth k time 0 * / thr)) by ring. rewrite Rinv_r by lra. ring.
  Qed.
End Unit.
