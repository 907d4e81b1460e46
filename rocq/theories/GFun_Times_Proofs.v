(** Times of the g-function objects. *)
From Coq Require Import String.
From Verif Require Import Base LinAlg FLS_Model.
From Verif Require Import Bore_Model Net_Model Solve_Model Solve_Spec Detailed_Model Detailed_Spec Detailed_Proofs Detailed_Sol_Proofs Detailed_Props
  Sim_Model Sim_Spec Eq_Model Eq_Spec GFun_Model GFun_Spec GFun_Causal_Proofs GFun_Eval_Proofs.
Local Open Scope R_scope.

Lemma clamp_twice l : map (fun x => Rmax x 0) (map (fun x => Rmax x 0) l) = map (fun x => Rmax x 0) l.
Proof. rewrite map_map. apply map_ext. intros x. unfold Rmax. repeat destruct (Rle_dec _ _); lra. Qed.

Lemma times_clamped l : times (VArr (map (fun x => Rmax x 0) l)) = times (VArr l).
Proof. unfold times. cbn [numbers]. destruct l as [|x l]; auto. cbn [map]. change (Rmax (Rmax x 0) 0 :: map (fun x => Rmax x 0) (map (fun x => Rmax x 0) l)) with (map (fun x => Rmax x 0) (map (fun x => Rmax x 0) (x :: l))).
  change (Rmax x 0 :: map (fun x => Rmax x 0) l) with (map (fun x => Rmax x 0) (x :: l)). rewrite clamp_twice. auto. Qed.

Section Times.
  Variables (link : list R -> tree) (uw : list (R * R)).
  Local Notation G := (gfunction link uw).

  Lemma gfunction_clamped c l : G (with_time c (VArr (map (fun x => Rmax x 0) l))) = G (with_time c (VArr l)).
  Proof. rewrite !gfunction_arr. destruct (construct _) as [[q s]|]; auto. unfold evaluate. rewrite times_clamped. auto. Qed.

  Lemma same_times c v v' : (match v with VNone | VInt _ | VList _ => False | _ => True end) -> (match v' with VNone | VInt _ | VList _ => False | _ => True end) ->
    times v = times v' -> G (with_time c v) = G (with_time c v').
  Proof.
    intros A B E. unfold gfunction. assert (C : construct (with_time c v) = construct (with_time c v')).
    { unfold construct. rewrite !resolve_time. destruct (resolve c) as [q|]; auto. assert (K : check (with_time c v) q = check (with_time c v') q).
      { unfold check. cbn [with_time c_time]. destruct v, v'; try contradiction; auto. }
      rewrite K. auto. }
    rewrite C. destruct (construct (with_time c v')) as [qs|]; auto. cbn [with_time c_time].
    assert (V : forall w, (match w with VNone | VInt _ | VList _ => False | _ => True end) ->
      match w with VNone => None | _ => evaluate link uw (with_time c v) qs w end = evaluate link uw (with_time c v) qs w) by (destruct w; auto; contradiction).
    assert (W : evaluate link uw (with_time c v) qs v = evaluate link uw (with_time c v') qs v').
    { unfold evaluate. destruct qs as [q s]. rewrite E. auto. }
    destruct v, v'; auto; contradiction.
  Qed.

  Lemma gfunction_number c x : G (with_time c (VFloat x)) = G (with_time c (VArr [x])) /\ G (with_time c (VNpFloat x)) = G (with_time c (VArr [x])).
  Proof. split; apply same_times; auto. Qed.

  Lemma increasing_nth l : increasing l = true -> forall i j, (i <= j)%nat -> (j < length l)%nat -> nth i l 0 <= nth j l 0.
  Proof. intros H i j A B. apply increasing_sorted in H. apply H; auto. Qed.

  Lemma gfunction_order c l i j : (i < j)%nat -> (j < length l)%nat -> 0 < nth i l 0 -> nth j l 0 < nth i l 0 -> G (with_time c (VArr l)) = None.
  Proof.
    intros Hij Hj P D. rewrite gfunction_arr. destruct (construct _) as [[q s]|]; auto. unfold evaluate.
    assert (E : times (VArr l) = None).
    { destruct (times (VArr l)) as [t|] eqn:E; auto. destruct (times_some _ _ E) as [-> [_ [S _]]]. exfalso.
      pose proof (S i j ltac:(lia)) as Q. rewrite map_length in Q. specialize (Q Hj). rewrite !(nth_map _ _ _ 0) in Q by lia.
      unfold Rmax in Q. repeat destruct (Rle_dec _ _); lra. }
    rewrite E. auto.
  Qed.

  Lemma gfunction_integer c z : G (with_time c (VInt z)) = None.
  Proof.
    unfold gfunction, construct. rewrite resolve_time. destruct (resolve c) as [q|]; auto. unfold check. cbn [with_time c_time].
    rewrite !andb_false_r. auto.
  Qed.
End Times.

(** the mean response with its linear start *)
Lemma started_zero f thr t : 0 < thr -> t <= 0 -> started f thr t = 0.
Proof. intros T H. unfold started. rewrite (proj2 (Rleb_true t thr)) by lra. rewrite Rmax_right by lra. field. lra. Qed.
Lemma started_positive f thr t : 0 < thr -> (forall t, 0 < t -> 0 < f t) -> 0 < t -> 0 < started f thr t.
Proof.
  intros T F H. unfold started. destruct (Rleb t thr); auto. rewrite Rmax_left by lra. pose proof (F thr T). apply Rdiv_lt_0_compat; auto. apply Rmult_lt_0_compat; auto.
Qed.
Lemma started_increasing f thr t t' : 0 < thr -> (forall t, 0 < t -> 0 < f t) -> (forall t t', 0 < t -> t < t' -> f t < f t') -> 0 <= t -> t < t' -> started f thr t < started f thr t'.
Proof.
  intros T F I H L. pose proof (F thr T) as P. assert (Lin : forall a b, 0 <= a -> a < b -> f thr * Rmax a 0 / thr < f thr * Rmax b 0 / thr).
  { intros a b A B. rewrite !Rmax_left by lra. unfold Rdiv. apply Rmult_lt_compat_r; [apply Rinv_0_lt_compat; auto|]. apply Rmult_lt_compat_l; auto. }
  unfold started. destruct (Rleb t thr) eqn:E1, (Rleb t' thr) eqn:E2; try apply Rleb_true in E1; try apply Rleb_true in E2; try apply Rleb_false in E1; try apply Rleb_false in E2.
  - apply Lin; auto.
  - apply Rle_lt_trans with (f thr); [|apply I; auto]. rewrite Rmax_left by lra. apply Rmult_le_reg_r with thr; auto. replace (f thr * t / thr * thr) with (f thr * t) by (field; lra). apply Rmult_le_compat_l; lra.
  - lra.
  - apply I; lra.
Qed.
