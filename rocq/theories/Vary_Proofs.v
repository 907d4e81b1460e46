(** Effect of errors of the thermal responses on aggregated temperatures. *)
From Verif Require Import Base LoadAgg_Model LoadAgg_Spec Agg_Spec Agg_Proofs Vary_Spec.
From Verif Require Import LoadAgg_CJ_Proofs LoadAgg_MLAA_Proofs LoadAgg_Liu_Proofs.

Lemma vary_nonneg x l : 0 <= vary x l.
Proof. revert x. induction l as [|y l IH]; intros x; cbn [vary]; [lra|]. pose proof (Rabs_pos (y - x)). specialize (IH y). lra. Qed.
Lemma vary_app x l r : vary x (l ++ r) = vary x l + vary (last l x) r.
Proof.
  revert x. induction l as [|y l IH]; intros x; [cbn; ring|].
  change ((y :: l) ++ r) with (y :: (l ++ r)). cbn [vary]. rewrite IH.
  replace (last (y :: l) x) with (last l y); [ring|].
  clear. destruct l as [|z l]; [reflexivity|]. change (last (y :: z :: l) x) with (last (z :: l) x).
  revert z. induction l as [|a l IH]; intros z; [reflexivity|]. exact (IH a).
Qed.
Lemma vary_one x l y : vary x (l ++ [y]) = vary x l + Rabs (y - last l x).
Proof. rewrite vary_app. cbn [vary]. ring. Qed.

Lemma vary_reach x l b : In b l -> Rabs (b - x) <= vary x l.
Proof.
  revert x. induction l as [|a l IH]; intros x; [intros []|]. cbn [vary]. intros [->|H].
  - pose proof (vary_nonneg b l). lra.
  - specialize (IH a H). replace (b - x) with ((b - a) + (a - x)) by ring. pose proof (Rabs_triang (b - a) (a - x)). lra.
Qed.
Lemma vary_through x l y b : In b l -> Rabs (b - x) + Rabs (y - b) <= vary x (l ++ [y]).
Proof.
  revert x. induction l as [|a l IH]; intros x; [intros []|].
  change ((a :: l) ++ [y]) with (a :: (l ++ [y])). cbn [vary]. intros [->|H].
  - assert (Q : Rabs (y - b) <= vary b (l ++ [y])) by (apply vary_reach, in_or_app; right; left; reflexivity). lra.
  - specialize (IH a H). replace (b - x) with ((b - a) + (a - x)) by ring. pose proof (Rabs_triang (b - a) (a - x)). lra.
Qed.

Definition calmer (l l' : list R) : Prop := forall x r, vary x (l ++ r) <= vary x (l' ++ r).
Lemma calmer_refl l : calmer l l.
Proof. intros x r. apply Rle_refl. Qed.
Lemma calmer_app a a' b b' : calmer a a' -> calmer b b' -> calmer (a ++ b) (a' ++ b').
Proof.
  intros H J x r. rewrite <- !app_assoc. eapply Rle_trans; [apply H|]. rewrite !(vary_app x a').
  apply Rplus_le_compat_l. apply J.
Qed.
Lemma vary_repeat x m n r : vary x (repeat m (S n) ++ r) = Rabs (m - x) + vary m r.
Proof.
  revert x. induction n as [|n IH]; intros x; [reflexivity|].
  change (repeat m (S (S n)) ++ r) with (m :: (repeat m (S n) ++ r)). cbn [vary]. rewrite IH.
  replace (m - m) with 0 by ring. rewrite Rabs_R0. ring.
Qed.
Lemma calmer_averaged l : calmer (averaged l) l.
Proof.
  intros x r. unfold averaged. destruct (length l) as [|n] eqn:El.
  { destruct l; [apply Rle_refl|discriminate]. }
  assert (Nl : l <> []) by (intros ->; discriminate). rewrite vary_repeat. destruct r as [|y r].
  - cbn [vary]. rewrite app_nil_r, Rplus_0_r.
    assert (B : x - vary x l <= mean l <= x + vary x l).
    { apply mean_in; [exact Nl|]. apply Forall_forall. intros b Hb. pose proof (vary_reach x l b Hb) as Q. revert Q. unfold Rabs. destruct (Rcase_abs (b - x)); intros; lra. }
    apply Rabs_le. lra.
  - cbn [vary]. replace (y :: r) with ([y] ++ r) by reflexivity. rewrite app_assoc, (vary_app x (l ++ [y])).
    rewrite last_last. set (V := vary x (l ++ [y])).
    assert (H : forall b, In b l -> Rabs (b - x) + Rabs (y - b) <= V) by (intros b; apply vary_through).
    assert (K : Rabs (y - x) <= V) by (unfold V; apply vary_reach, in_or_app; right; left; reflexivity).
    assert (B : (x + y - V) / 2 <= mean l <= (x + y + V) / 2).
    { apply mean_in; [exact Nl|]. apply Forall_forall. intros b Hb. specialize (H b Hb).
      revert H. unfold Rabs. destruct (Rcase_abs (b - x)), (Rcase_abs (y - b)); intros; lra. }
    assert (Q : Rabs (mean l - x) + Rabs (y - mean l) <= V).
    { revert K. unfold Rabs. destruct (Rcase_abs (mean l - x)), (Rcase_abs (y - mean l)), (Rcase_abs (y - x)); intros; lra. }
    lra.
Qed.
Lemma calmer_concat Ls : calmer (concat (map averaged Ls)) (concat Ls).
Proof. induction Ls as [|b Ls IH]; [apply calmer_refl|]. cbn [map concat]. apply calmer_app; [apply calmer_averaged|exact IH]. Qed.
Lemma calmer_swings l l' : calmer l l' -> swings l <= swings l'.
Proof. intros H. specialize (H 0 []). rewrite !app_nil_r in H. exact H. Qed.

Lemma abs_sumn n f : Rabs (sumn n f) <= sumn n (fun i => Rabs (f i)).
Proof. induction n as [|n IH]; cbn [sumn]; [rewrite Rabs_R0; lra|]. pose proof (Rabs_triang (sumn n f) (f n)). lra. Qed.

Lemma vary_sumn x l : vary x l = sumn (length l) (fun m => Rabs (nth m l 0 - match m with O => x | S p => nth p l 0 end)).
Proof.
  revert x. induction l as [|y l IH]; intros x; [reflexivity|]. cbn [length vary]. rewrite sumn_S_l. cbn [nth]. f_equal.
  rewrite IH. apply sumn_ext. intros [|m] _; reflexivity.
Qed.

Lemma superpose_error (g1 g2 : nat -> R) e h : (forall k, (k < length h)%nat -> Rabs (g1 k - g2 k) <= e) ->
  Rabs (superpose g1 h - superpose g2 h) <= e * swings h.
Proof.
  intros H. unfold superpose. rewrite <- sumn_minus. eapply Rle_trans; [apply abs_sumn|].
  unfold swings. rewrite vary_sumn, <- sumn_scal. apply sumn_le. intros m Hm.
  rewrite <- Rmult_minus_distr_r, Rabs_mult. apply Rmult_le_compat_r; [apply Rabs_pos|]. apply H. lia.
Qed.

Lemma error_sum n (a b c : nat -> R) : (forall j, (j < n)%nat -> Rabs (a j - b j) <= c j) -> Rabs (sumn n a - sumn n b) <= sumn n c.
Proof. intros H. rewrite <- sumn_minus. eapply Rle_trans; [apply abs_sumn|]. apply sumn_le. exact H. Qed.

Lemma averaged_length l : length (averaged l) = length l.
Proof. apply repeat_length. Qed.
Lemma concat_averaged_length Ls : length (concat (map averaged Ls)) = length (concat Ls).
Proof. induction Ls as [|b Ls IH]; [reflexivity|]. cbn [map concat]. rewrite !app_length, averaged_length, IH. reflexivity. Qed.

Lemma error_history (g1 g2 : nat -> R) e h l : 0 <= e -> length l = length h -> calmer l h ->
  (forall k, (k < length h)%nat -> Rabs (g1 k - g2 k) <= e) ->
  Rabs (superpose g1 l - superpose g2 l) <= e * swings h.
Proof.
  intros He E Hc H. eapply Rle_trans; [apply (superpose_error g1 g2 e); rewrite E; exact H|].
  apply Rmult_le_compat_l; [exact He|]. apply calmer_swings. exact Hc.
Qed.

Lemma error_pos (e : R) (f : nat -> R) : Rabs (f 0%nat) <= e -> 0 <= e.
Proof. pose proof (Rabs_pos (f 0%nat)). lra. Qed.

Lemma mlaa_error nS Nt N0 N1 N2 N3 ops st (g1 g2 : nat -> nat -> nat -> R) (e : nat -> R) i :
  (1 <= N0)%nat -> (1 <= N1)%nat -> (1 <= N2)%nat -> (1 <= N3)%nat ->
  mlaa_run (mlaa_init nS Nt N0 N1 N2 N3) ops = Some st -> starts_with_step ops -> (1 <= steps ops)%nat ->
  (forall j k, (j < nS)%nat -> (k < steps ops)%nat -> Rabs (g1 i j k - g2 i j k) <= e j) ->
  Rabs (mlaa_superposition g1 st i - mlaa_superposition g2 st i) <= sumn nS (fun j => e j * swings (history j ops)).
Proof.
  intros H0 H1 H2 H3 Hr Hs Hn He.
  destruct (mlaa_lemma nS Nt N0 N1 N2 N3 ops st H0 H1 H2 H3 Hr Hn) as [B4 [B3 [B2 [B1 [R0 [A S]]]]]]. rewrite !S.
  apply error_sum. intros j Hj. destruct (A j Hj) as [E _].
  pose proof (history_length j ops Hs) as L.
  apply error_history.
  - apply (error_pos _ (fun k => g1 i j k - g2 i j k)). apply He; lia.
  - rewrite E, !app_length, !averaged_length. reflexivity.
  - rewrite E. repeat (apply calmer_app; [apply calmer_averaged|]). apply calmer_refl.
  - rewrite L. intros k Hk. apply He; assumption.
Qed.

Lemma liu_error nS Nt N1 N2 N3 W1 W2 W3 ops st (g1 g2 : nat -> nat -> nat -> R) (e : nat -> R) i :
  (1 <= N1)%nat -> (1 <= N2)%nat -> (1 <= N3)%nat -> (1 <= W1)%nat -> (1 <= W2)%nat -> (1 <= W3)%nat ->
  liu_run (liu_init nS Nt N1 N2 N3 W1 W2 W3) ops = Some st -> starts_with_step ops -> (1 <= steps ops)%nat ->
  (forall j k, (j < nS)%nat -> (k < steps ops)%nat -> Rabs (g1 i j k - g2 i j k) <= e j) ->
  Rabs (liu_superposition g1 st i - liu_superposition g2 st i) <= sumn nS (fun j => e j * swings (history j ops)).
Proof.
  intros H1 H2 H3 X1 X2 X3 Hr Hs Hn He.
  destruct (liu_lemma nS Nt N1 N2 N3 W1 W2 W3 ops st H1 H2 H3 X1 X2 X3 Hr Hs Hn) as [Ls [Ms [Ss [R0 [A S]]]]]. rewrite !S.
  apply error_sum. intros j Hj. destruct (A j Hj) as [E _].
  pose proof (history_length j ops Hs) as L.
  apply error_history.
  - apply (error_pos _ (fun k => g1 i j k - g2 i j k)). apply He; lia.
  - rewrite E, !app_length, !concat_averaged_length. reflexivity.
  - rewrite E. repeat (apply calmer_app; [apply calmer_concat|]). apply calmer_refl.
  - rewrite L. intros k Hk. apply He; assumption.
Qed.

(** ** ClaessonJaved: the shift of the loads does not add to the variation. *)
Definition drop (n : nat) (f : nat -> R) : R := sumn n (fun i => Rabs (f i - f (S i))).

Lemma interlace n (f f' : nat -> R) :
  (forall m, (m < n)%nat -> exists a, 0 <= a <= 1 /\ f' (S m) = (1 - a) * f (S m) + a * f m) ->
  drop n f' + Rabs (f' n - f n) <= Rabs (f' 0%nat - f 0%nat) + drop n f.
Proof.
  unfold drop. induction n as [|n IH]; intros H; cbn [sumn]; [lra|].
  assert (Q := IH (fun m Hm => H m (Nat.lt_trans _ _ _ Hm (Nat.lt_succ_diag_r n)))).
  destruct (H n (Nat.lt_succ_diag_r n)) as [a [Ha E]].
  assert (P : Rabs (f n - f' (S n)) + Rabs (f' (S n) - f (S n)) = Rabs (f n - f (S n))).
  { rewrite E. replace (f n - ((1 - a) * f (S n) + a * f n)) with ((1 - a) * (f n - f (S n))) by ring.
    replace ((1 - a) * f (S n) + a * f n - f (S n)) with (a * (f n - f (S n))) by ring.
    rewrite !Rabs_mult, (Rabs_pos_eq a), (Rabs_pos_eq (1 - a)) by lra. ring. }
  pose proof (Rabs_triang (f' n - f n) (f n - f' (S n))) as T.
  replace (f' n - f n + (f n - f' (S n))) with (f' n - f' (S n)) in T by ring. lra.
Qed.

Lemma removelast_one (h : list R) v : removelast (h ++ [v]) = h.
Proof. rewrite removelast_app by discriminate. cbn. apply app_nil_r. Qed.
Lemma vary_relast h : vary 0 (removelast h ++ [last h 0]) = vary 0 h.
Proof.
  destruct h as [|x h]; [cbn; rewrite Rminus_0_r, Rabs_R0; ring|].
  rewrite <- app_removelast_last by discriminate. reflexivity.
Qed.

Definition at_ (row : list R) (k : nat) : R := nth k row 0.

Lemma row_vary w s ops : forall row h, (0 < length w)%nat -> nth 0 w 0 = 1 -> (forall k, (k < length w)%nat -> 1 <= nth k w 0) ->
  length row = length w -> nth 0 row 0 = last h 0 ->
  (forall v, drop (length w) (at_ (upd row 0 v)) <= vary 0 (removelast h ++ [v])) ->
  drop (length w) (at_ (row_run w s ops row)) <= vary 0 (fold_left (hist_step s) ops h).
Proof.
  induction ops as [|o ops IH]; intros row h Hw H1 Hge Hl Hh Hi.
  - cbn [row_run fold_left]. specialize (Hi (last h 0)). rewrite vary_relast in Hi. rewrite <- Hh in Hi.
    replace (upd row 0 (nth 0 row 0)) with row in Hi; [exact Hi|]. destruct row; reflexivity.
  - cbn [fold_left]. unfold row_run. cbn [fold_left]. apply IH; try assumption.
    + apply row_step_length. exact Hl.
    + apply row_step_head; assumption.
    + intros v. destruct o as [|q]; cbn [row_step hist_step].
      * rewrite removelast_one, vary_one, Rplus_comm.
        assert (B : drop (length w) (at_ row) <= vary 0 h).
        { specialize (Hi (last h 0)). rewrite vary_relast in Hi. rewrite <- Hh in Hi.
          replace (upd row 0 (nth 0 row 0)) with row in Hi; [exact Hi|]. destruct row; reflexivity. }
        pose proof (interlace (length w) (at_ row) (at_ (upd (cj_row_next w row) 0 v))) as T.
        assert (Ln : length (cj_row_next w row) = length w) by apply row_next_length.
        assert (E0 : at_ (upd (cj_row_next w row) 0 v) 0 = v) by (unfold at_; apply nth_upd_eq; lia).
        rewrite E0 in T. assert (E1 : at_ row 0 = last h 0) by exact Hh. rewrite E1 in T.
        match type of T with (?P -> _) => assert (X : P) end.
        { intros m Hm. unfold at_. rewrite nth_upd_neq by discriminate.
          destruct (Nat.eq_dec (S m) (length w)) as [En|Nn].
          - exists 0. split; [lra|]. rewrite !nth_overflow with (n := S m) by lia. ring.
          - exists (1 / nth (S m) w 0). assert (G := Hge (S m) ltac:(lia)). split.
            + split; [apply Rlt_le, Rdiv_lt_0_compat; lra|]. apply (Rmult_le_reg_r (nth (S m) w 0)); [lra|].
              unfold Rdiv. rewrite Rmult_assoc, Rinv_l by lra. lra.
            + rewrite nth_row_next_S by (try lia; exact Hl). ring. }
        specialize (T X). pose proof (Rabs_pos (at_ (upd (cj_row_next w row) 0 v) (length w) - at_ row (length w))). lra.
      * rewrite removelast_one. replace (upd (upd row 0 (nth s q 0)) 0 v) with (upd row 0 v) by (destruct row; reflexivity). apply Hi.
Qed.

Lemma cj_error dt time nS ops st (g1 g2 : nat -> nat -> nat -> R) (e : nat -> R) i :
  good_times dt time -> (forall k, (S k < length time)%nat -> dt <= nth (S k) time 0 - nth k time 0) ->
  cj_run (cj_init (cj_width_of dt time) nS) ops = Some st ->
  (forall j k, (j < nS)%nat -> (k < length time)%nat -> Rabs (g1 i j k - g2 i j k) <= e j) ->
  Rabs (cj_superposition g1 st i - cj_superposition g2 st i) <= sumn nS (fun j => e j * swings (history j ops)).
Proof.
  intros Hg Hsp Hrun He. destruct (good_width _ _ Hg) as (Hl & Hp & H1 & Hpos).
  destruct (cj_run_rows _ _ _ Hrun) as (Ew & Eq & A). cbn [cj_init cj_w cj_q] in Ew, Eq. rewrite repeat_length in Eq.
  unfold cj_superposition. rewrite Ew, Eq. apply error_sum. intros j Hj.
  destruct (A j) as (Ar & _); [cbn; rewrite repeat_length; exact Hj|]. rewrite Ar, cj_init_row by exact Hj. cbn [cj_init cj_w].
  set (w := cj_width_of dt time) in *. set (row := row_run w j ops (repeat 0 (length w))).
  assert (Lr : length row = length w).
  { unfold row, row_run. assert (G : forall ops r, length r = length w -> length (fold_left (row_step w j) ops r) = length w).
    { clear. induction ops as [|o ops IH]; intros r H; [exact H|]. cbn [fold_left]. apply IH. apply row_step_length. exact H. }
    apply G. apply repeat_length. }
  assert (Z : forall k, nth k row 0 = 0 \/ (k < length w)%nat).
  { intros k. destruct (le_lt_dec (length w) k) as [Y|Y]; [left; apply nth_overflow; lia|right; exact Y]. }
  rewrite !(abel _ _ _ _ _ Z), !spr_sumn, <- sumn_minus.
  eapply Rle_trans; [apply abs_sumn|]. apply Rle_trans with (e j * drop (length w) (at_ row)).
  - unfold drop. rewrite <- sumn_scal, Lr. apply sumn_le. intros k Hk. rewrite <- Rmult_minus_distr_r, Rabs_mult.
    apply Rmult_le_compat_r; [apply Rabs_pos|]. apply He; [exact Hj|]. cbn [Nat.add]. lia.
  - apply Rmult_le_compat_l; [apply (error_pos _ (fun k => g1 i j k - g2 i j k)); apply He; [exact Hj|lia]|].
    unfold swings, history. apply row_vary; try assumption.
    + intros [|k] Hk; [lra|]. unfold w. rewrite width_S by lia. destruct Hg as (Hdt & _).
      apply (Rmult_le_reg_r dt); [exact Hdt|]. unfold Rdiv. rewrite Rmult_assoc, Rinv_l by lra.
      assert (dt <= nth (S k) time 0 - nth k time 0) by (apply Hsp; lia). lra.
    + apply repeat_length.
    + rewrite nth_repeat0. reflexivity.
    + intros v. cbn [removelast app vary]. unfold drop, at_. destruct (length w) as [|n]; [lia|]. rewrite sumn_S_l.
      cbn [repeat upd nth]. rewrite nth_repeat0, !Rminus_0_r, (sumn_zero n); [lra|].
      intros k _. rewrite !nth_repeat0, Rminus_0_r, Rabs_R0. reflexivity.
Qed.
