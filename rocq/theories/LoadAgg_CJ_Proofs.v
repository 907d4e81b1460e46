(** Lemmas about the ClaessonJaved scheme. *)
From Verif Require Import Base LoadAgg_Model LoadAgg_Spec.

(** * Widths *)
Lemma diffs_length l : length (diffs l) = (length l - 1)%nat.
Proof.
  induction l as [|x l IH]; [reflexivity|]. destruct l as [|y l]; [reflexivity|].
  change (diffs (x :: y :: l)) with ((y - x) :: diffs (y :: l)). cbn [length] in *. rewrite IH. lia.
Qed.
Lemma nth_diffs l k : (S k < length l)%nat -> nth k (diffs l) 0 = nth (S k) l 0 - nth k l 0.
Proof.
  revert k; induction l as [|x l IH]; intros k Hk; [simpl in Hk; lia|].
  destruct l as [|y l]; [simpl in Hk; lia|].
  destruct k as [|k]; [reflexivity|].
  change (nth (S k) (diffs (x :: y :: l)) 0) with (nth k (diffs (y :: l)) 0).
  rewrite IH by (cbn [length] in *; lia). reflexivity.
Qed.
Lemma width_length dt time : (0 < length time)%nat -> length (cj_width_of dt time) = length time.
Proof. intros H. unfold cj_width_of. cbn [length]. rewrite map_length, diffs_length. lia. Qed.
Lemma width_S dt time k : (S k < length time)%nat ->
  nth (S k) (cj_width_of dt time) 0 = (nth (S k) time 0 - nth k time 0) / dt.
Proof.
  intros H. unfold cj_width_of. cbn [nth].
  rewrite (nth_map (fun d => d / dt) _ k 0 0) by (rewrite diffs_length; lia).
  rewrite nth_diffs by lia. reflexivity.
Qed.

(** * One row *)
Definition row_step (w : list R) (s : nat) (row : list R) (o : op) : list R :=
  match o with Next => cj_row_next w row | SetLoad q => upd row 0 (nth s q 0) end.
Definition row_run w s ops row := fold_left (row_step w s) ops row.
Fixpoint row_expelled w s ops row : R :=
  match ops with
  | [] => 0
  | o :: r => (match o with Next => nth (length w - 1) row 0 | _ => 0 end)
              + row_expelled w s r (row_step w s row o)
  end.

Lemma row_next_length w row : length (cj_row_next w row) = length w.
Proof. unfold cj_row_next. rewrite map_length, seq_length. reflexivity. Qed.
Lemma row_step_length w s row o : length row = length w -> length (row_step w s row o) = length w.
Proof. intros H. destruct o; simpl; [apply row_next_length|rewrite upd_length; exact H]. Qed.

Lemma nth_row_next_0 w row : (0 < length w)%nat -> length row = length w -> nth 0 w 0 = 1 ->
  nth 0 (cj_row_next w row) 0 = 0.
Proof.
  intros Hn Hl H1. unfold cj_row_next. rewrite nth_map_seq by exact Hn.
  apply sumn_zero. intros i _. unfold cj_A. rewrite H1.
  destruct (Nat.eqb_spec i 0); destruct (Nat.eqb_spec 0 (S i)); try lia; lra.
Qed.
Lemma nth_row_next_S w row j : (S j < length w)%nat -> length row = length w ->
  nth (S j) (cj_row_next w row) 0
  = nth (S j) row 0 * (1 - 1 / nth (S j) w 0) + nth j row 0 * (1 / nth (S j) w 0).
Proof.
  intros Hn Hl. unfold cj_row_next. rewrite nth_map_seq by exact Hn.
  unfold cj_A.
  rewrite (sumn_ext _ _ (fun i => (if (i =? S j)%nat then nth i row 0 * (1 - 1 / nth (S j) w 0) else 0)
      + (if (i =? j)%nat then nth i row 0 * (1 / nth (S j) w 0) else 0))).
  - rewrite sumn_plus.
    rewrite (sumn_single _ (S j)), (sumn_single _ j); try lia.
    + rewrite !Nat.eqb_refl. reflexivity.
    + intros i Hi Hne. destruct (Nat.eqb_spec i j); [lia|reflexivity].
    + intros i Hi Hne. destruct (Nat.eqb_spec i (S j)); [lia|reflexivity].
  - intros i Hi.
    destruct (Nat.eqb_spec i (S j)); destruct (Nat.eqb_spec (S j) (S i)); destruct (Nat.eqb_spec i j);
      try lia; lra.
Qed.

Lemma last_app_one (h : list R) v : last (h ++ [v]) 0 = v.
Proof. induction h as [|x h IH]; [reflexivity|]. simpl. destruct (h ++ [v]) eqn:E; [destruct h; discriminate|]. exact IH. Qed.
Lemma Rsum_removelast h : Rsum (removelast h) = Rsum h - last h 0.
Proof.
  induction h as [|x h IH]; [simpl; lra|]. destruct h as [|y h]; [simpl; lra|].
  change (removelast (x :: y :: h)) with (x :: removelast (y :: h)).
  change (last (x :: y :: h) 0) with (last (y :: h) 0).
  cbn [Rsum] in *. rewrite IH. lra.
Qed.

(** * Energy *)
Lemma sumn_shift n f : sumn (S n) f = f O + sumn n (fun k => f (S k)).
Proof. apply sumn_S_l. Qed.

Lemma energy_next w row : (0 < length w)%nat -> length row = length w -> nth 0 w 0 = 1 ->
  (forall k, (k < length w)%nat -> 0 < nth k w 0) ->
  energy w (cj_row_next w row) = energy w row - nth (length w - 1) row 0.
Proof.
  intros Hn Hl H1 Hp. unfold energy.
  destruct (length w) as [|n] eqn:En; [lia|].
  rewrite !sumn_S_l.
  rewrite nth_row_next_0 by (rewrite ?En; auto).
  rewrite (sumn_ext n _ (fun k => nth (S k) w 0 * nth (S k) row 0 + - (nth (S k) row 0 - nth k row 0))).
  - rewrite sumn_plus, sumn_opp, (sumn_telescope n (fun k => nth k row 0)).
    rewrite H1. replace (S n - 1)%nat with n by lia. lra.
  - intros k Hk. rewrite nth_row_next_S by lia.
    assert (0 < nth (S k) w 0) by (apply Hp; lia). field; lra.
Qed.

Lemma energy_upd w row v : (0 < length w)%nat -> length row = length w -> nth 0 w 0 = 1 ->
  energy w (upd row 0 v) = energy w row - nth 0 row 0 + v.
Proof.
  intros Hn Hl H1. unfold energy.
  destruct (length w) as [|n] eqn:En; [lia|].
  rewrite !sumn_S_l. rewrite nth_upd_eq by lia. rewrite H1.
  rewrite (sumn_ext n _ (fun k => nth (S k) w 0 * nth (S k) row 0)); [lra|].
  intros k Hk. rewrite nth_upd_neq by lia. reflexivity.
Qed.

Lemma row_step_head w s row h o : (0 < length w)%nat -> length row = length w -> nth 0 w 0 = 1 ->
  nth 0 row 0 = last h 0 -> nth 0 (row_step w s row o) 0 = last (hist_step s h o) 0.
Proof.
  intros Hn Hl H1 Hh. destruct o; simpl row_step; simpl hist_step; rewrite last_app_one.
  - apply nth_row_next_0; assumption.
  - apply nth_upd_eq. lia.
Qed.

Lemma row_energy w s ops row h : (0 < length w)%nat -> length row = length w -> nth 0 w 0 = 1 ->
  (forall k, (k < length w)%nat -> 0 < nth k w 0) ->
  nth 0 row 0 = last h 0 ->
  energy w (row_run w s ops row) + row_expelled w s ops row - energy w row
  = Rsum (fold_left (hist_step s) ops h) - Rsum h.
Proof.
  intros Hn Hl H1 Hp. revert row h Hl.
  induction ops as [|o ops IH]; intros row h Hl Hh; [simpl; lra|].
  cbn [row_run fold_left row_expelled].
  specialize (IH (row_step w s row o) (hist_step s h o) (row_step_length _ _ _ _ Hl)
                 (row_step_head _ _ _ _ _ Hn Hl H1 Hh)).
  unfold row_run in IH. destruct o; cbn [row_step hist_step] in *.
  - rewrite energy_next in IH by assumption. rewrite Rsum_app in IH. cbn [Rsum] in IH. lra.
  - rewrite energy_upd in IH by assumption. rewrite Rsum_app, Rsum_removelast in IH. cbn [Rsum] in IH. lra.
Qed.

Lemma row_no_loss w s ops row c : (0 < length w)%nat -> length row = length w -> nth 0 w 0 = 1 ->
  (forall k, (c < k < length w)%nat -> nth k row 0 = 0) ->
  (c + steps ops <= length w - 1)%nat -> row_expelled w s ops row = 0.
Proof.
  intros Hn Hl H1. revert row c Hl.
  induction ops as [|o ops IH]; intros row c Hl Hz Hc; [reflexivity|].
  cbn [row_expelled]. destruct o; cbn [steps row_step] in *.
  - rewrite Hz by lia. rewrite (IH _ (S c)); [lra|apply row_next_length| |lia].
    intros k Hk. destruct k as [|k]; [lia|]. rewrite nth_row_next_S by lia.
    rewrite (Hz (S k)), (Hz k) by lia. lra.
  - rewrite (IH _ c); [lra|rewrite upd_length; exact Hl| |lia].
    intros k Hk. rewrite nth_upd_neq by lia. apply Hz; lia.
Qed.

(** * First moment *)
Lemma left_edge_S w k : left_edge w (S k) = left_edge w k + nth k w 0.
Proof. reflexivity. Qed.

Lemma moment_next w row : (0 < length w)%nat -> length row = length w -> nth 0 w 0 = 1 ->
  (forall k, (k < length w)%nat -> 0 < nth k w 0) ->
  nth (length w - 1) row 0 = 0 ->
  age_moment w (cj_row_next w row) = age_moment w row + energy w row.
Proof.
  intros Hn Hl H1 Hp Hlast. unfold age_moment, energy.
  destruct (length w) as [|n] eqn:En; [lia|].
  replace (S n - 1)%nat with n in Hlast by lia.
  rewrite (sumn_S_l n (fun k => left_edge w k * (nth k w 0 * nth k (cj_row_next w row) 0))).
  rewrite nth_row_next_0 by (rewrite ?En; auto).
  rewrite (sumn_ext n _ (fun k =>
     (left_edge w (S k) * (nth (S k) w 0 * nth (S k) row 0)) + nth k w 0 * nth k row 0
     + (- (left_edge w (S k) * nth (S k) row 0 - left_edge w k * nth k row 0)))).
  - rewrite !sumn_plus, sumn_opp, (sumn_telescope n (fun k => left_edge w k * nth k row 0)).
    rewrite (sumn_S_l n (fun k => left_edge w k * (nth k w 0 * nth k row 0))).
    cbn [sumn]. rewrite Hlast. change (left_edge w 0) with 0. lra.
  - intros k Hk. rewrite nth_row_next_S by lia. rewrite left_edge_S.
    assert (0 < nth (S k) w 0) by (apply Hp; lia). field; lra.
Qed.

Lemma moment_upd w row v : (0 < length w)%nat -> length row = length w ->
  age_moment w (upd row 0 v) = age_moment w row.
Proof.
  intros Hn Hl. unfold age_moment. apply sumn_ext. intros k Hk. destruct k as [|k].
  - unfold left_edge. cbn [sumn]. lra.
  - rewrite nth_upd_neq by lia. reflexivity.
Qed.

Lemma history_moment_app h v : history_moment (h ++ [v]) = history_moment h + Rsum h.
Proof.
  unfold history_moment. rewrite app_length. cbn [length].
  rewrite sumn_split. cbn [sumn]. rewrite (Rsum_sumn h), <- sumn_plus.
  replace (length h + 1 - 1 - (length h + 0))%nat with O by lia. simpl INR.
  rewrite (sumn_ext (length h) _ (fun i => INR (length h - 1 - i) * nth i h 0 + nth i h 0)); [lra|].
  intros i Hi. rewrite app_nth1 by exact Hi.
  replace (length h + 1 - 1 - i)%nat with (S (length h - 1 - i)) by lia. rewrite S_INR. lra.
Qed.
Lemma history_moment_last h : history_moment h = history_moment (removelast h) + Rsum (removelast h).
Proof.
  destruct h as [|x h]; [unfold history_moment; simpl; lra|].
  rewrite (@app_removelast_last _ (x :: h) 0) at 1 by discriminate. apply history_moment_app.
Qed.

Lemma row_moment w s ops row h c : (0 < length w)%nat -> length row = length w -> nth 0 w 0 = 1 ->
  (forall k, (k < length w)%nat -> 0 < nth k w 0) ->
  nth 0 row 0 = last h 0 -> energy w row = Rsum h -> age_moment w row = history_moment h ->
  (forall k, (c < k < length w)%nat -> nth k row 0 = 0) ->
  (c + steps ops <= length w - 1)%nat ->
  age_moment w (row_run w s ops row) = history_moment (fold_left (hist_step s) ops h).
Proof.
  intros Hn Hl H1 Hp. revert row h c Hl.
  induction ops as [|o ops IH]; intros row h c Hl Hh He Hm Hz Hc; [exact Hm|].
  cbn [row_run fold_left].
  assert (Hlast : (c < length w - 1)%nat -> nth (length w - 1) row 0 = 0) by (intros; apply Hz; lia).
  pose proof (row_step_head w s row h o Hn Hl H1 Hh) as Hh'.
  destruct o; cbn [steps row_step hist_step] in *.
  - apply (IH _ _ (S c)); [apply row_next_length|exact Hh'| | | |lia].
    + rewrite energy_next, Hlast, Rsum_app by (assumption || lia). cbn [Rsum]. lra.
    + rewrite moment_next, history_moment_app by (try assumption; apply Hlast; lia). lra.
    + intros k Hk. destruct k as [|k]; [lia|]. rewrite nth_row_next_S by lia.
      rewrite (Hz (S k)), (Hz k) by lia. lra.
  - apply (IH _ _ c); [rewrite upd_length; exact Hl|exact Hh'| | | |lia].
    + rewrite energy_upd, Rsum_app, Rsum_removelast by assumption. cbn [Rsum]. lra.
    + rewrite moment_upd, history_moment_app, Hm by assumption. apply history_moment_last.
    + intros k Hk. rewrite nth_upd_neq by lia. apply Hz; lia.
Qed.

(** * Exactness *)
Lemma nth_tl {A} (l : list A) i d : nth i (tl l) d = nth (S i) l d.
Proof. destruct l; [destruct i|]; reflexivity. Qed.
Lemma rev_removelast {A} (h : list A) : rev (removelast h) = tl (rev h).
Proof.
  destruct h as [|x h] using rev_ind; [reflexivity|].
  rewrite removelast_last, rev_app_distr. reflexivity.
Qed.
Lemma hist_step_length s h o : h <> [] \/ o = Next ->
  length (hist_step s h o) = match o with Next => S (length h) | _ => length h end.
Proof.
  intros H. destruct o; cbn [hist_step]; rewrite app_length; cbn [length]; [lia|].
  destruct H as [H|H]; [|discriminate].
  destruct h as [|x h] using rev_ind; [congruence|]. rewrite removelast_last, app_length. cbn [length]. lia.
Qed.
Lemma hist_step_nonnil s h o : hist_step s h o <> [].
Proof. destruct o; cbn; intro E; apply app_eq_nil in E; destruct E; discriminate. Qed.

Lemma hist_length_gen s ops h : h <> [] -> length (fold_left (hist_step s) ops h) = (length h + steps ops)%nat.
Proof.
  revert h; induction ops as [|o ops IH]; intros h Hh; cbn [fold_left steps]; [lia|].
  rewrite IH by apply hist_step_nonnil. rewrite hist_step_length by (left; exact Hh).
  destruct o; lia.
Qed.
Lemma history_length s ops : starts_with_step ops -> length (history s ops) = steps ops.
Proof.
  intros H. unfold history. destruct ops as [|[|q] ops]; [reflexivity| |contradiction].
  cbn [fold_left steps]. rewrite hist_length_gen by (cbn; discriminate). reflexivity.
Qed.

Lemma row_exact w s m ops row h : (0 < length w)%nat -> length row = length w ->
  (m <= length w)%nat -> (forall k, (k < m)%nat -> nth k w 0 = 1) ->
  (h <> [] \/ starts_with_step ops) ->
  (length h + steps ops <= m)%nat ->
  (forall k, (k < length w)%nat -> nth k row 0 = nth k (rev h) 0) ->
  forall k, (k < length w)%nat ->
    nth k (row_run w s ops row) 0 = nth k (rev (fold_left (hist_step s) ops h)) 0.
Proof.
  intros Hn Hl Hm Hu. revert row h Hl.
  induction ops as [|o ops IH]; intros row h Hl Hs Hc Hr k Hk; [apply Hr; exact Hk|].
  cbn [row_run fold_left].
  assert (Ho : h <> [] \/ o = Next).
  { destruct Hs as [Hs|Hs]; [left; exact Hs|right; destruct o; [reflexivity|contradiction]]. }
  apply IH; [apply row_step_length; exact Hl|left; apply hist_step_nonnil| | |exact Hk].
  - rewrite hist_step_length by exact Ho. destruct o; cbn [steps] in Hc; lia.
  - clear k Hk. intros k Hk. destruct o; cbn [row_step hist_step steps] in *.
    + rewrite rev_app_distr. cbn [rev app].
      destruct k as [|k].
      * rewrite nth_row_next_0; auto. apply Hu; lia.
      * rewrite nth_row_next_S by lia. cbn [nth]. rewrite !Hr by lia.
        destruct (lt_dec (S k) m) as [Hlt|Hge].
        -- rewrite (Hu (S k) Hlt). field.
        -- rewrite !(nth_overflow (rev h)) by (rewrite rev_length; lia). lra.
    + rewrite rev_app_distr, rev_removelast. cbn [rev app].
      destruct k as [|k].
      * rewrite nth_upd_eq by lia. reflexivity.
      * rewrite nth_upd_neq by lia. cbn [nth]. rewrite nth_tl. apply Hr; lia.
Qed.

(** Superposition on the reversed history (latest first). *)
Fixpoint spr (g : nat -> R) (k : nat) (l : list R) : R :=
  match l with
  | [] => 0
  | x :: r => g k * (x - hd 0 r) + spr g (S k) r
  end.
Lemma spr_sumn g k l : spr g k l = sumn (length l) (fun i => g (k + i)%nat * (nth i l 0 - nth (S i) l 0)).
Proof.
  revert k; induction l as [|x l IH]; intros k; [reflexivity|].
  cbn [spr length]. rewrite sumn_S_l, IH. rewrite Nat.add_0_r.
  replace (hd 0 l) with (nth 0 l 0) by (destruct l; reflexivity).
  f_equal. apply sumn_ext. intros i Hi. rewrite Nat.add_succ_r. reflexivity.
Qed.
Lemma superpose_spr g h : superpose g h = spr g 0 (rev h).
Proof.
  rewrite spr_sumn, rev_length. unfold superpose.
  rewrite <- (sumn_rev (length h)). apply sumn_ext. intros i Hi.
  replace (length h - 1 - (length h - 1 - i))%nat with i by lia.
  cbn [plus]. f_equal. f_equal.
  - rewrite rev_nth by exact Hi. f_equal. lia.
  - destruct (length h - 1 - i)%nat as [|p] eqn:E.
    + rewrite nth_overflow; [reflexivity|rewrite rev_length; lia].
    + rewrite rev_nth by lia. f_equal. f_equal. lia.
Qed.

Lemma abel g i j n r : (forall k, nth k r 0 = 0 \/ (k < n)%nat) ->
  sumn n (fun k => cj_dg g i j k * nth k r 0) = spr (g i j) 0 r.
Proof.
  intros Hr. rewrite spr_sumn.
  assert (Hz : forall m, sumn (m) (fun k => cj_dg g i j k * nth k r 0)
      = sumn m (fun k => g i j k * (nth k r 0 - nth (S k) r 0))
        + match m with O => 0 | S p => g i j p * nth m r 0 end).
  { induction m as [|m IH]; [simpl; lra|]. cbn [sumn]. rewrite IH.
    destruct m as [|m]; cbn [cj_dg]; [cbn [sumn]|]; lra. }
  set (M := (Nat.max n (length r))).
  assert (E1 : sumn n (fun k => cj_dg g i j k * nth k r 0) = sumn M (fun k => cj_dg g i j k * nth k r 0)).
  { replace M with (n + (M - n))%nat by lia. rewrite sumn_split.
    rewrite (sumn_zero (M - n)); [lra|]. intros q Hq. destruct (Hr (n + q)%nat) as [E|E]; [rewrite E; lra|lia]. }
  rewrite E1, Hz.
  replace M with (length r + (M - length r))%nat at 1 by lia. rewrite sumn_split.
  rewrite (sumn_zero (M - length r)).
  2:{ intros q Hq. rewrite !nth_overflow by lia. lra. }
  replace (match M with O => 0 | S p => g i j p * nth M r 0 end) with 0.
  2:{ destruct M as [|p] eqn:EM; [reflexivity|]. rewrite nth_overflow; [lra|]. lia. }
  cbn [plus]. lra.
Qed.

(** * From rows to the whole state *)
Lemma combine_nth' {A B} (l : list A) (l' : list B) i d d' : length l = length l' ->
  nth i (combine l l') (d, d') = (nth i l d, nth i l' d').
Proof. apply combine_nth. Qed.

Lemma nth_map_combine {A B C} (f : A * B -> C) l l' i d d' dc :
  length l = length l' -> (i < length l)%nat ->
  nth i (map f (combine l l')) dc = f (nth i l d, nth i l' d').
Proof.
  intros Hl Hi. rewrite (nth_map f _ i (d, d') dc) by (rewrite combine_length; lia).
  rewrite combine_nth' by exact Hl. reflexivity.
Qed.

Lemma cj_step_rows s o s' : cj_step s o = Some s' ->
  cj_w s' = cj_w s /\ length (cj_q s') = length (cj_q s)
  /\ forall k, (k < length (cj_q s))%nat -> nth k (cj_q s') [] = row_step (cj_w s) k (nth k (cj_q s) []) o.
Proof.
  intros H. destruct o; cbn [cj_step] in H.
  - injection H as <-. cbn [cj_w cj_q]. rewrite map_length. repeat split.
    intros k Hk. rewrite (nth_map _ _ k [] []) by exact Hk. reflexivity.
  - destruct (Nat.eqb_spec (length q) (length (cj_q s))) as [E|E]; [|discriminate].
    injection H as <-. cbn [cj_w cj_q]. rewrite map_length, combine_length. repeat split; [lia|].
    intros k Hk. rewrite (nth_map_combine _ _ _ k [] 0 []) by lia. reflexivity.
Qed.

Lemma cj_run_rows ops : forall s s', cj_run s ops = Some s' ->
  cj_w s' = cj_w s /\ length (cj_q s') = length (cj_q s)
  /\ (forall k, (k < length (cj_q s))%nat ->
       nth k (cj_q s') [] = row_run (cj_w s) k ops (nth k (cj_q s) [])
       /\ cj_expelled s k ops = row_expelled (cj_w s) k ops (nth k (cj_q s) [])).
Proof.
  induction ops as [|o ops IH]; intros s s' H; cbn [cj_run] in H.
  - injection H as <-. repeat split.
  - destruct (cj_step s o) as [s1|] eqn:E; [|discriminate].
    destruct (cj_step_rows _ _ _ E) as (W1 & L1 & R1).
    destruct (IH _ _ H) as (W2 & L2 & R2).
    rewrite W1 in W2. split; [exact W2|]. split; [lia|].
    intros k Hk. rewrite L1 in R2. destruct (R2 k Hk) as (A & B).
    rewrite W1, (R1 k Hk) in A, B. split; [exact A|].
    cbn [cj_expelled]. rewrite E. cbn [row_expelled]. rewrite B. destruct o; reflexivity.
Qed.

Lemma cj_init_row w nS k : (k < nS)%nat -> nth k (cj_q (cj_init w nS)) [] = repeat 0 (length w).
Proof. intros H. unfold cj_init. cbn [cj_q]. apply nth_repeat_lt || (revert k H; induction nS; intros [|k] H; simpl; try lia; auto; apply IHnS; lia). Qed.

Lemma nth_repeat0 k n : nth k (repeat 0 n) 0 = 0.
Proof. apply nth_repeat. Qed.

(** Facts about the widths built from cell times. *)

Lemma good_width dt time : good_times dt time ->
  length (cj_width_of dt time) = length time /\ (0 < length (cj_width_of dt time))%nat
  /\ nth 0 (cj_width_of dt time) 0 = 1
  /\ forall k, (k < length (cj_width_of dt time))%nat -> 0 < nth k (cj_width_of dt time) 0.
Proof.
  intros (Hdt & Hne & Hinc).
  assert (Hl : (0 < length time)%nat) by (destruct time; [congruence|simpl; lia]).
  rewrite width_length by exact Hl. repeat split; [exact Hl|].
  intros [|k] Hk; [simpl; lra|]. rewrite width_S by exact Hk.
  specialize (Hinc k Hk). apply Rdiv_lt_0_compat; lra.
Qed.

Theorem cj_energy_lemma dt time nS ops st s :
  good_times dt time ->
  cj_run (cj_init (cj_width_of dt time) nS) ops = Some st -> (s < nS)%nat ->
  energy (cj_width_of dt time) (nth s (cj_q st) []) + cj_expelled (cj_init (cj_width_of dt time) nS) s ops
  = Rsum (history s ops).
Proof.
  intros Hg Hrun Hs. destruct (good_width _ _ Hg) as (Hl & Hp & H1 & Hpos).
  destruct (cj_run_rows _ _ _ Hrun) as (_ & _ & R).
  cbn [cj_init cj_q cj_w] in R. rewrite repeat_length in R.
  destruct (R s Hs) as (A & B).
  fold (cj_init (cj_width_of dt time) nS) in *. rewrite A, B.
  change (repeat (repeat 0 (length (cj_width_of dt time))) nS) with (cj_q (cj_init (cj_width_of dt time) nS)).
  rewrite cj_init_row by exact Hs.
  set (w := cj_width_of dt time) in *. set (row := repeat 0 (length w)).
  assert (Hrow : length row = length w) by apply repeat_length.
  pose proof (row_energy w s ops row [] Hp Hrow H1 Hpos) as HE.
  cbn [last Rsum] in HE. specialize (HE (nth_repeat0 _ _)).
  assert (energy w row = 0).
  { unfold energy. apply sumn_zero. intros i _. unfold row. rewrite nth_repeat0. lra. }
  unfold history. lra.
Qed.

Theorem cj_no_loss_lemma dt time nS ops s :
  good_times dt time -> (s < nS)%nat -> (steps ops < length time)%nat ->
  forall st, cj_run (cj_init (cj_width_of dt time) nS) ops = Some st ->
  cj_expelled (cj_init (cj_width_of dt time) nS) s ops = 0.
Proof.
  intros Hg Hs Hst st Hrun. destruct (good_width _ _ Hg) as (Hl & Hp & H1 & Hpos).
  destruct (cj_run_rows _ _ _ Hrun) as (_ & _ & R).
  destruct (R s) as (A & B); [cbn; rewrite repeat_length; exact Hs|]. rewrite B.
  rewrite cj_init_row by exact Hs. cbn [cj_init cj_w].
  apply (row_no_loss _ _ _ _ 0); try assumption; [apply repeat_length| |lia].
  intros; apply nth_repeat0.
Qed.

Theorem cj_moment_lemma dt time nS ops st s :
  good_times dt time ->
  cj_run (cj_init (cj_width_of dt time) nS) ops = Some st -> (s < nS)%nat ->
  (steps ops < length time)%nat ->
  age_moment (cj_width_of dt time) (nth s (cj_q st) []) = history_moment (history s ops).
Proof.
  intros Hg Hrun Hs Hst. destruct (good_width _ _ Hg) as (Hl & Hp & H1 & Hpos).
  destruct (cj_run_rows _ _ _ Hrun) as (_ & _ & R).
  destruct (R s) as (A & _); [cbn; rewrite repeat_length; exact Hs|]. rewrite A.
  rewrite cj_init_row by exact Hs. cbn [cj_init cj_w].
  unfold history.
  apply (row_moment _ _ _ _ _ 0); try assumption; try apply repeat_length; try lia.
  - apply nth_repeat0.
  - unfold energy. apply sumn_zero. intros; rewrite nth_repeat0; lra.
  - unfold age_moment, history_moment. apply sumn_zero. intros; rewrite nth_repeat0; lra.
  - intros; apply nth_repeat0.
Qed.

Theorem cj_exact_lemma dt time nS ops st (g : nat -> nat -> nat -> R) m i :
  good_times dt time -> (m <= length time)%nat ->
  (forall k, (S k < m)%nat -> nth (S k) time 0 - nth k time 0 = dt) ->
  starts_with_step ops -> (steps ops <= m)%nat ->
  cj_run (cj_init (cj_width_of dt time) nS) ops = Some st ->
  cj_superposition g st i = sumn nS (fun j => superpose (g i j) (history j ops)).
Proof.
  intros Hg Hm Hu Hst Hle Hrun. destruct (good_width _ _ Hg) as (Hl & Hp & H1 & Hpos).
  destruct (cj_run_rows _ _ _ Hrun) as (W & L & R).
  cbn [cj_init cj_w cj_q] in W, L. rewrite repeat_length in L.
  unfold cj_superposition. rewrite W, L. apply sumn_ext. intros j Hj.
  destruct (R j) as (A & _); [cbn; rewrite repeat_length; exact Hj|].
  rewrite cj_init_row in A by exact Hj. cbn [cj_init cj_w] in A.
  set (w := cj_width_of dt time) in *.
  assert (E : forall k, (k < length w)%nat -> nth k (nth j (cj_q st) []) 0 = nth k (rev (history j ops)) 0).
  { rewrite A. apply (row_exact w j m); try assumption; try lia.
    - apply repeat_length.
    - intros [|k] Hk; [exact H1|]. unfold w. rewrite width_S by lia. rewrite Hu by exact Hk.
      destruct Hg as (Hdt & _). field. lra.
    - right; exact Hst.
    - intros k Hk. rewrite nth_repeat0. destruct k; reflexivity. }
  rewrite (sumn_ext _ _ (fun k => cj_dg g i j k * nth k (rev (history j ops)) 0))
    by (intros k Hk; rewrite E by exact Hk; reflexivity).
  rewrite abel.
  - symmetry. apply superpose_spr.
  - intros k. destruct (lt_dec k (length w)) as [|Hge]; [right; lia|left].
    apply nth_overflow. rewrite rev_length, history_length by exact Hst. lia.
Qed.

(** * Maximum principle *)

Lemma row_bounds w s lo hi ops row : (0 < length w)%nat -> length row = length w -> nth 0 w 0 = 1 ->
  (forall k, (k < length w)%nat -> 1 <= nth k w 0) -> lo <= 0 <= hi ->
  Forall (fun o => match o with Next => True | SetLoad q => lo <= nth s q 0 <= hi end) ops ->
  (forall k, lo <= nth k row 0 <= hi) ->
  forall k, lo <= nth k (row_run w s ops row) 0 <= hi.
Proof.
  intros Hn Hl H1 Hw H0 HF. revert row Hl.
  induction HF as [|o ops Ho HF IH]; intros row Hl Hb k; [apply Hb|].
  cbn [row_run fold_left]. apply IH; [apply row_step_length; exact Hl|].
  clear k. intros k.
  destruct (lt_dec k (length w)) as [Hk|Hk].
  2:{ rewrite nth_overflow; [exact H0|]. rewrite row_step_length by exact Hl. lia. }
  destruct o; cbn [row_step].
  - destruct k as [|k]; [rewrite nth_row_next_0 by assumption; exact H0|].
    rewrite nth_row_next_S by lia.
    assert (Hwk : 1 <= nth (S k) w 0) by (apply Hw; exact Hk).
    set (u := 1 / nth (S k) w 0).
    assert (0 < u) by (unfold u; apply Rdiv_lt_0_compat; lra).
    assert (u <= 1).
    { unfold u. apply (Rmult_le_reg_r (nth (S k) w 0)); [lra|]. unfold Rdiv. rewrite Rmult_assoc, Rinv_l by lra. lra. }
    pose proof (Hb (S k)). pose proof (Hb k). nra.
  - destruct k as [|k]; [rewrite nth_upd_eq by lia; exact Ho|]. rewrite nth_upd_neq by lia. apply Hb.
Qed.

Theorem cj_bounds_lemma dt time nS ops st lo hi s :
  good_times dt time -> (forall k, (S k < length time)%nat -> dt <= nth (S k) time 0 - nth k time 0) ->
  lo <= 0 <= hi -> Forall (load_in lo hi) ops ->
  cj_run (cj_init (cj_width_of dt time) nS) ops = Some st -> (s < nS)%nat ->
  forall k, lo <= nth k (nth s (cj_q st) []) 0 <= hi.
Proof.
  intros Hg Hsp H0 HF Hrun Hs. destruct (good_width _ _ Hg) as (Hl & Hp & H1 & Hpos).
  destruct (cj_run_rows _ _ _ Hrun) as (_ & _ & R).
  destruct (R s) as (A & _); [cbn; rewrite repeat_length; exact Hs|]. rewrite A.
  rewrite cj_init_row by exact Hs. cbn [cj_init cj_w].
  apply row_bounds; try assumption.
  - apply repeat_length.
  - intros [|k] Hk; [lra|]. rewrite width_S by lia. specialize (Hsp k). destruct Hg as (Hdt & _).
    apply (Rmult_le_reg_r dt); [exact Hdt|]. unfold Rdiv. rewrite Rmult_assoc, Rinv_l by lra.
    assert (dt <= nth (S k) time 0 - nth k time 0) by (apply Hsp; lia). lra.
  - eapply Forall_impl; [|exact HF]. intros [|q] Hq; [exact I|]. cbn in Hq.
    destruct (nth_in_or_default s q 0) as [Hin|E]; [apply Hq; exact Hin|rewrite E; exact H0].
  - intros k. rewrite nth_repeat0. exact H0.
Qed.

(** * Linearity *)
Definition lin (a b : R) (r1 r2 r3 : list R) : Prop :=
  forall k, nth k r3 0 = a * nth k r1 0 + b * nth k r2 0.

Lemma lin_next a b w r1 r2 r3 : lin a b r1 r2 r3 ->
  lin a b (cj_row_next w r1) (cj_row_next w r2) (cj_row_next w r3).
Proof.
  intros H k. destruct (lt_dec k (length w)) as [Hk|Hk].
  - unfold cj_row_next. rewrite !nth_map_seq by exact Hk.
    rewrite <- !sumn_scal, <- sumn_plus. apply sumn_ext. intros i _. rewrite H. lra.
  - rewrite !nth_overflow by (rewrite row_next_length; lia). lra.
Qed.
Lemma lin_upd a b r1 r2 r3 x y : (0 < length r1)%nat -> length r1 = length r2 -> length r1 = length r3 ->
  lin a b r1 r2 r3 -> lin a b (upd r1 0 x) (upd r2 0 y) (upd r3 0 (a * x + b * y)).
Proof.
  intros H0 H2 H3 H [|k]; [rewrite !nth_upd_eq by lia; reflexivity|].
  rewrite !nth_upd_neq by lia. apply H.
Qed.

Definition lin_state (a b : R) (s1 s2 s3 : cj) : Prop :=
  cj_w s1 = cj_w s2 /\ cj_w s1 = cj_w s3 /\ length (cj_q s1) = length (cj_q s2)
  /\ length (cj_q s1) = length (cj_q s3)
  /\ forall j, (j < length (cj_q s1))%nat ->
       length (nth j (cj_q s1) []) = length (cj_w s1) /\ length (nth j (cj_q s2) []) = length (cj_w s1)
       /\ length (nth j (cj_q s3) []) = length (cj_w s1)
       /\ lin a b (nth j (cj_q s1) []) (nth j (cj_q s2) []) (nth j (cj_q s3) []).

Lemma lin_run a b ops1 : forall ops2 ops3 s1 s2 s3 t1 t2,
  (0 < length (cj_w s1))%nat ->
  combine_ops a b ops1 ops2 = Some ops3 -> lin_state a b s1 s2 s3 ->
  cj_run s1 ops1 = Some t1 -> cj_run s2 ops2 = Some t2 ->
  exists t3, cj_run s3 ops3 = Some t3 /\ lin_state a b t1 t2 t3.
Proof.
  induction ops1 as [|o1 r1 IH]; intros ops2 ops3 s1 s2 s3 t1 t2 Hw Hc Hl H1 H2.
  - destruct ops2 as [|o2 r2]; [|discriminate]. cbn in Hc. injection Hc as <-.
    cbn in H1, H2. injection H1 as <-. injection H2 as <-. exists s3. split; [reflexivity|exact Hl].
  - destruct Hl as (W2 & W3 & L2 & L3 & Hrow).
    assert (Hstep : forall o2 o3 s1' s2' s3', cj_step s1 o1 = Some s1' -> cj_step s2 o2 = Some s2' ->
       cj_step s3 o3 = Some s3' ->
       match o1, o2, o3 with Next, Next, Next => True
       | SetLoad q1, SetLoad q2, SetLoad q3 => length q1 = length q2 /\ q3 = map (fun p => a * fst p + b * snd p) (combine q1 q2) /\ length q1 = length (cj_q s1)
       | _, _, _ => False end ->
       lin_state a b s1' s2' s3').
    { intros o2 o3 s1' s2' s3' E1 E2 E3 Hm.
      destruct (cj_step_rows _ _ _ E1) as (A1 & B1 & C1).
      destruct (cj_step_rows _ _ _ E2) as (A2 & B2 & C2).
      destruct (cj_step_rows _ _ _ E3) as (A3 & B3 & C3).
      unfold lin_state. rewrite A1, A2, A3, B1, B2, B3.
      split; [exact W2|]. split; [exact W3|]. split; [exact L2|]. split; [exact L3|].
      intros j Hj. rewrite (C1 j Hj), (C2 j), (C3 j) by lia.
      destruct (Hrow j Hj) as (D1 & D2 & D3 & D4).
      rewrite !row_step_length by (rewrite <- ?W2, <- ?W3; assumption).
      repeat split; try congruence. rewrite <- W2, <- W3.
      destruct o1 as [|q1], o2 as [|q2], o3 as [|q3]; try contradiction; cbn [row_step].
      - apply lin_next; exact D4.
      - destruct Hm as (Hlen & -> & Hq1). rewrite (nth_map_combine _ _ _ j 0 0 0) by lia. cbn [fst snd].
        apply lin_upd; try lia. exact D4. }
    destruct o1 as [|q1], ops2 as [|[|q2] r2]; try discriminate; cbn [combine_ops] in Hc.
    + destruct (combine_ops a b r1 r2) as [r3|] eqn:Ec; [|discriminate]. injection Hc as <-.
      cbn [cj_run] in H1, H2 |- *. cbn [cj_step] in H1, H2 |- *.
      eapply IH; [|exact Ec| |exact H1|exact H2]; [exact Hw|].
      eapply (Hstep Next Next); reflexivity || exact I.
    + destruct (Nat.eqb_spec (length q1) (length q2)) as [Eq|]; [|discriminate].
      destruct (combine_ops a b r1 r2) as [r3|] eqn:Ec; [|discriminate]. injection Hc as <-.
      cbn [cj_run] in H1, H2 |- *.
      destruct (cj_step s1 (SetLoad q1)) as [s1'|] eqn:E1; [|discriminate].
      destruct (cj_step s2 (SetLoad q2)) as [s2'|] eqn:E2; [|discriminate].
      assert (Hq1 : length q1 = length (cj_q s1)).
      { cbn [cj_step] in E1. destruct (Nat.eqb_spec (length q1) (length (cj_q s1))); [assumption|discriminate]. }
      destruct (cj_step s3 (SetLoad (map (fun p => a * fst p + b * snd p) (combine q1 q2)))) as [s3'|] eqn:E3.
      2:{ cbn [cj_step] in E3. rewrite map_length, combine_length in E3.
          destruct (Nat.eqb_spec (Nat.min (length q1) (length q2)) (length (cj_q s3))); [discriminate|lia]. }
      eapply IH; [|exact Ec| |exact H1|exact H2].
      * destruct (cj_step_rows _ _ _ E1) as (A1 & _). rewrite A1. exact Hw.
      * eapply Hstep; [reflexivity|exact E2|exact E3|]. cbn. auto.
Qed.

Theorem cj_linear_lemma dt time nS a b ops1 ops2 ops3 st1 st2 (g : nat -> nat -> nat -> R) i :
  combine_ops a b ops1 ops2 = Some ops3 ->
  cj_run (cj_init (cj_width_of dt time) nS) ops1 = Some st1 ->
  cj_run (cj_init (cj_width_of dt time) nS) ops2 = Some st2 ->
  exists st3, cj_run (cj_init (cj_width_of dt time) nS) ops3 = Some st3
   /\ cj_superposition g st3 i = a * cj_superposition g st1 i + b * cj_superposition g st2 i.
Proof.
  intros Hc H1 H2. set (s0 := cj_init (cj_width_of dt time) nS) in *.
  assert (Hl0 : lin_state a b s0 s0 s0).
  { unfold lin_state. do 4 (split; [reflexivity|]). intros j Hj.
    assert (Hj' : (j < nS)%nat) by (unfold s0 in Hj; cbn in Hj; rewrite repeat_length in Hj; exact Hj).
    unfold s0. rewrite cj_init_row by exact Hj'. cbn [cj_init cj_w]. rewrite repeat_length.
    do 3 (split; [reflexivity|]). intros k. rewrite nth_repeat0. lra. }
  assert (Hw0 : (0 < length (cj_w s0))%nat) by (cbn; lia).
  destruct (lin_run a b ops1 ops2 ops3 s0 s0 s0 st1 st2 Hw0 Hc Hl0 H1 H2) as (st3 & H3 & HL).
  exists st3. split; [exact H3|]. destruct HL as (W2 & W3 & L2 & L3 & Hrow).
    unfold cj_superposition. rewrite <- W2, <- W3, <- L2, <- L3.
    rewrite <- !sumn_scal, <- sumn_plus. apply sumn_ext. intros j Hj.
    rewrite <- !sumn_scal, <- sumn_plus. apply sumn_ext. intros k Hk.
    destruct (Hrow j Hj) as (_ & _ & _ & D). rewrite D. lra.
Qed.
