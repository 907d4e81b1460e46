(** Lemmas about the multiple load aggregation algorithm. *)
From Verif Require Import Base LoadAgg_Model LoadAgg_Spec LoadAgg_CJ_Proofs.
Local Arguments Nat.sub : simpl never.

Lemma slice_ext (a b : nat) (l1 l2 : list R) :
  (b <= length l1)%nat -> (b <= length l2)%nat ->
  (forall k, (a <= k < b)%nat -> nth k l1 0 = nth k l2 0) -> slice a b l1 = slice a b l2.
Proof.
  intros H1 H2 H. apply (list_eq_nth 0).
  - rewrite !slice_length by assumption. reflexivity.
  - intros i Hi. rewrite slice_length in Hi by assumption. rewrite !nth_slice by exact Hi. apply H. lia.
Qed.

Lemma removelast_snoc_length (h : list R) v : h <> [] -> length (removelast h ++ [v]) = length h.
Proof.
  intros H. destruct h as [|x h] using rev_ind; [congruence|].
  rewrite removelast_last, !app_length. reflexivity.
Qed.
Lemma nth_removelast_snoc (h : list R) v k : h <> [] ->
  nth k (removelast h ++ [v]) 0 = if (k =? length h - 1)%nat then v else nth k h 0.
Proof.
  intros H. destruct h as [|x h _] using rev_ind; [congruence|].
  rewrite removelast_last, app_length. cbn [length].
  replace (length h + 1 - 1)%nat with (length h) by lia.
  destruct (Nat.eqb_spec k (length h)) as [->|Hne].
  - rewrite app_nth2, Nat.sub_diag by lia. reflexivity.
  - destruct (lt_dec k (length h)).
    + rewrite !app_nth1 by lia. reflexivity.
    + rewrite !nth_overflow by (rewrite app_length; cbn [length]; lia). reflexivity.
Qed.

Definition ml_c1 N0 N1 n := (N0 + N1 <=? n)%nat.
Definition ml_c2 N0 N1 N2 n := (N0 + N1 + N2 <=? n)%nat.
Definition ml_c3 N0 N1 N2 N3 n := (N0 + N1 + N2 + N3 <=? n)%nat.

Ltac mlcbn := cbn [ml_N0 ml_N1 ml_N2 ml_N3 ml_Nt ml_nt ml_n0 ml_n1 ml_n2 ml_n3 ml_n4 ml_qb ml_Q0 ml_Q1 ml_Q2 ml_Q3 ml_Q4].

Record ml_inv (nS N0 N1 N2 N3 Nt n : nat) (h : nat -> list R) (st : mlaa) : Prop := {
  mi_p0 : ml_N0 st = N0; mi_p1 : ml_N1 st = N1; mi_p2 : ml_N2 st = N2; mi_p3 : ml_N3 st = N3;
  mi_pt : ml_Nt st = Nt; mi_nt : ml_nt st = n; mi_le : (n <= Nt)%nat;
  mi_n0 : ml_n0 st = Nat.min n N0;
  mi_n1 : ml_n1 st = if ml_c1 N0 N1 n then N1 else O;
  mi_n2 : ml_n2 st = if ml_c2 N0 N1 N2 n then N2 else O;
  mi_n3 : ml_n3 st = if ml_c3 N0 N1 N2 N3 n then N3 else O;
  mi_n4 : ml_n4 st = (n - (ml_n0 st + ml_n1 st + ml_n2 st + ml_n3 st))%nat;
  mi_lq : length (ml_qb st) = nS; mi_l0 : length (ml_Q0 st) = nS;
  mi_hl : forall s, (s < nS)%nat -> length (h s) = n;
  mi_ql : forall s, (s < nS)%nat -> length (nth s (ml_qb st) []) = Nt;
  mi_qh : forall s k, (s < nS)%nat -> (k < n)%nat -> nth k (nth s (ml_qb st) []) 0 = nth k (h s) 0;
  mi_qz : forall s k, (s < nS)%nat -> (n <= k)%nat -> nth k (nth s (ml_qb st) []) 0 = 0;
  mi_0l : forall s, (s < nS)%nat -> length (nth s (ml_Q0 st) []) = N0;
  mi_0h : forall s m, (s < nS)%nat -> (1 <= m <= ml_n0 st)%nat ->
            nth (N0 - m) (nth s (ml_Q0 st) []) 0 = nth (n - m) (h s) 0;
  mi_Q1 : forall s, (s < nS)%nat -> nth s (ml_Q1 st) 0 =
            if ml_c1 N0 N1 n then mean (slice (n - (ml_n0 st + ml_n1 st)) (n - ml_n0 st) (h s)) else 0;
  mi_Q2 : forall s, (s < nS)%nat -> nth s (ml_Q2 st) 0 =
            if ml_c2 N0 N1 N2 n
            then mean (slice (n - (ml_n0 st + ml_n1 st + ml_n2 st)) (n - (ml_n0 st + ml_n1 st)) (h s)) else 0;
  mi_Q3 : forall s, (s < nS)%nat -> nth s (ml_Q3 st) 0 =
            if ml_c3 N0 N1 N2 N3 n
            then mean (slice (n - (ml_n0 st + ml_n1 st + ml_n2 st + ml_n3 st))
                             (n - (ml_n0 st + ml_n1 st + ml_n2 st)) (h s)) else 0;
  mi_Q4 : forall s, (s < nS)%nat -> (0 < ml_n4 st)%nat -> nth s (ml_Q4 st) 0 = mean (slice 0 (ml_n4 st) (h s)) }.

Lemma nth_repeat_in {A} (x d : A) n k : (k < n)%nat -> nth k (repeat x n) d = x.
Proof. revert k; induction n as [|n IH]; intros [|k] H; simpl; try lia; auto. apply IH; lia. Qed.

Lemma ml_inv_init nS N0 N1 N2 N3 Nt : (1 <= N0)%nat ->
  ml_inv nS N0 N1 N2 N3 Nt 0 (fun _ => []) (mlaa_init nS Nt N0 N1 N2 N3).
Proof.
  intros H0. unfold mlaa_init. constructor; cbn; try reflexivity; try lia; unfold ml_c1, ml_c2, ml_c3.
  - destruct (Nat.leb_spec (N0 + N1) 0); [lia|reflexivity].
  - destruct (Nat.leb_spec (N0 + N1 + N2) 0); [lia|reflexivity].
  - destruct (Nat.leb_spec (N0 + N1 + N2 + N3) 0); [lia|reflexivity].
  - apply repeat_length.
  - apply repeat_length.
  - intros s Hs. rewrite nth_repeat_in by exact Hs. apply repeat_length.
  - intros s k Hs Hk. rewrite nth_repeat_in by exact Hs. apply nth_repeat0.
  - intros s Hs. rewrite nth_repeat_in by exact Hs. apply repeat_length.
  - intros s Hs. rewrite nth_repeat0. destruct (Nat.leb_spec (N0 + N1) 0); [lia|reflexivity].
  - intros s Hs. rewrite nth_repeat0. destruct (Nat.leb_spec (N0 + N1 + N2) 0); [lia|reflexivity].
  - intros s Hs. rewrite nth_repeat0. destruct (Nat.leb_spec (N0 + N1 + N2 + N3) 0); [lia|reflexivity].
Qed.

Lemma ml_inv_next nS N0 N1 N2 N3 Nt n h st st' : (1 <= N0)%nat ->
  ml_inv nS N0 N1 N2 N3 Nt n h st -> mlaa_next st = Some st' ->
  ml_inv nS N0 N1 N2 N3 Nt (S n) (fun s => h s ++ [0]) st'.
Proof.
  intros H0 I H. destruct I as [p0 p1 p2 p3 pt pn ple i0 i1 i2 i3 i4 lq l0 hl ql qh qz' zl zh e1 e2 e3 e4].
  unfold mlaa_next in H. rewrite p0, p1, p2, p3, pt, pn in H.
  destruct (Nat.ltb_spec Nt (S n)) as [|Hle]; [discriminate|].
  fold (ml_c1 N0 N1 (S n)) (ml_c2 N0 N1 N2 (S n)) (ml_c3 N0 N1 N2 N3 (S n)) in H.
  set (n0 := if (S n <? N0)%nat then S n else N0) in *.
  assert (En0 : n0 = Nat.min (S n) N0) by (unfold n0; destruct (Nat.ltb_spec (S n) N0); lia).
  clearbody n0.
  set (n1 := if ml_c1 N0 N1 (S n) then N1 else O) in *.
  set (n2 := if ml_c2 N0 N1 N2 (S n) then N2 else O) in *.
  set (n3 := if ml_c3 N0 N1 N2 N3 (S n) then N3 else O) in *.
  set (n4 := (S n - (n0 + n1 + n2 + n3))%nat) in *.
  assert (Hsl : forall s a b, (s < nS)%nat -> (b <= S n)%nat ->
            slice a b (nth s (ml_qb st) []) = slice a b (h s ++ [0])).
  { intros s a b Hs Hb. apply slice_ext.
    - rewrite ql by exact Hs. lia.
    - rewrite app_length, hl by exact Hs. cbn [length]. lia.
    - intros k Hk. destruct (Nat.eq_dec k n) as [->|Hne].
      + rewrite qz' by (auto; lia). rewrite app_nth2 by (rewrite hl by exact Hs; lia).
        rewrite hl, Nat.sub_diag by exact Hs. reflexivity.
      + rewrite qh by (auto; lia). rewrite app_nth1 by (rewrite hl by exact Hs; lia). reflexivity. }
  injection H as <-. constructor; mlcbn; try assumption; try reflexivity; try lia.
  - rewrite map_length, combine_length. lia.
  - intros s Hs. rewrite app_length, hl by exact Hs. cbn [length]. lia.
  - intros s k Hs Hk. destruct (Nat.eq_dec k n) as [->|Hne].
    + rewrite qz' by (auto; lia). rewrite app_nth2 by (rewrite hl by exact Hs; lia).
      rewrite hl, Nat.sub_diag by exact Hs. reflexivity.
    + rewrite qh by (auto; lia). rewrite app_nth1 by (rewrite hl by exact Hs; lia). reflexivity.
  - intros s k Hs Hk. apply qz'; [exact Hs|lia].
  - intros s Hs. rewrite (nth_map_combine _ _ _ s [] []) by lia. cbn [fst snd].
    rewrite app_length, firstn_length, zl by exact Hs. rewrite slice_length by (rewrite ql by exact Hs; lia). lia.
  - intros s m Hs Hm. rewrite (nth_map_combine _ _ _ s [] []) by lia. cbn [fst snd].
    assert (Hfl : length (firstn (N0 - n0) (nth s (ml_Q0 st) [])) = (N0 - n0)%nat)
      by (rewrite firstn_length, zl by exact Hs; lia).
    rewrite app_nth2 by lia. rewrite Hfl, Hsl by (auto; lia).
    rewrite nth_slice by lia. f_equal. lia.
  - intros s Hs. destruct (ml_c1 N0 N1 (S n)) eqn:E.
    + rewrite (nth_map _ _ s [] 0) by lia. rewrite Hsl by (auto; lia). reflexivity.
    + rewrite e1 by exact Hs. unfold ml_c1 in *. apply Nat.leb_gt in E.
      destruct (Nat.leb_spec (N0 + N1) n); [lia|reflexivity].
  - intros s Hs. destruct (ml_c2 N0 N1 N2 (S n)) eqn:E.
    + rewrite (nth_map _ _ s [] 0) by lia. rewrite Hsl by (auto; lia). reflexivity.
    + rewrite e2 by exact Hs. unfold ml_c2 in *. apply Nat.leb_gt in E.
      destruct (Nat.leb_spec (N0 + N1 + N2) n); [lia|reflexivity].
  - intros s Hs. destruct (ml_c3 N0 N1 N2 N3 (S n)) eqn:E.
    + rewrite (nth_map _ _ s [] 0) by lia. rewrite Hsl by (auto; lia). reflexivity.
    + rewrite e3 by exact Hs. unfold ml_c3 in *. apply Nat.leb_gt in E.
      destruct (Nat.leb_spec (N0 + N1 + N2 + N3) n); [lia|reflexivity].
  - intros s Hs Hn4. fold n4 in Hn4 |- *. destruct (Nat.ltb_spec 0 n4); [|lia].
    rewrite (nth_map _ _ s [] 0) by lia. rewrite Hsl by (auto; unfold n4; lia). reflexivity.
Qed.

Lemma ml_inv_set nS N0 N1 N2 N3 Nt n h st st' q : (1 <= N0)%nat ->
  ml_inv nS N0 N1 N2 N3 Nt n h st -> mlaa_set st q = Some st' ->
  ml_inv nS N0 N1 N2 N3 Nt n (fun s => removelast (h s) ++ [nth s q 0]) st'.
Proof.
  intros H0 I H. destruct I as [p0 p1 p2 p3 pt pn ple i0 i1 i2 i3 i4 lq l0 hl ql qh qz' zl zh e1 e2 e3 e4].
  unfold mlaa_set in H. rewrite lq, p0, pn in H.
  destruct (Nat.eqb_spec (length q) nS) as [Eq|]; [|discriminate]. cbn [negb] in H.
  destruct (Nat.eqb_spec n 0) as [|Hn]; [discriminate|].
  destruct (Nat.eqb_spec N0 0) as [|HN0]; [discriminate|].
  assert (Hne : forall s, (s < nS)%nat -> h s <> []).
  { intros s Hs E. specialize (hl s Hs). rewrite E in hl. cbn in hl. lia. }
  assert (Hsl : forall s a b, (s < nS)%nat -> (b < n)%nat ->
            slice a b (h s) = slice a b (removelast (h s) ++ [nth s q 0])).
  { intros s a b Hs Hb. apply slice_ext.
    - rewrite hl by exact Hs. lia.
    - rewrite removelast_snoc_length, hl by auto. lia.
    - intros k Hk. rewrite nth_removelast_snoc by auto. rewrite hl by exact Hs.
      destruct (Nat.eqb_spec k (n - 1)); [lia|reflexivity]. }
  injection H as <-. constructor; mlcbn; try assumption; try lia.
  - rewrite map_length, combine_length. lia.
  - rewrite map_length, combine_length. lia.
  - intros s Hs. rewrite removelast_snoc_length by auto. auto.
  - intros s Hs. rewrite (nth_map_combine _ _ _ s [] 0) by lia. cbn [fst snd]. rewrite upd_length. auto.
  - intros s k Hs Hk. rewrite (nth_map_combine _ _ _ s [] 0) by lia. cbn [fst snd].
    rewrite nth_removelast_snoc by auto. rewrite hl by exact Hs.
    destruct (Nat.eqb_spec k (n - 1)) as [->|Hk'].
    + apply nth_upd_eq. rewrite ql by exact Hs. lia.
    + rewrite nth_upd_neq by lia. apply qh; auto.
  - intros s k Hs Hk. rewrite (nth_map_combine _ _ _ s [] 0) by lia. cbn [fst snd].
    rewrite nth_upd_neq by lia. auto.
  - intros s Hs. rewrite (nth_map_combine _ _ _ s [] 0) by lia. cbn [fst snd]. rewrite upd_length. auto.
  - intros s m Hs Hm. rewrite (nth_map_combine _ _ _ s [] 0) by lia. cbn [fst snd].
    rewrite nth_removelast_snoc by auto. rewrite hl by exact Hs.
    destruct (Nat.eqb_spec (n - m) (n - 1)).
    + assert (m = 1%nat) by lia. subst m. apply nth_upd_eq. rewrite zl by exact Hs. lia.
    + rewrite nth_upd_neq by lia. apply zh; auto.
  - intros s Hs. rewrite e1 by exact Hs. destruct (ml_c1 N0 N1 n) eqn:E; [|reflexivity].
    rewrite (Hsl s) by (auto; lia). reflexivity.
  - intros s Hs. rewrite e2 by exact Hs. destruct (ml_c2 N0 N1 N2 n) eqn:E; [|reflexivity].
    rewrite (Hsl s) by (auto; lia). reflexivity.
  - intros s Hs. rewrite e3 by exact Hs. destruct (ml_c3 N0 N1 N2 N3 n) eqn:E; [|reflexivity].
    rewrite (Hsl s) by (auto; lia). reflexivity.
  - intros s Hs Hn4. rewrite e4 by assumption. rewrite (Hsl s) by (auto; lia). reflexivity.
Qed.

Lemma ml_inv_run nS N0 N1 N2 N3 Nt ops : (1 <= N0)%nat -> forall n h st st',
  ml_inv nS N0 N1 N2 N3 Nt n h st -> mlaa_run st ops = Some st' ->
  ml_inv nS N0 N1 N2 N3 Nt (n + steps ops) (fun s => fold_left (hist_step s) ops (h s)) st'.
Proof.
  intros H0. induction ops as [|o ops IH]; intros n h st st' I H; cbn [mlaa_run] in H.
  - injection H as <-. cbn [steps fold_left]. rewrite Nat.add_0_r. exact I.
  - destruct (mlaa_step st o) as [s1|] eqn:E; [|discriminate].
    destruct o as [|q]; cbn [mlaa_step] in E; cbn [steps fold_left].
    + rewrite Nat.add_succ_r, <- Nat.add_succ_l.
      exact (IH _ _ _ _ (ml_inv_next _ _ _ _ _ _ _ _ _ _ H0 I E) H).
    + exact (IH _ _ _ _ (ml_inv_set _ _ _ _ _ _ _ _ _ _ _ H0 I E) H).
Qed.

(** The superposition of one row. *)
Lemma spr_app g r : forall k tail, r <> [] ->
  spr g k (r ++ tail) = sumn (length r - 1) (fun i => g (k + i)%nat * (nth i r 0 - nth (S i) r 0))
    + g (k + (length r - 1))%nat * (nth (length r - 1) r 0 - hd 0 tail) + spr g (k + length r) tail.
Proof.
  induction r as [|x r IH]; intros k tail H; [congruence|].
  destruct r as [|y r].
  - cbn [app spr length]. change (1 - 1)%nat with O. cbn [sumn nth].
    rewrite Nat.add_0_r. replace (k + 1)%nat with (S k) by lia. lra.
  - change ((x :: y :: r) ++ tail) with (x :: ((y :: r) ++ tail)). cbn [spr].
    rewrite IH by discriminate.
    replace (length (x :: y :: r) - 1)%nat with (S (length r)) by (cbn; lia).
    rewrite sumn_S_l. replace (length (y :: r) - 1)%nat with (length r) by (cbn; lia).
    cbn [hd app]. rewrite Nat.add_0_r.
    rewrite (sumn_ext (length r) (fun i => g (k + S i)%nat * (nth (S i) (x :: y :: r) 0 - nth (S (S i)) (x :: y :: r) 0))
       (fun i => g (S k + i)%nat * (nth i (y :: r) 0 - nth (S i) (y :: r) 0))).
    + cbn [nth]. replace (S k + length r)%nat with (k + S (length r))%nat by lia.
      replace (S k + length (y :: r))%nat with (k + length (x :: y :: r))%nat by (cbn; lia).
      cbn [nth]. lra.
    + intros i Hi. replace (S k + i)%nat with (k + S i)%nat by lia. reflexivity.
Qed.

Lemma spr_repeat g c m : forall k tail,
  spr g k (repeat c (S m) ++ tail) = g (k + m)%nat * (c - hd 0 tail) + spr g (k + S m) tail.
Proof.
  induction m as [|m IH]; intros k tail.
  - cbn. rewrite Nat.add_0_r. replace (k + 1)%nat with (S k) by lia. reflexivity.
  - change (repeat c (S (S m)) ++ tail) with (c :: (repeat c (S m) ++ tail)). cbn [spr].
    rewrite IH. cbn [repeat app hd].
    replace (S k + m)%nat with (k + S m)%nat by lia. replace (S k + S m)%nat with (k + S (S m))%nat by lia. lra.
Qed.

Lemma rev_repeat {A} (x : A) n : rev (repeat x n) = repeat x n.
Proof.
  induction n as [|n IH]; [reflexivity|]. cbn [repeat rev]. rewrite IH.
  clear. induction n as [|n IH]; [reflexivity|]. cbn [repeat app]. rewrite IH. reflexivity.
Qed.
Lemma rev_averaged l : rev (averaged l) = averaged l.
Proof. apply rev_repeat. Qed.

Lemma skipn_add {A} (a b : nat) (l : list A) : skipn a (skipn b l) = skipn (b + a) l.
Proof.
  revert l; induction b as [|b IH]; intros l; [reflexivity|]. destruct l as [|x l]; [destruct a; reflexivity|].
  cbn [skipn plus]. apply IH.
Qed.
Lemma slice_app (a b c : nat) (l : list R) : (a <= b <= c)%nat ->
  slice a b l ++ slice b c l = slice a c l.
Proof.
  intros H. unfold slice.
  assert (E : skipn b l = skipn (b - a) (skipn a l)) by (rewrite skipn_add; f_equal; lia).
  rewrite E. clear E. generalize (skipn a l). intros m.
  replace (c - a)%nat with ((b - a) + (c - b))%nat by lia.
  generalize (b - a)%nat (c - b)%nat. clear. intros p q. revert m.
  induction p as [|p IH]; intros m; [reflexivity|].
  destruct m as [|x m]; [destruct q; reflexivity|].
  cbn [firstn skipn plus app]. rewrite IH. reflexivity.
Qed.
Lemma slice_full (l : list R) : slice 0 (length l) l = l.
Proof. unfold slice. cbn [skipn]. rewrite Nat.sub_0_r. apply firstn_all. Qed.

(** ** Final statement for MLAA *)
Lemma row_formula g (r0 : nat -> R) n0 n1 n2 n3 n4 (R0 B1 B2 B3 B4 : list R) (q1 q2 q3 q4 : R) :
  (1 <= n0)%nat -> length R0 = n0 -> length B1 = n1 -> length B2 = n2 -> length B3 = n3 -> length B4 = n4 ->
  (forall m, (1 <= m <= n0)%nat -> r0 m = nth (n0 - m) R0 0) ->
  ((0 < n1)%nat -> q1 = mean B1) -> (n1 = O -> q1 = 0 /\ n2 = O) ->
  ((0 < n2)%nat -> q2 = mean B2) -> (n2 = O -> q2 = 0 /\ n3 = O) ->
  ((0 < n3)%nat -> q3 = mean B3) -> (n3 = O -> q3 = 0) ->
  ((0 < n4)%nat -> q4 = mean B4) ->
  sumn (n0 - 1) (fun it => g it * (r0 (it + 1)%nat - r0 (it + 2)%nat))
  + g (n0 - 1)%nat * (r0 n0 - q1)
  + g (n0 + n1 - 1)%nat * (q1 - q2)
  + g (n0 + n1 + n2 - 1)%nat * (q2 - q3)
  + g (n0 + n1 + n2 + n3 - 1)%nat * (q3 - q4)
  + g (n0 + n1 + n2 + n3 + n4 - 1)%nat * q4
  = superpose g (averaged B4 ++ averaged B3 ++ averaged B2 ++ averaged B1 ++ R0).
Proof.
  intros Hn0 L0 L1 L2 L3 L4 Hr E1 Z1 E2 Z2 E3 Z3 E4.
  rewrite superpose_spr, !rev_app_distr, !rev_averaged, <- !app_assoc.
  rewrite spr_app by (intro E; apply (f_equal (@length R)) in E; rewrite rev_length in E; cbn in E; lia).
  rewrite rev_length, L0. cbn [plus].
  rewrite (sumn_ext (n0 - 1) _ (fun i => g i * (nth i (rev R0) 0 - nth (S i) (rev R0) 0))).
  2:{ intros i Hi. rewrite !Hr by lia. rewrite !rev_nth by lia. rewrite L0.
      replace (n0 - (i + 1))%nat with (n0 - S i)%nat by lia.
      replace (n0 - (i + 2))%nat with (n0 - S (S i))%nat by lia. reflexivity. }
  rewrite Hr by lia. rewrite (rev_nth R0) by lia. rewrite L0.
  replace (n0 - S (n0 - 1))%nat with (n0 - n0)%nat by lia.
  unfold averaged. rewrite L1, L2, L3, L4.
  set (S0 := sumn (n0 - 1) _). set (r := nth (n0 - n0) R0 0).
  clearbody S0 r.
  destruct n1 as [|m1].
  - destruct (Z1 eq_refl) as (-> & ->). destruct (Z2 eq_refl) as (-> & ->). rewrite (Z3 eq_refl).
    cbn [repeat app]. rewrite !Nat.add_0_r.
    destruct n4 as [|m4].
    + cbn [repeat spr hd]. rewrite Nat.add_0_r. lra.
    + rewrite <- (app_nil_r (repeat (mean B4) (S m4))), spr_repeat, <- E4 by lia.
      cbn [repeat app hd spr].
      replace (n0 + S m4 - 1)%nat with (n0 + m4)%nat by lia. lra.
  - rewrite spr_repeat. cbn [repeat app hd]. rewrite <- (E1 ltac:(lia)).
    replace (n0 + S m1 - 1)%nat with (n0 + m1)%nat by lia.
    destruct n2 as [|m2].
    + destruct (Z2 eq_refl) as (-> & ->). rewrite (Z3 eq_refl).
      cbn [repeat app]. rewrite !Nat.add_0_r.
      replace (n0 + S m1 - 1)%nat with (n0 + m1)%nat by lia.
      destruct n4 as [|m4].
      * cbn [repeat spr hd]. rewrite Nat.add_0_r. replace (n0 + S m1 - 1)%nat with (n0 + m1)%nat by lia. lra.
      * rewrite <- (app_nil_r (repeat (mean B4) (S m4))), spr_repeat, <- E4 by lia.
        cbn [repeat app hd spr].
        replace (n0 + S m1 + S m4 - 1)%nat with (n0 + S m1 + m4)%nat by lia. lra.
    + rewrite spr_repeat. cbn [repeat app hd]. rewrite <- (E2 ltac:(lia)).
      replace (n0 + S m1 + S m2 - 1)%nat with (n0 + S m1 + m2)%nat by lia.
      destruct n3 as [|m3].
      * rewrite (Z3 eq_refl). cbn [repeat app]. rewrite !Nat.add_0_r.
        replace (n0 + S m1 + S m2 - 1)%nat with (n0 + S m1 + m2)%nat by lia.
        destruct n4 as [|m4].
        -- cbn [repeat spr hd]. rewrite Nat.add_0_r.
           replace (n0 + S m1 + S m2 - 1)%nat with (n0 + S m1 + m2)%nat by lia. lra.
        -- rewrite <- (app_nil_r (repeat (mean B4) (S m4))), spr_repeat, <- E4 by lia.
           cbn [repeat app hd spr].
           replace (n0 + S m1 + S m2 + S m4 - 1)%nat with (n0 + S m1 + S m2 + m4)%nat by lia. lra.
      * rewrite spr_repeat. cbn [repeat app hd]. rewrite <- (E3 ltac:(lia)).
        replace (n0 + S m1 + S m2 + S m3 - 1)%nat with (n0 + S m1 + S m2 + m3)%nat by lia.
        destruct n4 as [|m4].
        -- cbn [repeat spr hd]. rewrite Nat.add_0_r.
           replace (n0 + S m1 + S m2 + S m3 - 1)%nat with (n0 + S m1 + S m2 + m3)%nat by lia. lra.
        -- rewrite <- (app_nil_r (repeat (mean B4) (S m4))), spr_repeat, <- E4 by lia.
           cbn [repeat app hd spr].
           replace (n0 + S m1 + S m2 + S m3 + S m4 - 1)%nat with (n0 + S m1 + S m2 + S m3 + m4)%nat by lia. lra.
Qed.

Theorem mlaa_lemma nS Nt N0 N1 N2 N3 ops st :
  (1 <= N0)%nat -> (1 <= N1)%nat -> (1 <= N2)%nat -> (1 <= N3)%nat ->
  mlaa_run (mlaa_init nS Nt N0 N1 N2 N3) ops = Some st -> (1 <= steps ops)%nat ->
  exists B4 B3 B2 B1 R0 : nat -> list R,
    (forall s, (s < nS)%nat ->
       ml_blocks N0 N1 N2 N3 (steps ops) (history s ops) (B4 s) (B3 s) (B2 s) (B1 s) (R0 s))
    /\ forall g i, mlaa_superposition g st i =
         sumn nS (fun s => superpose (g i s)
           (averaged (B4 s) ++ averaged (B3 s) ++ averaged (B2 s) ++ averaged (B1 s) ++ R0 s)).
Proof.
  intros H0 H1 H2 H3 Hrun Hst.
  pose proof (ml_inv_run nS N0 N1 N2 N3 Nt ops H0 _ _ _ _ (ml_inv_init nS N0 N1 N2 N3 Nt H0) Hrun) as I.
  cbn [plus] in I. set (n := steps ops) in *.
  change (fun s => fold_left (hist_step s) ops []) with (fun s => history s ops) in I.
  destruct I as [p0 p1 p2 p3 pt pn ple i0 i1 i2 i3 i4 lq l0 hl ql qh qz' zl zh e1 e2 e3 e4].
  unfold ml_c1, ml_c2, ml_c3 in *.
  assert (Hs1 : ml_n1 st = 0%nat -> ml_n2 st = 0%nat).
  { rewrite i1, i2. destruct (Nat.leb_spec (N0 + N1) n), (Nat.leb_spec (N0 + N1 + N2) n); lia. }
  assert (Hs2 : ml_n2 st = 0%nat -> ml_n3 st = 0%nat).
  { rewrite i3, i2. destruct (Nat.leb_spec (N0 + N1 + N2 + N3) n), (Nat.leb_spec (N0 + N1 + N2) n); lia. }
  assert (Hsum : (ml_n0 st + ml_n1 st + ml_n2 st + ml_n3 st + ml_n4 st = n)%nat).
  { rewrite i4. assert (ml_n0 st + ml_n1 st + ml_n2 st + ml_n3 st <= n)%nat; [|lia].
    rewrite i0, i1, i2, i3.
    destruct (Nat.leb_spec (N0 + N1) n), (Nat.leb_spec (N0 + N1 + N2) n), (Nat.leb_spec (N0 + N1 + N2 + N3) n); lia. }
  set (n0 := ml_n0 st) in *. set (n1 := ml_n1 st) in *. set (n2 := ml_n2 st) in *.
  set (n3 := ml_n3 st) in *. set (n4 := ml_n4 st) in *.
  exists (fun s => slice 0 n4 (history s ops)),
         (fun s => slice n4 (n4 + n3) (history s ops)),
         (fun s => slice (n4 + n3) (n4 + n3 + n2) (history s ops)),
         (fun s => slice (n4 + n3 + n2) (n4 + n3 + n2 + n1) (history s ops)),
         (fun s => slice (n4 + n3 + n2 + n1) n (history s ops)).
  assert (Hhl : forall s, (s < nS)%nat -> length (history s ops) = n) by exact hl.
  split.
  - intros s Hs. unfold ml_blocks. rewrite !slice_length by (rewrite Hhl by exact Hs; lia).
    rewrite <- i0, <- i1, <- i2, <- i3. repeat split; try lia.
    rewrite !slice_app by lia. rewrite <- (Hhl s Hs). symmetry. apply slice_full.
  - intros g i. unfold mlaa_superposition. rewrite lq. fold n0 n1 n2 n3 n4.
    rewrite sumn_swap, <- !sumn_plus. apply sumn_ext. intros s Hs. rewrite p0.
    apply (row_formula (g i s) (fun m => nth (N0 - m) (nth s (ml_Q0 st) []) 0) n0 n1 n2 n3 n4);
      try (rewrite slice_length by (rewrite Hhl by exact Hs; lia); lia); try lia.
    + intros m Hm. rewrite zh by (exact Hs || exact Hm). rewrite nth_slice by lia. f_equal. lia.
    + intros Hp. rewrite e1 by exact Hs. rewrite i1 in Hp.
      destruct (Nat.leb_spec (N0 + N1) n) as [Hc|]; [|lia].
      replace (n - (n0 + n1))%nat with (n4 + n3 + n2)%nat by lia.
      replace (n - n0)%nat with (n4 + n3 + n2 + n1)%nat by lia. reflexivity.
    + intros Hz. split; [|auto]. rewrite e1 by exact Hs. rewrite i1 in Hz.
      destruct (Nat.leb_spec (N0 + N1) n) as [Hc|]; [lia|reflexivity].
    + intros Hp. rewrite e2 by exact Hs. rewrite i2 in Hp.
      destruct (Nat.leb_spec (N0 + N1 + N2) n) as [Hc|]; [|lia].
      replace (n - (n0 + n1 + n2))%nat with (n4 + n3)%nat by lia.
      replace (n - (n0 + n1))%nat with (n4 + n3 + n2)%nat by lia. reflexivity.
    + intros Hz. split; [|auto]. rewrite e2 by exact Hs. rewrite i2 in Hz.
      destruct (Nat.leb_spec (N0 + N1 + N2) n) as [Hc|]; [lia|reflexivity].
    + intros Hp. rewrite e3 by exact Hs. rewrite i3 in Hp.
      destruct (Nat.leb_spec (N0 + N1 + N2 + N3) n) as [Hc|]; [|lia].
      replace (n - (n0 + n1 + n2 + n3))%nat with n4 by lia.
      replace (n - (n0 + n1 + n2))%nat with (n4 + n3)%nat by lia. reflexivity.
    + intros Hz. rewrite e3 by exact Hs. rewrite i3 in Hz.
      destruct (Nat.leb_spec (N0 + N1 + N2 + N3) n) as [Hc|]; [lia|reflexivity].
    + intros Hp. apply e4; assumption.
Qed.

(** Corollaries: averaging keeps the total; short histories are untouched. *)
Lemma Rsum_averaged l : Rsum (averaged l) = Rsum l.
Proof.
  unfold averaged. rewrite Rsum_repeat. destruct l as [|x l]; [simpl; lra|].
  apply mean_mul. cbn. lia.
Qed.

Theorem mlaa_progress_lemma nS Nt N0 N1 N2 N3 ops :
  (1 <= N0)%nat -> starts_with_step ops -> (steps ops <= Nt)%nat ->
  Forall (fun o => match o with Next => True | SetLoad q => length q = nS end) ops ->
  exists st, mlaa_run (mlaa_init nS Nt N0 N1 N2 N3) ops = Some st.
Proof.
  intros H0 Hs Hle HF.
  assert (G : forall ops n h st, ml_inv nS N0 N1 N2 N3 Nt n h st -> ((1 <= n)%nat \/ starts_with_step ops) ->
     (n + steps ops <= Nt)%nat ->
     Forall (fun o => match o with Next => True | SetLoad q => length q = nS end) ops ->
     exists st', mlaa_run st ops = Some st').
  { clear ops Hs Hle HF. intros ops. induction ops as [|o ops IH]; intros n h st I Hs Hn HF; [eexists; reflexivity|].
    cbn [mlaa_run]. pose proof (Forall_inv HF) as Ho. pose proof (Forall_inv_tail HF) as HF'. cbn beta in Ho.
    destruct o as [|q]; cbn [mlaa_step steps] in *.
    - destruct (mlaa_next st) as [s1|] eqn:E.
      + eapply IH; [eapply ml_inv_next; eassumption|left; lia|lia|exact HF'].
      + unfold mlaa_next in E. rewrite (mi_pt _ _ _ _ _ _ _ _ _ I), (mi_nt _ _ _ _ _ _ _ _ _ I) in E.
        destruct (Nat.ltb_spec Nt (S n)); [lia|discriminate].
    - destruct Hs as [Hs|Hs]; [|contradiction].
      destruct (mlaa_set st q) as [s1|] eqn:E.
      + eapply IH; [eapply ml_inv_set; eassumption|left; lia|lia|exact HF'].
      + unfold mlaa_set in E. rewrite (mi_lq _ _ _ _ _ _ _ _ _ I), (mi_nt _ _ _ _ _ _ _ _ _ I),
          (mi_p0 _ _ _ _ _ _ _ _ _ I) in E.
        destruct (Nat.eqb_spec (length q) nS); [|lia]. cbn [negb] in E.
        destruct (Nat.eqb_spec n 0); [lia|]. destruct (Nat.eqb_spec N0 0); [lia|discriminate]. }
  eapply (G ops 0%nat); [apply ml_inv_init; exact H0|right; exact Hs|cbn; lia|exact HF].
Qed.

(** With response factors growing by one per step, superposition counts the
    total load. *)
Lemma superpose_ramp h : superpose (fun k => INR (S k)) h = Rsum h.
Proof.
  rewrite superpose_spr, <- (Rsum_rev h). generalize (rev h). clear h. intros l.
  assert (G : forall k, spr (fun k => INR (S k)) k l = Rsum l + INR k * hd 0 l).
  { induction l as [|x l IH]; intros k; [cbn; lra|].
    cbn [spr Rsum hd]. rewrite IH, !S_INR. lra. }
  rewrite G. cbn [INR]. lra.
Qed.

Theorem mlaa_total_lemma nS Nt N0 N1 N2 N3 ops st i :
  (1 <= N0)%nat -> (1 <= N1)%nat -> (1 <= N2)%nat -> (1 <= N3)%nat ->
  mlaa_run (mlaa_init nS Nt N0 N1 N2 N3) ops = Some st -> (1 <= steps ops)%nat ->
  mlaa_superposition (fun _ _ k => INR (S k)) st i = sumn nS (fun s => Rsum (history s ops)).
Proof.
  intros H0 H1 H2 H3 Hr Hs.
  destruct (mlaa_lemma nS Nt N0 N1 N2 N3 ops st H0 H1 H2 H3 Hr Hs) as (B4 & B3 & B2 & B1 & R0 & HB & HS).
  rewrite HS. apply sumn_ext. intros s Hs'. rewrite superpose_ramp.
  destruct (HB s Hs') as (E & _). rewrite E, !Rsum_app, !Rsum_averaged. reflexivity.
Qed.

Theorem mlaa_exact_lemma nS Nt N0 N1 N2 N3 ops st g i :
  (1 <= N0)%nat -> (1 <= N1)%nat -> (1 <= N2)%nat -> (1 <= N3)%nat ->
  mlaa_run (mlaa_init nS Nt N0 N1 N2 N3) ops = Some st -> starts_with_step ops ->
  (1 <= steps ops <= N0)%nat ->
  mlaa_superposition g st i = sumn nS (fun s => superpose (g i s) (history s ops)).
Proof.
  intros H0 H1 H2 H3 Hr Hss Hs.
  destruct (mlaa_lemma nS Nt N0 N1 N2 N3 ops st H0 H1 H2 H3 Hr) as (B4 & B3 & B2 & B1 & R0 & HB & HS); [lia|].
  rewrite HS. apply sumn_ext. intros s Hs'.
  destruct (HB s Hs') as (E & L0 & L1 & L2 & L3).
  destruct (Nat.leb_spec (N0 + N1) (steps ops)); [lia|].
  destruct (Nat.leb_spec (N0 + N1 + N2) (steps ops)); [lia|].
  destruct (Nat.leb_spec (N0 + N1 + N2 + N3) (steps ops)); [lia|].
  apply length_zero_iff_nil in L1, L2, L3.
  assert (L4 : B4 s = []).
  { pose proof (history_length s ops Hss) as HL. rewrite E, !app_length, L1, L2, L3 in HL. cbn in HL.
    destruct (B4 s); [reflexivity|]. cbn [length] in HL. lia. }
  rewrite E, L1, L2, L3, L4. reflexivity.
Qed.
