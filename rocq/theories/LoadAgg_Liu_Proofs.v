(** Lemmas about Liu's hierarchical load aggregation. *)
From Verif Require Import Base LoadAgg_Model LoadAgg_Spec LoadAgg_CJ_Proofs LoadAgg_MLAA_Proofs.
Local Arguments Nat.sub : simpl never.

Ltac licbn := cbn [li_N1 li_N2 li_N3 li_W1 li_W2 li_W3 li_Nt li_nt li_n0 li_n1 li_n2 li_n3 li_Q0 li_Q1 li_Q2 li_Q3].

(** * The shift loop *)
Lemma shift_aux m : forall row, (m < length row)%nat ->
  length (fold_left (fun r i => upd r i (nth (i - 1) r 0)) (rev (seq 1 m)) row) = length row
  /\ forall k, nth k (fold_left (fun r i => upd r i (nth (i - 1) r 0)) (rev (seq 1 m)) row) 0
     = if ((1 <=? k) && (k <=? m))%nat then nth (k - 1) row 0 else nth k row 0.
Proof.
  induction m as [|m IH]; intros row Hm.
  - cbn [seq rev fold_left]. split; [reflexivity|]. intros k.
    destruct (Nat.leb_spec 1 k), (Nat.leb_spec k 0); cbn [andb]; try lia; reflexivity.
  - rewrite seq_S, rev_app_distr. cbn [rev app fold_left].
    replace (1 + m)%nat with (S m) by lia. replace (S m - 1)%nat with m by lia.
    destruct (IH (upd row (S m) (nth m row 0))) as (IL & IN); [rewrite upd_length; lia|].
    rewrite upd_length in IL. split; [exact IL|]. intros k. rewrite IN.
    destruct (Nat.leb_spec 1 k), (Nat.leb_spec k m), (Nat.leb_spec k (S m)); cbn [andb]; try lia.
    + apply nth_upd_neq. lia.
    + assert (k = S m) by lia. subst k. replace (S m - 1)%nat with m by lia. apply nth_upd_eq. lia.
    + apply nth_upd_neq. lia.
    + apply nth_upd_neq. lia.
Qed.

Lemma shift_length n row : (n <= length row)%nat -> (1 <= n)%nat -> length (liu_shift n row) = length row.
Proof. intros H H1. apply shift_aux. lia. Qed.

Lemma nth_push n row v k : (1 <= n <= length row)%nat -> (k < n)%nat ->
  nth k (liu_push n row v) 0 = match k with O => v | S j => nth j row 0 end.
Proof.
  intros Hn Hk. unfold liu_push.
  destruct k as [|k].
  - apply nth_upd_eq. rewrite shift_length by lia. lia.
  - rewrite nth_upd_neq by lia. unfold liu_shift.
    destruct (shift_aux (n - 1) row) as (_ & IN); [lia|]. rewrite IN.
    destruct (Nat.leb_spec 1 (S k)), (Nat.leb_spec (S k) (n - 1)); cbn [andb]; try lia.
    f_equal. lia.
Qed.
Lemma push_length n row v : (1 <= n <= length row)%nat -> length (liu_push n row v) = length row.
Proof. intros H. unfold liu_push. rewrite upd_length. apply shift_length; lia. Qed.

(** * Levels *)
Record lev (n : nat) (row : list R) (bs : list (list R)) (N : nat) : Prop := {
  lv_len : length bs = n;
  lv_sz : Forall (fun b => length b = N) bs;
  lv_val : forall k, (k < n)%nat -> nth k row 0 = mean (nth k bs []);
  lv_zero : n = O -> forall k, nth k row 0 = 0 }.

Lemma mean_concat bs N : (1 <= N)%nat -> Forall (fun b => length b = N) bs ->
  mean (concat bs) = mean (map mean bs).
Proof.
  intros HN HF. unfold mean at 1 2. rewrite map_length.
  assert (HL : length (concat bs) = (N * length bs)%nat).
  { induction HF as [|b bs Hb HF IH]; [cbn; lia|]. cbn [concat length]. rewrite app_length, IH. lia. }
  assert (HS : Rsum (concat bs) = INR N * Rsum (map mean bs)).
  { clear HL. induction HF as [|b bs Hb HF IH]; [cbn; lra|].
    cbn [concat map Rsum]. rewrite Rsum_app, IH, <- (mean_mul b) by lia. rewrite Hb. lra. }
  rewrite HL, HS, mult_INR.
  destruct bs as [|b bs]; [cbn; unfold Rdiv; lra|].
  assert (INR N <> 0) by (apply not_0_INR; lia).
  assert (INR (length (b :: bs)) <> 0) by (apply not_0_INR; cbn; lia).
  field; auto.
Qed.

Lemma Forall_skipn {A} (P : A -> Prop) n l : Forall P l -> Forall P (skipn n l).
Proof. revert l; induction n as [|n IH]; intros l H; [exact H|]. destruct H; cbn; auto. Qed.
Lemma Forall_firstn {A} (P : A -> Prop) n l : Forall P l -> Forall P (firstn n l).
Proof. revert l; induction n as [|n IH]; intros l H; cbn; [constructor|]. destruct H; constructor; auto. Qed.

Lemma oldest_mean n row bs Nf N : (1 <= Nf)%nat -> lev n row bs Nf -> (N <= n)%nat -> (n <= length row)%nat ->
  liu_oldest N n row = mean (concat (skipn (n - N) bs)).
Proof.
  intros HNf [Hl Hs Hv Hz] HN Hr. unfold liu_oldest.
  rewrite (mean_concat _ Nf HNf) by (apply Forall_skipn; exact Hs).
  f_equal. apply (list_eq_nth 0).
  - rewrite slice_length by lia. rewrite map_length, skipn_length. lia.
  - intros i Hi. rewrite slice_length in Hi by lia. rewrite nth_slice by lia.
    rewrite (nth_map mean _ i [] 0) by (rewrite skipn_length; lia).
    rewrite nth_skipn. apply Hv. lia.
Qed.

Lemma lev_split n row bs Nf N : lev n row bs Nf -> (N < n)%nat -> lev (n - N) row (firstn (n - N) bs) Nf.
Proof.
  intros [Hl Hs Hv Hz] HN. constructor.
  - rewrite firstn_length. lia.
  - apply Forall_firstn. exact Hs.
  - intros k Hk. rewrite nth_firstn by exact Hk. apply Hv. lia.
  - lia.
Qed.

Lemma concat_length_const (bs : list (list R)) N : Forall (fun b => length b = N) bs ->
  length (concat bs) = (length bs * N)%nat.
Proof. induction 1 as [|b bs Hb HF IH]; [reflexivity|]. cbn [concat length]. rewrite app_length, IH. lia. Qed.

Lemma lev_push n row bs Nf n' row' bs' N :
  (1 <= Nf)%nat -> lev n row bs Nf -> (N <= n)%nat -> (n <= length row)%nat ->
  lev n' row' bs' (N * Nf) -> (S n' <= length row')%nat ->
  lev (S n') (liu_push (S n') row' (liu_oldest N n row)) (concat (skipn (n - N) bs) :: bs') (N * Nf).
Proof.
  intros HNf L1 HN Hr [Hl Hs Hv Hz] Hr'. constructor.
  - cbn. lia.
  - constructor; [|exact Hs]. rewrite (concat_length_const _ Nf).
    + rewrite skipn_length, (lv_len _ _ _ _ L1). f_equal. lia.
    + apply Forall_skipn. apply (lv_sz _ _ _ _ L1).
  - intros k Hk. rewrite nth_push by lia. destruct k as [|k]; cbn [nth].
    + apply (oldest_mean _ _ _ Nf); assumption.
    + apply Hv. lia.
  - discriminate.
Qed.

Lemma split_concat {A} n (bs : list (list A)) : concat (firstn n bs) ++ concat (skipn n bs) = concat bs.
Proof. rewrite <- concat_app, firstn_skipn. reflexivity. Qed.

(** * Invariant of one source *)
Record lrow (st : liu) (s : nat) (rh : list R) (R0 : list R) (Ss Ms Ls : list (list R)) : Prop := {
  lr_h : rh = R0 ++ concat Ss ++ concat Ms ++ concat Ls;
  lr_0 : lev (li_n0 st) (nth s (li_Q0 st) []) (map (fun x => [x]) R0) 1;
  lr_1 : lev (li_n1 st) (nth s (li_Q1 st) []) Ss (li_N1 st * 1);
  lr_2 : lev (li_n2 st) (nth s (li_Q2 st) []) Ms (li_N2 st * (li_N1 st * 1));
  lr_3 : lev (li_n3 st) (nth s (li_Q3 st) []) Ls (li_N3 st * (li_N2 st * (li_N1 st * 1)));
  lr_l0 : length (nth s (li_Q0 st) []) = (li_N1 st + li_W1 st)%nat;
  lr_l1 : length (nth s (li_Q1 st) []) = (li_N2 st + li_W2 st)%nat;
  lr_l2 : length (nth s (li_Q2 st) []) = (li_N3 st + li_W3 st)%nat;
  lr_l3 : length (nth s (li_Q3 st) []) = ceil_div (li_Nt st) (li_N1 st * li_N2 st * li_N3 st) }.

Record linv (nS Nt N1 N2 N3 W1 W2 W3 n : nat) (h : nat -> list R) (st : liu) : Prop := {
  ii_N1 : li_N1 st = N1; ii_N2 : li_N2 st = N2; ii_N3 : li_N3 st = N3;
  ii_W1 : li_W1 st = W1; ii_W2 : li_W2 st = W2; ii_W3 : li_W3 st = W3; ii_Nt : li_Nt st = Nt;
  ii_0 : length (li_Q0 st) = nS; ii_1 : length (li_Q1 st) = nS;
  ii_2 : length (li_Q2 st) = nS; ii_3 : length (li_Q3 st) = nS;
  ii_b0 : (li_n0 st < N1 + W1)%nat; ii_b1 : (li_n1 st < N2 + W2)%nat; ii_b2 : (li_n2 st < N3 + W3)%nat;
  ii_b3 : (li_n3 st <= ceil_div Nt (N1 * N2 * N3))%nat;
  ii_w0 : li_n1 st = O /\ li_n2 st = O /\ li_n3 st = O \/ (W1 <= li_n0 st)%nat;
  ii_w1 : li_n2 st = O /\ li_n3 st = O \/ (W2 <= li_n1 st)%nat;
  ii_w2 : li_n3 st = O \/ (W3 <= li_n2 st)%nat;
  ii_p : (1 <= n)%nat -> (1 <= li_n0 st)%nat;
  ii_tot : n = (li_n0 st + li_n1 st * N1 + li_n2 st * (N2 * N1) + li_n3 st * (N3 * (N2 * N1)))%nat;
  ii_row : forall s, (s < nS)%nat -> exists R0 Ss Ms Ls, lrow st s (rev (h s)) R0 Ss Ms Ls }.

Lemma lev_empty m N : lev 0 (repeat 0 m) [] N.
Proof. constructor; [reflexivity|constructor|lia|intros _ k; apply nth_repeat0]. Qed.

Lemma linv_init nS Nt N1 N2 N3 W1 W2 W3 : (1 <= N1)%nat -> (1 <= N2)%nat -> (1 <= N3)%nat ->
  linv nS Nt N1 N2 N3 W1 W2 W3 0 (fun _ => []) (liu_init nS Nt N1 N2 N3 W1 W2 W3).
Proof.
  intros H1 H2 H3. unfold liu_init. constructor; licbn; try reflexivity; try apply repeat_length; try lia.
  intros s Hs. exists [], [], [], []. constructor; licbn; try rewrite nth_repeat_in by exact Hs;
    try apply repeat_length; try apply lev_empty. reflexivity.
Qed.

(** Next, level 0. *)
Lemma lev0_cons n row R0 : (S n <= length row)%nat -> lev n row (map (fun x => [x]) R0) 1 ->
  lev (S n) (upd (liu_shift (S n) row) 0 0) (map (fun x => [x]) (0 :: R0)) 1.
Proof.
  intros Hr [Hl Hs Hv Hz]. constructor.
  - cbn in *. lia.
  - constructor; [reflexivity|exact Hs].
  - intros k Hk. change (upd (liu_shift (S n) row) 0 0) with (liu_push (S n) row 0).
    rewrite nth_push by lia. destruct k as [|k]; cbn [map nth].
    + unfold mean. cbn. lra.
    + apply Hv. lia.
  - discriminate.
Qed.

Lemma concat_singletons (l : list R) : concat (map (fun x => [x]) l) = l.
Proof. induction l as [|x l IH]; [reflexivity|]. cbn. rewrite IH. reflexivity. Qed.
Lemma map_firstn' {A B} (f : A -> B) n l : map f (firstn n l) = firstn n (map f l).
Proof. revert l; induction n as [|n IH]; intros [|x l]; cbn; auto. rewrite IH. reflexivity. Qed.
Lemma map_skipn' {A B} (f : A -> B) n l : map f (skipn n l) = skipn n (map f l).
Proof. revert l; induction n as [|n IH]; intros [|x l]; cbn; auto. Qed.

Lemma linv_next nS Nt N1 N2 N3 W1 W2 W3 n h st st' :
  (1 <= N1)%nat -> (1 <= N2)%nat -> (1 <= N3)%nat -> (1 <= W1)%nat -> (1 <= W2)%nat -> (1 <= W3)%nat ->
  linv nS Nt N1 N2 N3 W1 W2 W3 n h st -> liu_next st = Some st' ->
  linv nS Nt N1 N2 N3 W1 W2 W3 (S n) (fun s => h s ++ [0]) st'.
Proof.
  intros P1 P2 P3 V1 V2 V3 I H.
  destruct I as [e1 e2 e3 f1 f2 f3 et l0 l1 l2 l3 b0 b1 b2 b3 w0 w1 w2 ip tot rows].
  unfold liu_next in H. rewrite e1, e2, e3, f1, f2, f3, et in H.
  destruct (Nat.ltb_spec (N1 + W1) (S (li_n0 st))) as [|H0]; [discriminate|].
  set (Q0 := map (fun r => upd (liu_shift (S (li_n0 st)) r) 0 0) (li_Q0 st)) in *.
  assert (LQ0 : length Q0 = nS) by (unfold Q0; rewrite map_length; exact l0).
  assert (Q0row : forall s, (s < nS)%nat -> nth s Q0 [] = liu_push (S (li_n0 st)) (nth s (li_Q0 st) []) 0).
  { intros s Hs. unfold Q0. rewrite (nth_map _ _ s [] []) by lia. reflexivity. }
  assert (Rv : forall s, rev (h s ++ [0]) = 0 :: rev (h s)) by (intros; rewrite rev_app_distr; reflexivity).
  destruct (Nat.leb_spec (N1 + W1) (S (li_n0 st))) as [Hc0|Hc0].
  2:{ (* no aggregation *)
    injection H as <-. constructor; licbn; try assumption; try lia.
    intros s Hs. destruct (rows s Hs) as (R0 & Ss & Ms & Ls & [rh r0 r1 r2 r3 q0 q1 q2 q3]).
    rewrite e1, e2, e3, f1, f2, f3, et in *.
    exists (0 :: R0), Ss, Ms, Ls. constructor; licbn; try assumption.
    - rewrite Rv, rh. reflexivity.
    - rewrite Q0row by exact Hs. apply lev0_cons; [lia|exact r0].
    - rewrite Q0row by exact Hs. rewrite push_length; lia. }
  assert (E0 : S (li_n0 st) = (N1 + W1)%nat) by lia.
  destruct (Nat.ltb_spec (N2 + W2) (S (li_n1 st))) as [|H1]; [discriminate|].
  set (Q1 := map (fun p => liu_push (S (li_n1 st)) (fst p) (liu_oldest N1 (S (li_n0 st)) (snd p)))
                 (combine (li_Q1 st) Q0)) in *.
  assert (LQ1 : length Q1 = nS) by (unfold Q1; rewrite map_length, combine_length; lia).
  assert (Q1row : forall s, (s < nS)%nat -> nth s Q1 [] =
     liu_push (S (li_n1 st)) (nth s (li_Q1 st) []) (liu_oldest N1 (S (li_n0 st)) (nth s Q0 []))).
  { intros s Hs. unfold Q1. rewrite (nth_map_combine _ _ _ s [] []) by lia. reflexivity. }
  (* the state of one row after the first hand-over *)
  assert (A1 : forall s, (s < nS)%nat -> exists R0 Ss Ms Ls,
     0 :: rev (h s) = R0 ++ concat Ss ++ concat Ms ++ concat Ls
     /\ lev (S (li_n0 st) - N1) (nth s Q0 []) (map (fun x => [x]) R0) 1
     /\ lev (S (li_n1 st)) (nth s Q1 []) Ss (N1 * 1)
     /\ lev (li_n2 st) (nth s (li_Q2 st) []) Ms (N2 * (N1 * 1))
     /\ lev (li_n3 st) (nth s (li_Q3 st) []) Ls (N3 * (N2 * (N1 * 1)))
     /\ length (nth s Q0 []) = (N1 + W1)%nat /\ length (nth s Q1 []) = (N2 + W2)%nat
     /\ length (nth s (li_Q2 st) []) = (N3 + W3)%nat
     /\ length (nth s (li_Q3 st) []) = ceil_div Nt (N1 * N2 * N3)).
  { intros s Hs. destruct (rows s Hs) as (R0 & Ss & Ms & Ls & [rh r0 r1 r2 r3 q0 q1 q2 q3]).
    rewrite e1, e2, e3, f1, f2, f3, et in *.
    assert (L0 : lev (S (li_n0 st)) (nth s Q0 []) (map (fun x => [x]) (0 :: R0)) 1)
      by (rewrite Q0row by exact Hs; apply lev0_cons; [lia|exact r0]).
    assert (LL : length (nth s Q0 []) = (N1 + W1)%nat) by (rewrite Q0row by exact Hs; rewrite push_length; lia).
    set (m := (S (li_n0 st) - N1)%nat).
    exists (firstn m (0 :: R0)), (skipn m (0 :: R0) :: Ss), Ms, Ls.
    repeat match goal with |- _ /\ _ => split end; try assumption.
    - rewrite rh. cbn [concat]. rewrite <- !app_assoc, (app_assoc (firstn m (0 :: R0))), firstn_skipn. reflexivity.
    - rewrite map_firstn'. apply lev_split; [exact L0|lia].
    - rewrite Q1row by exact Hs.
      rewrite <- (concat_singletons (skipn m (0 :: R0))), map_skipn'.
      apply lev_push; try assumption; try lia.
    - rewrite Q1row by exact Hs. rewrite push_length; lia. }
  clear rows.
  destruct (Nat.leb_spec (N2 + W2) (S (li_n1 st))) as [Hc1|Hc1].
  2:{ injection H as <-. constructor; licbn; try assumption; try lia; try nia.
    intros s Hs. destruct (A1 s Hs) as (R0 & Ss & Ms & Ls & a1 & a2 & a3 & a4 & a5 & a6 & a7 & a8 & a9).
    exists R0, Ss, Ms, Ls. constructor; licbn; rewrite ?Rv, ?e1, ?e2, ?e3, ?f1, ?f2, ?f3, ?et; try assumption. }
  assert (E1 : S (li_n1 st) = (N2 + W2)%nat) by lia.
  destruct (Nat.ltb_spec (N3 + W3) (S (li_n2 st))) as [|H2]; [discriminate|].
  set (Q2 := map (fun p => liu_push (S (li_n2 st)) (fst p) (liu_oldest N2 (S (li_n1 st)) (snd p)))
                 (combine (li_Q2 st) Q1)) in *.
  assert (LQ2 : length Q2 = nS) by (unfold Q2; rewrite map_length, combine_length; lia).
  assert (Q2row : forall s, (s < nS)%nat -> nth s Q2 [] =
     liu_push (S (li_n2 st)) (nth s (li_Q2 st) []) (liu_oldest N2 (S (li_n1 st)) (nth s Q1 []))).
  { intros s Hs. unfold Q2. rewrite (nth_map_combine _ _ _ s [] []) by lia. reflexivity. }
  assert (A2 : forall s, (s < nS)%nat -> exists R0 Ss Ms Ls,
     0 :: rev (h s) = R0 ++ concat Ss ++ concat Ms ++ concat Ls
     /\ lev (S (li_n0 st) - N1) (nth s Q0 []) (map (fun x => [x]) R0) 1
     /\ lev (S (li_n1 st) - N2) (nth s Q1 []) Ss (N1 * 1)
     /\ lev (S (li_n2 st)) (nth s Q2 []) Ms (N2 * (N1 * 1))
     /\ lev (li_n3 st) (nth s (li_Q3 st) []) Ls (N3 * (N2 * (N1 * 1)))
     /\ length (nth s Q0 []) = (N1 + W1)%nat /\ length (nth s Q1 []) = (N2 + W2)%nat
     /\ length (nth s Q2 []) = (N3 + W3)%nat
     /\ length (nth s (li_Q3 st) []) = ceil_div Nt (N1 * N2 * N3)).
  { intros s Hs. destruct (A1 s Hs) as (R0 & Ss & Ms & Ls & a1 & a2 & a3 & a4 & a5 & a6 & a7 & a8 & a9).
    set (m := (S (li_n1 st) - N2)%nat).
    exists R0, (firstn m Ss), (concat (skipn m Ss) :: Ms), Ls.
    repeat match goal with |- _ /\ _ => split end; try assumption.
    - rewrite a1. cbn [concat]. rewrite <- (split_concat m Ss), <- !app_assoc. reflexivity.
    - apply lev_split; [exact a3|lia].
    - rewrite Q2row by exact Hs. apply lev_push; try assumption; lia.
    - rewrite Q2row by exact Hs. rewrite push_length; lia. }
  clear A1.
  destruct (Nat.leb_spec (N3 + W3) (S (li_n2 st))) as [Hc2|Hc2].
  2:{ injection H as <-. constructor; licbn; try assumption; try lia; try nia.
    intros s Hs. destruct (A2 s Hs) as (R0 & Ss & Ms & Ls & a1 & a2 & a3 & a4 & a5 & a6 & a7 & a8 & a9).
    exists R0, Ss, Ms, Ls. constructor; licbn; rewrite ?Rv, ?e1, ?e2, ?e3, ?f1, ?f2, ?f3, ?et; try assumption. }
  assert (E2 : S (li_n2 st) = (N3 + W3)%nat) by lia.
  destruct (Nat.ltb_spec (ceil_div Nt (N1 * N2 * N3)) (S (li_n3 st))) as [|H3]; [discriminate|].
  set (Q3 := map (fun p => liu_push (S (li_n3 st)) (fst p) (liu_oldest N3 (S (li_n2 st)) (snd p)))
                 (combine (li_Q3 st) Q2)) in *.
  assert (LQ3 : length Q3 = nS) by (unfold Q3; rewrite map_length, combine_length; lia).
  assert (Q3row : forall s, (s < nS)%nat -> nth s Q3 [] =
     liu_push (S (li_n3 st)) (nth s (li_Q3 st) []) (liu_oldest N3 (S (li_n2 st)) (nth s Q2 []))).
  { intros s Hs. unfold Q3. rewrite (nth_map_combine _ _ _ s [] []) by lia. reflexivity. }
  injection H as <-. constructor; licbn; try assumption; try lia; try nia.
  intros s Hs. destruct (A2 s Hs) as (R0 & Ss & Ms & Ls & a1 & a2 & a3 & a4 & a5 & a6 & a7 & a8 & a9).
  set (m := (S (li_n2 st) - N3)%nat).
  exists R0, Ss, (firstn m Ms), (concat (skipn m Ms) :: Ls).
  constructor; licbn; rewrite ?Rv, ?e1, ?e2, ?e3, ?f1, ?f2, ?f3, ?et; try assumption.
  - rewrite a1. cbn [concat]. rewrite <- (split_concat m Ms), <- !app_assoc. reflexivity.
  - apply lev_split; [exact a4|lia].
  - rewrite Q3row by exact Hs. apply lev_push; try assumption; try lia.
  - rewrite Q3row by exact Hs. rewrite push_length; lia.
Qed.

Lemma linv_set nS Nt N1 N2 N3 W1 W2 W3 n h st st' q :
  (1 <= n)%nat -> (1 <= N1)%nat ->
  linv nS Nt N1 N2 N3 W1 W2 W3 n h st -> liu_set st q = Some st' ->
  linv nS Nt N1 N2 N3 W1 W2 W3 n (fun s => removelast (h s) ++ [nth s q 0]) st'.
Proof.
  intros Hn P1 I H.
  destruct I as [e1 e2 e3 f1 f2 f3 et l0 l1 l2 l3 b0 b1 b2 b3 w0 w1 w2 ip tot rows].
  unfold liu_set in H. rewrite l0 in H.
  destruct (Nat.eqb_spec (length q) nS) as [Eq|]; [|discriminate]. cbn [negb] in H.
  injection H as <-. constructor; licbn; try assumption.
  - rewrite map_length, combine_length. lia.
  - intros s Hs. destruct (rows s Hs) as (R0 & Ss & Ms & Ls & [rh r0 r1 r2 r3 q0 q1 q2 q3]).
    destruct r0 as [Hl Hsz Hv Hz]. rewrite map_length in Hl.
    destruct R0 as [|x R0]; [cbn in Hl; specialize (ip Hn); lia|].
    exists (nth s q 0 :: R0), Ss, Ms, Ls. constructor; licbn; try assumption.
    + rewrite rev_app_distr, rev_removelast, rh. reflexivity.
    + rewrite (nth_map_combine _ _ _ s [] 0) by lia. cbn [fst snd]. constructor.
      * cbn in *. rewrite map_length. lia.
      * constructor; [reflexivity|]. inversion Hsz; assumption.
      * intros [|k] Hk; cbn [map nth].
        -- rewrite nth_upd_eq by lia. unfold mean. cbn. lra.
        -- rewrite nth_upd_neq by lia. apply (Hv (S k) Hk).
      * intros Hz'. specialize (ip Hn). lia.
    + rewrite (nth_map_combine _ _ _ s [] 0) by lia. cbn [fst snd]. rewrite upd_length. exact q0.
Qed.

Lemma linv_run nS Nt N1 N2 N3 W1 W2 W3 ops :
  (1 <= N1)%nat -> (1 <= N2)%nat -> (1 <= N3)%nat -> (1 <= W1)%nat -> (1 <= W2)%nat -> (1 <= W3)%nat ->
  forall n h st st', ((1 <= n)%nat \/ starts_with_step ops) ->
  linv nS Nt N1 N2 N3 W1 W2 W3 n h st -> liu_run st ops = Some st' ->
  linv nS Nt N1 N2 N3 W1 W2 W3 (n + steps ops) (fun s => fold_left (hist_step s) ops (h s)) st'.
Proof.
  intros P1 P2 P3 V1 V2 V3. induction ops as [|o ops IH]; intros n h st st' Hs I H; cbn [liu_run] in H.
  - injection H as <-. cbn [steps fold_left]. rewrite Nat.add_0_r. exact I.
  - destruct (liu_step st o) as [s1|] eqn:E; [|discriminate].
    destruct o as [|q]; cbn [liu_step] in E; cbn [steps fold_left].
    + rewrite Nat.add_succ_r, <- Nat.add_succ_l.
      eapply IH; [left; lia| |exact H]. eapply linv_next; eassumption.
    + destruct Hs as [Hs|Hs]; [|contradiction]. eapply IH; [left; exact Hs| |exact H].
      exact (linv_set _ _ _ _ _ _ _ _ _ _ _ _ _ Hs P1 I E).
Qed.

(** * The superposition sum *)
Lemma spr_blocks g N : (1 <= N)%nat -> forall bs k tail, bs <> [] -> Forall (fun b => length b = N) bs ->
  spr g k (concat (map averaged bs) ++ tail)
  = sumn (length bs - 1) (fun t => g (k + (t + 1) * N - 1)%nat * (mean (nth t bs []) - mean (nth (S t) bs [])))
    + g (k + length bs * N - 1)%nat * (mean (nth (length bs - 1) bs []) - hd 0 tail)
    + spr g (k + length bs * N) tail.
Proof.
  intros HN. destruct N as [|m]; [lia|].
  induction bs as [|b bs IH]; intros k tail Hne HF; [congruence|].
  pose proof (Forall_inv HF) as Hb. pose proof (Forall_inv_tail HF) as HF'. cbn beta in Hb.
  cbn [map concat]. rewrite <- app_assoc.
  unfold averaged at 1. 
  rewrite Hb, spr_repeat.
  destruct bs as [|b' bs].
  - cbn [map concat app length]. change (1 - 1)%nat with O. cbn [sumn nth].
    rewrite !Nat.mul_1_l. replace (k + S m - 1)%nat with (k + m)%nat by lia. lra.
  - rewrite IH by (discriminate || assumption).
    replace (length (b :: b' :: bs) - 1)%nat with (S (length bs)) by (cbn; lia).
    replace (length (b' :: bs) - 1)%nat with (length bs) by (cbn; lia).
    rewrite sumn_S_l.
    replace (k + (0 + 1) * S m - 1)%nat with (k + m)%nat by lia.
    replace (k + S m + length (b' :: bs) * S m)%nat with (k + length (b :: b' :: bs) * S m)%nat
      by (cbn [length]; lia).
    rewrite (sumn_ext (length bs)
       (fun i => g (k + (S i + 1) * S m - 1)%nat * (mean (nth (S i) (b :: b' :: bs) []) - mean (nth (S (S i)) (b :: b' :: bs) [])))
       (fun t => g (k + S m + (t + 1) * S m - 1)%nat * (mean (nth t (b' :: bs) []) - mean (nth (S t) (b' :: bs) [])))).
    2:{ intros i Hi. cbn [nth].
        replace (k + (S i + 1) * S m - 1)%nat with (k + S m + (i + 1) * S m - 1)%nat by lia. reflexivity. }
    assert (Hhd : hd 0 (concat (map averaged (b' :: bs)) ++ tail) = mean b').
    { pose proof (Forall_inv HF') as Hx. cbn beta in Hx. cbn [map concat]. unfold averaged at 1.
      rewrite Hx. reflexivity. }
    rewrite Hhd. cbn [nth]. lra.
Qed.

Lemma pyget_in l k : (k < length l)%nat -> pyget l (Z.of_nat k) = Some (nth k l 0).
Proof.
  intros H. unfold pyget. destruct (Z.ltb_spec (Z.of_nat k) 0); [lia|].
  rewrite Nat2Z.id. apply nth_error_nth'. exact H.
Qed.
Lemma pyget_zero l i : (forall k, nth k l 0 = 0) -> match pyget l i with Some v => v | None => 0 end = 0.
Proof.
  intros H.
  assert (Hn : forall k, match nth_error l k with Some v => v | None => 0 end = 0).
  { intros k. destruct (nth_error l k) as [v|] eqn:E; [|reflexivity].
    rewrite <- (H k). symmetry. apply nth_error_nth. exact E. }
  unfold pyget. destruct (i <? 0)%Z; [|apply Hn].
  destruct (Z.of_nat (length l) + i <? 0)%Z; [reflexivity|apply Hn].
Qed.

Definition pv (l : list R) (i : Z) : R := match pyget l i with Some v => v | None => 0 end.
Lemma pv_in l k : (k < length l)%nat -> pv l (Z.of_nat k) = nth k l 0.
Proof. intros H. unfold pv. rewrite pyget_in by exact H. reflexivity. Qed.
Lemma pv_zero l i : (forall k, nth k l 0 = 0) -> pv l i = 0.
Proof. apply pyget_zero. Qed.

(** Contribution of one coarse level, with [prev] the last value of the finer
    level and [k] the number of steps covered so far. *)
Lemma lev_contrib g n row bs N k (prev nxt : R) tail :
  (1 <= N)%nat -> (1 <= k)%nat -> (n <= length row)%nat -> lev n row bs N -> hd 0 tail = nxt ->
  g (k - 1)%nat * (prev - pv row 0)
  + sumn (n - 1) (fun t => g (k + (t + 1) * N - 1)%nat * (pv row (Z.of_nat t) - pv row (Z.of_nat t + 1)))
  + g (k + n * N - 1)%nat * (pv row (Z.of_nat n - 1) - nxt)
  = g (k - 1)%nat * (prev - hd 0 (concat (map averaged bs) ++ tail))
    + spr g k (concat (map averaged bs) ++ tail) - spr g (k + n * N) tail.
Proof.
  intros HN Hk Hr [Hl Hs Hv Hz] Ht.
  destruct n as [|n].
  - destruct bs; [|discriminate]. cbn [map concat app]. rewrite Ht.
    rewrite !pv_zero by (apply Hz; reflexivity). change (0 - 1)%nat with O. cbn [sumn].
    rewrite Nat.mul_0_l, Nat.add_0_r. lra.
  - assert (Hne : bs <> []) by (intro E; subst; discriminate).
    rewrite (spr_blocks g N HN) by assumption. rewrite Hl.
    replace (hd 0 (concat (map averaged bs) ++ tail)) with (mean (nth 0 bs [])).
    2:{ destruct bs as [|b bs]; [congruence|]. pose proof (Forall_inv Hs). cbn beta in *.
        cbn [map concat nth]. unfold averaged.
        destruct (length b) as [|m] eqn:E; [lia|]. reflexivity. }
    replace (Z.of_nat (S n) - 1)%Z with (Z.of_nat n) by lia.
    assert (E0 : pv row 0 = nth 0 row 0) by (apply (pv_in row 0); lia).
    rewrite E0, pv_in by lia. rewrite !Hv by lia.
    replace (S n - 1)%nat with n by lia. rewrite Ht.
    rewrite (sumn_ext n _ (fun t => g (k + (t + 1) * N - 1)%nat * (mean (nth t bs []) - mean (nth (S t) bs [])))).
    2:{ intros t Ht'. replace (Z.of_nat t + 1)%Z with (Z.of_nat (S t)) by lia.
        rewrite !pv_in by lia. rewrite !Hv by lia. reflexivity. }
    lra.
Qed.

Lemma averaged_singletons (l : list R) : concat (map averaged (map (fun x => [x]) l)) = l.
Proof.
  induction l as [|x l IH]; [reflexivity|]. cbn [map concat]. rewrite IH.
  unfold averaged, mean. cbn. f_equal. lra.
Qed.

Lemma liu_row_formula g q0 q1 q2 q3 n0 n1 n2 n3 N1 N2 N3 R0 Ss Ms Ls :
  (1 <= N1)%nat -> (1 <= N2)%nat -> (1 <= N3)%nat -> (1 <= n0)%nat ->
  lev n0 q0 (map (fun x => [x]) R0) 1 -> lev n1 q1 Ss (N1 * 1) ->
  lev n2 q2 Ms (N2 * (N1 * 1)) -> lev n3 q3 Ls (N3 * (N2 * (N1 * 1))) ->
  (n0 <= length q0)%nat -> (n1 <= length q1)%nat -> (n2 <= length q2)%nat -> (n3 <= length q3)%nat ->
  sumn (n0 - 1) (fun t => g t * (pv q0 (Z.of_nat t) - pv q0 (Z.of_nat t + 1)))
  + g (n0 - 1)%nat * (pv q0 (Z.of_nat n0 - 1) - pv q1 0)
  + sumn (n1 - 1) (fun t => g (n0 + (t + 1) * N1 - 1)%nat * (pv q1 (Z.of_nat t) - pv q1 (Z.of_nat t + 1)))
  + g (n0 + n1 * N1 - 1)%nat * (pv q1 (Z.of_nat n1 - 1) - pv q2 0)
  + sumn (n2 - 1) (fun t => g (n0 + n1 * N1 + (t + 1) * N2 * N1 - 1)%nat * (pv q2 (Z.of_nat t) - pv q2 (Z.of_nat t + 1)))
  + g (n0 + n1 * N1 + n2 * N1 * N2 - 1)%nat * (pv q2 (Z.of_nat n2 - 1) - pv q3 0)
  + sumn (n3 - 1) (fun t => g (n0 + n1 * N1 + n2 * N2 * N1 + (t + 1) * N3 * N2 * N1 - 1)%nat * (pv q3 (Z.of_nat t) - pv q3 (Z.of_nat t + 1)))
  + g (n0 - 1 + (n1 * N1 + n2 * N1 * N2 + n3 * N1 * N2 * N3))%nat * pv q3 (Z.of_nat n3 - 1)
  = spr g 0 (R0 ++ concat (map averaged Ss) ++ concat (map averaged Ms) ++ concat (map averaged Ls)).
Proof.
  intros P1 P2 P3 P0 L0 L1 L2 L3 C0 C1 C2 C3. rewrite Nat.mul_1_r in *.
  set (T3 := concat (map averaged Ls)). set (T2 := concat (map averaged Ms) ++ T3).
  set (T1 := concat (map averaged Ss) ++ T2).
  (* level 0 *)
  rewrite <- (averaged_singletons R0) at 1.
  assert (Hne : map (fun x : R => [x]) R0 <> []).
  { intro E. pose proof (lv_len _ _ _ _ L0) as E'. rewrite E in E'. cbn in E'. lia. }
  change (concat (map averaged Ss) ++ concat (map averaged Ms) ++ concat (map averaged Ls)) with T1.
  rewrite (spr_blocks g 1) by (try assumption; try lia; apply (lv_sz _ _ _ _ L0)).
  rewrite (lv_len _ _ _ _ L0). cbn [plus].
  rewrite (sumn_ext (n0 - 1) (fun t => g ((t + 1) * 1 - 1)%nat * _)
    (fun t => g t * (pv q0 (Z.of_nat t) - pv q0 (Z.of_nat t + 1)))).
  2:{ intros t Ht. replace ((t + 1) * 1 - 1)%nat with t by lia.
      replace (Z.of_nat t + 1)%Z with (Z.of_nat (S t)) by lia.
      rewrite !pv_in by lia. rewrite !(lv_val _ _ _ _ L0) by lia. reflexivity. }
  replace (pv q0 (Z.of_nat n0 - 1)) with (mean (nth (n0 - 1) (map (fun x : R => [x]) R0) [])).
  2:{ replace (Z.of_nat n0 - 1)%Z with (Z.of_nat (n0 - 1)) by lia. rewrite pv_in by lia.
      symmetry. apply (lv_val _ _ _ _ L0). lia. }
  rewrite !Nat.mul_1_r.
  set (p0 := mean (nth (n0 - 1) (map (fun x : R => [x]) R0) [])).
  (* level 1 *)
  pose proof (lev_contrib g n1 q1 Ss N1 n0 p0 (hd 0 T2) T2 P1 P0 C1 L1 eq_refl) as K1. fold T1 in K1.
  assert (P12 : (1 <= N2 * N1)%nat) by nia. assert (P123 : (1 <= N3 * (N2 * N1))%nat) by nia.
  pose proof (lev_contrib g n2 q2 Ms (N2 * N1) (n0 + n1 * N1) (pv q1 (Z.of_nat n1 - 1)) (hd 0 T3) T3
                P12 ltac:(lia) C2 L2 eq_refl) as K2. fold T2 in K2.
  pose proof (lev_contrib g n3 q3 Ls (N3 * (N2 * N1)) (n0 + n1 * N1 + n2 * (N2 * N1))
                (pv q2 (Z.of_nat n2 - 1)) 0 []
                P123 ltac:(lia) C3 L3 eq_refl) as K3. rewrite app_nil_r in K3. fold T3 in K3.
  cbn [spr] in K3.
  rewrite (sumn_ext (n2 - 1)
     (fun t => g (n0 + n1 * N1 + (t + 1) * N2 * N1 - 1)%nat * _)
     (fun t => g (n0 + n1 * N1 + (t + 1) * (N2 * N1) - 1)%nat * (pv q2 (Z.of_nat t) - pv q2 (Z.of_nat t + 1))))
    by (intros t _; rewrite Nat.mul_assoc; reflexivity).
  rewrite (sumn_ext (n3 - 1)
     (fun t => g (n0 + n1 * N1 + n2 * N2 * N1 + (t + 1) * N3 * N2 * N1 - 1)%nat * _)
     (fun t => g (n0 + n1 * N1 + n2 * (N2 * N1) + (t + 1) * (N3 * (N2 * N1)) - 1)%nat * (pv q3 (Z.of_nat t) - pv q3 (Z.of_nat t + 1))))
    by (intros t _; rewrite !Nat.mul_assoc; reflexivity).
  replace (n2 * N1 * N2)%nat with (n2 * (N2 * N1))%nat by lia.
  replace (n0 - 1 + (n1 * N1 + n2 * (N2 * N1) + n3 * N1 * N2 * N3))%nat
    with (n0 + n1 * N1 + n2 * (N2 * N1) + n3 * (N3 * (N2 * N1)) - 1)%nat by lia.
  (* chain the three contributions: remove the boundary terms *)
  lra.
Qed.

Lemma gz_of Nt z k : z = Z.of_nat k -> gz Nt z = k.
Proof. intros ->. unfold gz. destruct (Z.ltb_spec (Z.of_nat k) 0); [lia|apply Nat2Z.id]. Qed.

Lemma liu_superposition_rows g st i : (1 <= li_n0 st)%nat ->
  liu_superposition g st i = sumn (length (li_Q0 st)) (fun s =>
    let q0 := nth s (li_Q0 st) [] in let q1 := nth s (li_Q1 st) [] in
    let q2 := nth s (li_Q2 st) [] in let q3 := nth s (li_Q3 st) [] in
    let n0 := li_n0 st in let n1 := li_n1 st in let n2 := li_n2 st in let n3 := li_n3 st in
    let N1 := li_N1 st in let N2 := li_N2 st in let N3 := li_N3 st in
    sumn (n0 - 1) (fun t => g i s t * (pv q0 (Z.of_nat t) - pv q0 (Z.of_nat t + 1)))
    + g i s (n0 - 1)%nat * (pv q0 (Z.of_nat n0 - 1) - pv q1 0)
    + sumn (n1 - 1) (fun t => g i s (n0 + (t + 1) * N1 - 1)%nat * (pv q1 (Z.of_nat t) - pv q1 (Z.of_nat t + 1)))
    + g i s (n0 + n1 * N1 - 1)%nat * (pv q1 (Z.of_nat n1 - 1) - pv q2 0)
    + sumn (n2 - 1) (fun t => g i s (n0 + n1 * N1 + (t + 1) * N2 * N1 - 1)%nat * (pv q2 (Z.of_nat t) - pv q2 (Z.of_nat t + 1)))
    + g i s (n0 + n1 * N1 + n2 * N1 * N2 - 1)%nat * (pv q2 (Z.of_nat n2 - 1) - pv q3 0)
    + sumn (n3 - 1) (fun t => g i s (n0 + n1 * N1 + n2 * N2 * N1 + (t + 1) * N3 * N2 * N1 - 1)%nat * (pv q3 (Z.of_nat t) - pv q3 (Z.of_nat t + 1)))
    + g i s (n0 - 1 + (n1 * N1 + n2 * N1 * N2 + n3 * N1 * N2 * N3))%nat * pv q3 (Z.of_nat n3 - 1)).
Proof.
  intros P0. unfold liu_superposition. cbv zeta.
  rewrite !sumn_plus. rewrite !(sumn_swap (length (li_Q0 st))).
  assert (F : forall n f f', (forall i, (i < n)%nat -> f i = f' i) -> sumn n f = sumn n f') by (intros; apply sumn_ext; auto).
  assert (G : forall s z k (x : R), z = Z.of_nat k -> g i s (gz (li_Nt st) z) * x = g i s k * x)
    by (intros s z k x E; rewrite (gz_of _ _ _ E); reflexivity).
  unfold qz. 
  repeat match goal with |- _ + _ = _ + _ => f_equal end;
    repeat (apply F; let t := fresh "t" in let H := fresh "Ht" in intros t H); apply G; nia.
Qed.

Lemma rev_concat {A} (ls : list (list A)) : rev (concat ls) = concat (map (@rev A) (rev ls)).
Proof.
  induction ls as [|l ls IH]; [reflexivity|].
  cbn [concat rev]. rewrite rev_app_distr, IH, map_app, concat_app. cbn. rewrite app_nil_r. reflexivity.
Qed.
Lemma mean_rev l : mean (rev l) = mean l.
Proof. unfold mean. rewrite Rsum_rev, rev_length. reflexivity. Qed.
Lemma averaged_rev l : averaged (rev l) = averaged l.
Proof. unfold averaged. rewrite mean_rev, rev_length. reflexivity. Qed.
Lemma Forall_rev_blocks (bs : list (list R)) N : Forall (fun b => length b = N) bs ->
  Forall (fun b => length b = N) (map (@rev R) (rev bs)).
Proof.
  intros H. apply Forall_map. apply Forall_rev. eapply Forall_impl; [|exact H].
  intros a Ha. cbn beta. rewrite rev_length. exact Ha.
Qed.
Lemma averaged_blocks_rev bs : concat (map averaged (map (@rev R) (rev bs))) = rev (concat (map averaged bs)).
Proof.
  rewrite rev_concat, map_map, <- map_rev, map_map. f_equal. apply map_ext.
  intros b. rewrite averaged_rev, rev_averaged. reflexivity.
Qed.

Theorem liu_lemma nS Nt N1 N2 N3 W1 W2 W3 ops st :
  (1 <= N1)%nat -> (1 <= N2)%nat -> (1 <= N3)%nat -> (1 <= W1)%nat -> (1 <= W2)%nat -> (1 <= W3)%nat ->
  liu_run (liu_init nS Nt N1 N2 N3 W1 W2 W3) ops = Some st -> starts_with_step ops -> (1 <= steps ops)%nat ->
  exists (Ls Ms Ss : nat -> list (list R)) (R0 : nat -> list R),
    (forall s, (s < nS)%nat ->
       liu_blocks N1 N2 N3 W1 W2 W3 (history s ops) (Ls s) (Ms s) (Ss s) (R0 s))
    /\ forall g i, liu_superposition g st i =
         sumn nS (fun s => superpose (g i s)
           (concat (map averaged (Ls s)) ++ concat (map averaged (Ms s)) ++ concat (map averaged (Ss s)) ++ R0 s)).
Proof.
  intros P1 P2 P3 V1 V2 V3 Hr Hss Hst.
  pose proof (linv_run nS Nt N1 N2 N3 W1 W2 W3 ops P1 P2 P3 V1 V2 V3 _ _ _ _ (or_intror Hss)
    (linv_init nS Nt N1 N2 N3 W1 W2 W3 P1 P2 P3) Hr) as I.
  cbn [plus] in I.
  destruct I as [e1 e2 e3 f1 f2 f3 et l0 l1 l2 l3 b0 b1 b2 b3 w0 w1 w2 ip tot rows].
  specialize (ip Hst).
  assert (CH : forall s, exists x : list R * list (list R) * list (list R) * list (list R), (s < nS)%nat ->
     let '(R0, Ss, Ms, Ls) := x in lrow st s (rev (history s ops)) R0 Ss Ms Ls).
  { intros s. destruct (lt_dec s nS) as [Hs|Hs].
    - destruct (rows s Hs) as (R0 & Ss & Ms & Ls & HL). exists (R0, Ss, Ms, Ls). intros _. exact HL.
    - exists ([], [], [], []). intros; lia. }
  assert (CH' : exists f, forall s, (s < nS)%nat ->
     let '(R0, Ss, Ms, Ls) := (f s : list R * list (list R) * list (list R) * list (list R)) in
     lrow st s (rev (history s ops)) R0 Ss Ms Ls).
  { clear -CH.
    assert (G : forall m, exists f, forall s, (s < m)%nat -> (s < nS)%nat ->
      let '(R0, Ss, Ms, Ls) := (f s : list R * list (list R) * list (list R) * list (list R)) in
      lrow st s (rev (history s ops)) R0 Ss Ms Ls).
    { induction m as [|m (f & IH)].
      - exists (fun _ => ([], [], [], [])). intros; lia.
      - destruct (CH m) as (x & Hx).
        exists (fun s => if Nat.eq_dec s m then x else f s). intros s Hs Hs'.
        destruct (Nat.eq_dec s m) as [->|Hne]; [apply Hx; exact Hs'|]. apply IH; lia. }
    destruct (G nS) as (f & Hf). exists f. intros s Hs. apply Hf; exact Hs. }
  destruct CH' as (f & Hf).
  exists (fun s => map (@rev R) (rev (snd (f s)))), (fun s => map (@rev R) (rev (snd (fst (f s))))),
         (fun s => map (@rev R) (rev (snd (fst (fst (f s)))))), (fun s => rev (fst (fst (fst (f s))))).
  split.
  - intros s Hs. specialize (Hf s Hs). destruct (f s) as (((R0 & Ss) & Ms) & Ls). cbn [fst snd].
    destruct Hf as [rh r0 r1 r2 r3 q0 q1 q2 q3]. rewrite e1, e2, e3, f1, f2, f3, et in *.
    assert (LR : length R0 = li_n0 st) by (rewrite <- (lv_len _ _ _ _ r0), map_length; reflexivity).
    assert (LS : length Ss = li_n1 st) by apply (lv_len _ _ _ _ r1).
    assert (LM : length Ms = li_n2 st) by apply (lv_len _ _ _ _ r2).
    assert (LL : length Ls = li_n3 st) by apply (lv_len _ _ _ _ r3).
    unfold liu_blocks. rewrite rev_length, !map_length, !rev_length.
    assert (NIL : forall (bs : list (list R)), length bs = O -> map (@rev R) (rev bs) = [])
      by (intros [|b bs] H; [reflexivity|discriminate]).
    repeat match goal with |- _ /\ _ => split end; try lia.
    + rewrite <- (rev_involutive (history s ops)), rh.
      rewrite !rev_app_distr, !rev_concat, <- !app_assoc. reflexivity.
    + apply Forall_rev_blocks. eapply Forall_impl; [|apply (lv_sz _ _ _ _ r1)]. cbn beta. intros; lia.
    + apply Forall_rev_blocks. eapply Forall_impl; [|apply (lv_sz _ _ _ _ r2)]. cbn beta. intros; lia.
    + apply Forall_rev_blocks. eapply Forall_impl; [|apply (lv_sz _ _ _ _ r3)]. cbn beta. intros; lia.
    + destruct w0 as [(z1 & z2 & z3)|Hw]; [left|right; lia]. rewrite !NIL by lia. auto.
    + destruct w1 as [(z2 & z3)|Hw]; [left|right; lia]. rewrite !NIL by lia. auto.
    + destruct w2 as [z3|Hw]; [left|right; lia]. apply NIL. lia.
  - intros g i. rewrite liu_superposition_rows by exact ip. rewrite l0.
    apply sumn_ext. intros s Hs. cbv zeta.
    specialize (Hf s Hs). destruct (f s) as (((R0 & Ss) & Ms) & Ls). cbn [fst snd].
    destruct Hf as [rh r0 r1 r2 r3 q0 q1 q2 q3]. rewrite e1, e2, e3, f1, f2, f3, et in *.
    rewrite superpose_spr, !rev_app_distr, !averaged_blocks_rev, !rev_involutive, <- !app_assoc.
    apply liu_row_formula; try assumption; try lia.
Qed.

Lemma ceil_div_ge a b k : (1 <= b)%nat -> (k * b <= a)%nat -> (k <= ceil_div a b)%nat.
Proof.
  intros Hb H. unfold ceil_div. apply Nat.div_le_lower_bound; lia.
Qed.

Theorem liu_progress_lemma nS Nt N1 N2 N3 W1 W2 W3 ops :
  (1 <= N1)%nat -> (1 <= N2)%nat -> (1 <= N3)%nat -> (1 <= W1)%nat -> (1 <= W2)%nat -> (1 <= W3)%nat ->
  starts_with_step ops -> (steps ops <= Nt)%nat ->
  Forall (fun o => match o with Next => True | SetLoad q => length q = nS end) ops ->
  exists st, liu_run (liu_init nS Nt N1 N2 N3 W1 W2 W3) ops = Some st.
Proof.
  intros P1 P2 P3 V1 V2 V3 Hs Hle HF.
  assert (G : forall ops n h st, linv nS Nt N1 N2 N3 W1 W2 W3 n h st -> ((1 <= n)%nat \/ starts_with_step ops) ->
     (n + steps ops <= Nt)%nat ->
     Forall (fun o => match o with Next => True | SetLoad q => length q = nS end) ops ->
     exists st', liu_run st ops = Some st').
  { clear ops Hs Hle HF. intros ops. induction ops as [|o ops IH]; intros n h st I Hs Hn HF; [eexists; reflexivity|].
    cbn [liu_run]. pose proof (Forall_inv HF) as Ho. pose proof (Forall_inv_tail HF) as HF'. cbn beta in Ho.
    destruct o as [|q]; cbn [liu_step steps] in *.
    - destruct (liu_next st) as [s1|] eqn:E.
      + eapply IH; [eapply linv_next; eassumption|left; lia|lia|exact HF'].
      + exfalso. destruct I as [e1 e2 e3 f1 f2 f3 et l0 l1 l2 l3 b0 b1 b2 b3 w0 w1 w2 ip tot rows].
        unfold liu_next in E. rewrite e1, e2, e3, f1, f2, f3, et in E.
        destruct (Nat.ltb_spec (N1 + W1) (S (li_n0 st))); [lia|].
        destruct (Nat.leb_spec (N1 + W1) (S (li_n0 st))); [|discriminate].
        destruct (Nat.ltb_spec (N2 + W2) (S (li_n1 st))); [lia|].
        destruct (Nat.leb_spec (N2 + W2) (S (li_n1 st))); [|discriminate].
        destruct (Nat.ltb_spec (N3 + W3) (S (li_n2 st))); [lia|].
        destruct (Nat.leb_spec (N3 + W3) (S (li_n2 st))); [|discriminate].
        destruct (Nat.ltb_spec (ceil_div Nt (N1 * N2 * N3)) (S (li_n3 st))) as [Hb|]; [|discriminate].
        assert (S (li_n3 st) <= ceil_div Nt (N1 * N2 * N3))%nat; [|lia].
        apply ceil_div_ge; [nia|].
        assert (S (li_n0 st) = N1 + W1)%nat by lia. assert (S (li_n1 st) = N2 + W2)%nat by lia.
        assert (S (li_n2 st) = N3 + W3)%nat by lia.
        assert (Q0 : (li_n0 st = N1 + W1 - 1)%nat) by lia.
        assert (Q1 : (li_n1 st = N2 + (W2 - 1))%nat) by lia.
        assert (Q2 : (li_n2 st = N3 + (W3 - 1))%nat) by lia.
        rewrite Q0, Q1, Q2 in tot.
        assert (S n <= Nt)%nat by lia.
        rewrite !Nat.mul_add_distr_r in tot. nia.
    - destruct Hs as [Hs|Hs]; [|contradiction].
      destruct (liu_set st q) as [s1|] eqn:E.
      + eapply IH; [exact (linv_set _ _ _ _ _ _ _ _ _ _ _ _ _ Hs P1 I E)|left; lia|lia|exact HF'].
      + unfold liu_set in E. rewrite (ii_0 _ _ _ _ _ _ _ _ _ _ _ I) in E.
        destruct (Nat.eqb_spec (length q) nS); [discriminate|lia]. }
  eapply (G ops 0%nat); [apply linv_init; assumption|right; exact Hs|cbn; lia|exact HF].
Qed.

Lemma Rsum_concat_averaged bs : Rsum (concat (map averaged bs)) = Rsum (concat bs).
Proof. induction bs as [|b bs IH]; [reflexivity|]. cbn [map concat]. rewrite !Rsum_app, Rsum_averaged, IH. reflexivity. Qed.

Theorem liu_total_lemma nS Nt N1 N2 N3 W1 W2 W3 ops st i :
  (1 <= N1)%nat -> (1 <= N2)%nat -> (1 <= N3)%nat -> (1 <= W1)%nat -> (1 <= W2)%nat -> (1 <= W3)%nat ->
  liu_run (liu_init nS Nt N1 N2 N3 W1 W2 W3) ops = Some st -> starts_with_step ops -> (1 <= steps ops)%nat ->
  liu_superposition (fun _ _ k => INR (S k)) st i = sumn nS (fun s => Rsum (history s ops)).
Proof.
  intros P1 P2 P3 V1 V2 V3 Hr Hss Hs.
  destruct (liu_lemma nS Nt N1 N2 N3 W1 W2 W3 ops st P1 P2 P3 V1 V2 V3 Hr Hss Hs) as (Ls & Ms & Ss & R0 & HB & HS).
  rewrite HS. apply sumn_ext. intros s Hs'. rewrite superpose_ramp.
  destruct (HB s Hs') as (E & _). rewrite E, !Rsum_app, !Rsum_concat_averaged. reflexivity.
Qed.

Theorem liu_exact_lemma nS Nt N1 N2 N3 W1 W2 W3 ops st g i :
  (1 <= N1)%nat -> (1 <= N2)%nat -> (1 <= N3)%nat -> (1 <= W1)%nat -> (1 <= W2)%nat -> (1 <= W3)%nat ->
  liu_run (liu_init nS Nt N1 N2 N3 W1 W2 W3) ops = Some st -> starts_with_step ops ->
  (1 <= steps ops < N1 + W1)%nat ->
  liu_superposition g st i = sumn nS (fun s => superpose (g i s) (history s ops)).
Proof.
  intros P1 P2 P3 V1 V2 V3 Hr Hss Hs.
  destruct (liu_lemma nS Nt N1 N2 N3 W1 W2 W3 ops st P1 P2 P3 V1 V2 V3 Hr Hss) as (Ls & Ms & Ss & R0 & HB & HS); [lia|].
  rewrite HS. apply sumn_ext. intros s Hs'.
  destruct (HB s Hs') as (E & F1 & F2 & F3 & L0 & L1 & L2 & [ (z1 & z2 & z3) | D0 ] & D1 & D2).
  - rewrite E, z1, z2, z3. reflexivity.
  - pose proof (history_length s ops Hss) as HL.
    rewrite E, !app_length in HL. rewrite (concat_length_const _ _ F1), (concat_length_const _ _ F2), (concat_length_const _ _ F3) in HL.
    assert (Z1 : length (Ss s) = O) by (destruct (length (Ss s)); [reflexivity|nia]).
    assert (Z2 : length (Ms s) = O) by (destruct (length (Ms s)); [reflexivity|assert (1 <= N1 * N2)%nat by nia; nia]).
    assert (Z3 : length (Ls s) = O).
    { destruct (length (Ls s)); [reflexivity|].
      assert (N1 <= N1 * N2)%nat by nia. assert (N1 <= N1 * N2 * N3)%nat by nia. nia. }
    apply length_zero_iff_nil in Z1, Z2, Z3. rewrite E, Z1, Z2, Z3. reflexivity.
Qed.
