(** Shared helpers: finite sums of reals, list arithmetic in the style of
    numpy one-dimensional arrays.  Nothing here models project code. *)
From Coq Require Export Reals List Arith Lia Lra Bool ZArith.
Export ListNotations.
Open Scope R_scope.

(** [sumn n f] is f 0 + f 1 + ... + f (n-1). *)
Fixpoint sumn (n : nat) (f : nat -> R) : R :=
  match n with
  | O => 0
  | S m => sumn m f + f m
  end.

(** Sum of a list (numpy.sum of a one-dimensional array). *)
Fixpoint Rsum (l : list R) : R :=
  match l with
  | [] => 0
  | x :: r => x + Rsum r
  end.

(** Boolean comparisons of reals (classically decidable). *)
Definition Rltb (x y : R) : bool := if Rlt_dec x y then true else false.
Definition Rleb (x y : R) : bool := if Rle_dec x y then true else false.
Definition Reqb (x y : R) : bool := if Req_EM_T x y then true else false.

Lemma Rltb_true x y : Rltb x y = true <-> x < y.
Proof. unfold Rltb; destruct (Rlt_dec x y); split; intros; auto; discriminate || contradiction. Qed.
Lemma Rltb_false x y : Rltb x y = false <-> y <= x.
Proof. unfold Rltb; destruct (Rlt_dec x y); split; intros; auto; try lra; discriminate. Qed.
Lemma Rleb_true x y : Rleb x y = true <-> x <= y.
Proof. unfold Rleb; destruct (Rle_dec x y); split; intros; auto; discriminate || contradiction. Qed.
Lemma Rleb_false x y : Rleb x y = false <-> y < x.
Proof. unfold Rleb; destruct (Rle_dec x y); split; intros; auto; try lra; discriminate. Qed.
Lemma Reqb_true x y : Reqb x y = true <-> x = y.
Proof. unfold Reqb; destruct (Req_EM_T x y); split; intros; auto; discriminate || contradiction. Qed.
Lemma Reqb_false x y : Reqb x y = false <-> x <> y.
Proof. unfold Reqb; destruct (Req_EM_T x y); split; intros; auto; discriminate || contradiction. Qed.

(** * Laws of [sumn] *)
Lemma sumn_ext n f g : (forall i, (i < n)%nat -> f i = g i) -> sumn n f = sumn n g.
Proof.
  induction n as [|n IH]; intros H; cbn [sumn]; [reflexivity|].
  rewrite IH, H; auto.
Qed.

Lemma sumn_zero n f : (forall i, (i < n)%nat -> f i = 0) -> sumn n f = 0.
Proof.
  induction n as [|n IH]; intros H; cbn [sumn]; [reflexivity|].
  rewrite IH, H; auto; lra.
Qed.

Lemma sumn_plus n f g : sumn n (fun i => f i + g i) = sumn n f + sumn n g.
Proof. induction n as [|n IH]; cbn [sumn]; [lra|]. rewrite IH; lra. Qed.

Lemma sumn_minus n f g : sumn n (fun i => f i - g i) = sumn n f - sumn n g.
Proof. induction n as [|n IH]; cbn [sumn]; [lra|]. rewrite IH; lra. Qed.

Lemma sumn_opp n f : sumn n (fun i => - f i) = - sumn n f.
Proof. induction n as [|n IH]; cbn [sumn]; [lra|]. rewrite IH; lra. Qed.

Lemma sumn_scal n c f : sumn n (fun i => c * f i) = c * sumn n f.
Proof. induction n as [|n IH]; cbn [sumn]; [lra|]. rewrite IH; lra. Qed.

Lemma sumn_scal_r n c f : sumn n (fun i => f i * c) = sumn n f * c.
Proof. induction n as [|n IH]; cbn [sumn]; [lra|]. rewrite IH; lra. Qed.

Lemma sumn_const n c : sumn n (fun _ => c) = INR n * c.
Proof. induction n as [|n IH]; [simpl; lra|]. cbn [sumn]. rewrite IH, S_INR; lra. Qed.

Lemma sumn_S_l n f : sumn (S n) f = f O + sumn n (fun i => f (S i)).
Proof.
  induction n as [|n IH]; [cbn [sumn]; lra|].
  change (sumn (S (S n)) f) with (sumn (S n) f + f (S n)).
  rewrite IH. cbn [sumn]. lra.
Qed.

Lemma sumn_split a b f : sumn (a + b) f = sumn a f + sumn b (fun i => f (a + i)%nat).
Proof.
  induction b as [|b IH]; [rewrite Nat.add_0_r; cbn [sumn]; lra|].
  rewrite Nat.add_succ_r. cbn [sumn]. rewrite IH; lra.
Qed.

Lemma sumn_swap n m (f : nat -> nat -> R) :
  sumn n (fun i => sumn m (fun j => f i j)) = sumn m (fun j => sumn n (fun i => f i j)).
Proof.
  induction n as [|n IH]; cbn [sumn].
  - symmetry; apply sumn_zero; reflexivity.
  - rewrite IH, <- sumn_plus. reflexivity.
Qed.

Lemma sumn_single n k f : (k < n)%nat -> (forall i, (i < n)%nat -> i <> k -> f i = 0) -> sumn n f = f k.
Proof.
  induction n as [|n IH]; intros Hk H; [lia|].
  cbn [sumn]. destruct (Nat.eq_dec k n) as [->|Hne].
  - rewrite sumn_zero; [lra|]. intros i Hi; apply H; lia.
  - rewrite IH; [rewrite (H n); try lia; lra|lia|]. intros i Hi; apply H; lia.
Qed.

Lemma sumn_le n f g : (forall i, (i < n)%nat -> f i <= g i) -> sumn n f <= sumn n g.
Proof.
  induction n as [|n IH]; intros H; cbn [sumn]; [lra|].
  apply Rplus_le_compat; [apply IH; intros; apply H; lia | apply H; lia].
Qed.

Lemma sumn_nonneg n f : (forall i, (i < n)%nat -> 0 <= f i) -> 0 <= sumn n f.
Proof.
  intros H. rewrite <- (sumn_zero n (fun _ => 0)) by reflexivity. apply sumn_le; auto.
Qed.

Lemma sumn_telescope n (f : nat -> R) : sumn n (fun i => f (S i) - f i) = f n - f O.
Proof. induction n as [|n IH]; cbn [sumn]; [lra|]. rewrite IH; lra. Qed.

Lemma sumn_rev n f : sumn n (fun i => f (n - 1 - i)%nat) = sumn n f.
Proof.
  induction n as [|n IH]; [reflexivity|].
  rewrite sumn_S_l. cbn [sumn].
  replace (S n - 1 - 0)%nat with n by lia.
  rewrite (sumn_ext n (fun i => f (S n - 1 - S i)%nat) (fun i => f (n - 1 - i)%nat)).
  - rewrite IH; lra.
  - intros i Hi; f_equal; lia.
Qed.

Lemma sumn_if_lt n k f : (k <= n)%nat ->
  sumn n (fun i => if (i <? k)%nat then f i else 0) = sumn k f.
Proof.
  intros Hk. replace n with (k + (n - k))%nat by lia. rewrite sumn_split.
  rewrite (sumn_ext k _ f).
  - rewrite (sumn_zero (n - k)); [lra|]. intros i Hi.
    destruct (Nat.ltb_spec (k + i) k); [lia|reflexivity].
  - intros i Hi. destruct (Nat.ltb_spec i k); [reflexivity|lia].
Qed.

(** * Laws of [Rsum] *)
Lemma Rsum_app l1 l2 : Rsum (l1 ++ l2) = Rsum l1 + Rsum l2.
Proof. induction l1 as [|x l1 IH]; simpl; [lra|]. rewrite IH; lra. Qed.

Lemma Rsum_sumn l : Rsum l = sumn (length l) (fun i => nth i l 0).
Proof.
  induction l as [|x l IH]; [reflexivity|].
  cbn [length]. rewrite sumn_S_l. cbn [Rsum nth]. rewrite IH. reflexivity.
Qed.

Lemma Rsum_rev l : Rsum (rev l) = Rsum l.
Proof. induction l as [|x l IH]; simpl; [reflexivity|]. rewrite Rsum_app, IH; simpl; lra. Qed.

Lemma Rsum_repeat x n : Rsum (repeat x n) = INR n * x.
Proof. induction n as [|n IH]; [simpl; lra|]. rewrite S_INR. cbn [repeat Rsum]. rewrite IH; lra. Qed.

Lemma Rsum_map_seq f n : Rsum (map f (seq 0 n)) = sumn n f.
Proof.
  induction n as [|n IH]; [reflexivity|].
  rewrite seq_S, map_app, Rsum_app, IH. simpl. lra.
Qed.

Lemma Rsum_map_scal c l : Rsum (map (fun x => c * x) l) = c * Rsum l.
Proof. induction l as [|x l IH]; simpl; [lra|]. rewrite IH; lra. Qed.

Lemma Rsum_nonneg l : (forall x, In x l -> 0 <= x) -> 0 <= Rsum l.
Proof.
  induction l as [|x l IH]; intros H; simpl; [lra|].
  apply Rplus_le_le_0_compat; [apply H; left; reflexivity|apply IH; intros; apply H; right; assumption].
Qed.

Lemma Rsum_concat ls : Rsum (concat ls) = Rsum (map Rsum ls).
Proof. induction ls as [|l ls IH]; simpl; [reflexivity|]. rewrite Rsum_app, IH; reflexivity. Qed.

(** * Lists *)
Lemma nth_map_seq {A} (f : nat -> A) n i d : (i < n)%nat -> nth i (map f (seq 0 n)) d = f i.
Proof.
  intros Hi. rewrite (nth_indep _ d (f O)) by (rewrite map_length, seq_length; exact Hi).
  rewrite map_nth, seq_nth by exact Hi. reflexivity.
Qed.

Lemma nth_map {A B} (f : A -> B) l i d d' : (i < length l)%nat -> nth i (map f l) d' = f (nth i l d).
Proof.
  intros Hi. rewrite (nth_indep _ d' (f d)) by (rewrite map_length; exact Hi). apply map_nth.
Qed.

Lemma list_eq_nth {A} (d : A) l1 l2 :
  length l1 = length l2 -> (forall i, (i < length l1)%nat -> nth i l1 d = nth i l2 d) -> l1 = l2.
Proof.
  revert l2; induction l1 as [|x l1 IH]; intros [|y l2] Hl H; simpl in Hl; try discriminate; [reflexivity|].
  f_equal; [apply (H O); simpl; lia|]. apply IH; [lia|]. intros i Hi. apply (H (S i)); simpl; lia.
Qed.

Lemma nth_firstn {A} (l : list A) n i d : (i < n)%nat -> nth i (firstn n l) d = nth i l d.
Proof.
  revert n i; induction l as [|x l IH]; intros [|n] [|i] H; simpl; try lia; auto.
  apply IH; lia.
Qed.

Lemma nth_skipn {A} (l : list A) n i d : nth i (skipn n l) d = nth (n + i) l d.
Proof.
  revert n; induction l as [|x l IH]; intros [|n]; simpl; auto.
  destruct i; reflexivity.
Qed.

(** Python slice [l[a:b]] for 0 <= a <= b. *)
Definition slice {A} (a b : nat) (l : list A) : list A := firstn (b - a) (skipn a l).

Lemma slice_length {A} a b (l : list A) : (b <= length l)%nat -> length (slice a b l) = (b - a)%nat.
Proof. intros H. unfold slice. rewrite firstn_length, skipn_length. lia. Qed.

Lemma nth_slice {A} a b (l : list A) i d : (i < b - a)%nat -> nth i (slice a b l) d = nth (a + i) l d.
Proof. intros H. unfold slice. rewrite nth_firstn by exact H. apply nth_skipn. Qed.

(** Assignment [l[i] = v] for an index inside the list. *)
Fixpoint upd {A} (l : list A) (i : nat) (v : A) : list A :=
  match l, i with
  | [], _ => []
  | _ :: r, O => v :: r
  | x :: r, S j => x :: upd r j v
  end.

Lemma upd_length {A} (l : list A) i v : length (upd l i v) = length l.
Proof. revert i; induction l as [|x l IH]; intros [|i]; simpl; auto. Qed.

Lemma nth_upd_eq {A} (l : list A) i v d : (i < length l)%nat -> nth i (upd l i v) d = v.
Proof. revert i; induction l as [|x l IH]; intros [|i] H; simpl in *; try lia; auto. apply IH; lia. Qed.

Lemma nth_upd_neq {A} (l : list A) i j v d : i <> j -> nth j (upd l i v) d = nth j l d.
Proof.
  revert i j; induction l as [|x l IH]; intros [|i] [|j] H; simpl; auto; try congruence.
Qed.

(** Arithmetic mean (numpy.mean). *)
Definition mean (l : list R) : R := Rsum l / INR (length l).

Lemma mean_mul l : (0 < length l)%nat -> INR (length l) * mean l = Rsum l.
Proof.
  intros H. unfold mean. field. apply not_0_INR. lia.
Qed.
