(* Dense linear systems.  numpy.linalg.solve and numpy.linalg.inv, which the
   networks, the pipes and the g-function solvers call, are modelled by Gaussian
   elimination with partial pivoting in exact real arithmetic.  LinAlgError is
   the value None. *)
From Coq Require Import Reals Lra Lia List.
From Verif Require Import Base.
Import ListNotations.
Local Open Scope R_scope.

(* Scalar product of two lists. *)
Fixpoint dot (r x : list R) : R :=
  match r, x with
  | a :: r', b :: x' => a * b + dot r' x'
  | _, _ => 0
  end.

(* r - f * p, entry by entry. *)
Fixpoint sub_row (r p : list R) (f : R) : list R :=
  match r, p with
  | a :: r', b :: p' => (a - f * b) :: sub_row r' p' f
  | _, _ => []
  end.

(* Take out the row whose first entry is largest in absolute value. *)
Fixpoint pick_pivot (rows : list (list R)) : option (list R * list (list R)) :=
  match rows with
  | [] => None
  | r :: rs =>
      match pick_pivot rs with
      | None => Some (r, [])
      | Some (p, others) =>
          if Rltb (Rabs (hd 0 r)) (Rabs (hd 0 p))
          then Some (p, r :: others) else Some (r, p :: others)
      end
  end.

(* Solve for n unknowns.  Every row holds the n coefficients and then the
   right-hand side. *)
Fixpoint gauss (n : nat) (rows : list (list R)) : option (list R) :=
  match n with
  | O => Some []
  | S n' =>
      match pick_pivot rows with
      | None => None
      | Some (p, others) =>
          if Reqb (hd 0 p) 0 then None
          else
            match gauss n' (map (fun r => sub_row (tl r) (tl p) (hd 0 r / hd 0 p)) others) with
            | None => None
            | Some x => Some ((- dot (tl p) (x ++ [-1])) / hd 0 p :: x)
            end
      end
  end.

(* Matrices are functions of the two indices; the size is passed along. *)
Definition Mx := nat -> nat -> R.

Definition rows_of (n : nat) (M : Mx) (b : nat -> R) : list (list R) :=
  map (fun i => map (M i) (seq 0 n) ++ [b i]) (seq 0 n).

(* numpy.linalg.solve(M, b) with a vector on the right-hand side *)
Definition lin_solve (n : nat) (M : Mx) (b : nat -> R) : option (nat -> R) :=
  match gauss n (rows_of n M b) with
  | Some x => Some (fun i => nth i x 0)
  | None => None
  end.

(* numpy.linalg.solve(M, B) with a matrix on the right-hand side: column by
   column *)
Definition lin_solve_mx (n : nat) (M B : Mx) : option Mx :=
  match lin_solve n M (fun _ => 0) with
  | None => None
  | Some _ =>
      Some (fun i j => match lin_solve n M (fun k => B k j) with
                       | Some x => x i
                       | None => 0
                       end)
  end.

Definition id_mx : Mx := fun i j => if Nat.eqb i j then 1 else 0.

(* numpy.linalg.inv(M) *)
Definition inv_mx (n : nat) (M : Mx) : option Mx := lin_solve_mx n M id_mx.

(* A @ B with inner size n; A @ x *)
Definition mx_mul (n : nat) (A B : Mx) : Mx := fun i j => sumn n (fun k => A i k * B k j).
Definition mx_vec (n : nat) (A : Mx) (x : nat -> R) : nat -> R :=
  fun i => sumn n (fun k => A i k * x k).
Definition mx_sub (A B : Mx) : Mx := fun i j => A i j - B i j.
Definition mx_add (A B : Mx) : Mx := fun i j => A i j + B i j.

(* ------------------------------------------------------------------ *)
(* Facts                                                               *)

Lemma dot_sub_row r p f v : length r = length p ->
  dot (sub_row r p f) v = dot r v - f * dot p v.
Proof.
  revert p v; induction r as [|a r IH]; intros [|b p] [|c v] H; simpl in *; try discriminate; try lra.
  rewrite IH by lia. lra.
Qed.

Lemma sub_row_length r p f : length r = length p -> length (sub_row r p f) = length r.
Proof.
  revert p; induction r as [|a r IH]; intros [|b p] H; simpl in *; try discriminate; auto.
Qed.

Lemma pick_pivot_none rows : pick_pivot rows = None -> rows = [].
Proof.
  destruct rows as [|r rs]; auto. simpl. destruct (pick_pivot rs) as [[p o]|]; [|discriminate].
  destruct (Rltb _ _); discriminate.
Qed.

Lemma pick_pivot_some rows p others : pick_pivot rows = Some (p, others) ->
  (forall r, In r rows <-> r = p \/ In r others)
  /\ (forall r, In r rows -> Rabs (hd 0 r) <= Rabs (hd 0 p))
  /\ length rows = S (length others).
Proof.
  revert p others; induction rows as [|r rs IH]; intros p others H; [discriminate|].
  simpl in H. destruct (pick_pivot rs) as [[q o]|] eqn:E.
  - destruct (IH q o eq_refl) as [Hin [Hmax Hlen]].
    destruct (Rltb (Rabs (hd 0 r)) (Rabs (hd 0 q))) eqn:C; inversion H; subst; clear H.
    + apply Rltb_true in C. split; [|split].
      * intro s. simpl. rewrite Hin. tauto.
      * intros s [->|Hs]; [lra|auto].
      * simpl. lia.
    + apply Rltb_false in C. split; [|split].
      * intro s. simpl. rewrite Hin. split; intros [->|[->|]]; auto.
      * intros s [->|Hs]; [lra|]. specialize (Hmax s Hs). lra.
      * simpl. lia.
  - inversion H; subst. apply pick_pivot_none in E. subst rs. split; [|split].
    + intro s. simpl. split; [intros [->|[]]|intros [->|[]]]; auto.
    + intros s [->|[]]; lra.
    + reflexivity.
Qed.

Lemma hd_tl (r : list R) : (0 < length r)%nat -> r = hd 0 r :: tl r.
Proof. destruct r; simpl; [lia|auto]. Qed.

Lemma dot_cons a r b x : dot (a :: r) (b :: x) = a * b + dot r x.
Proof. reflexivity. Qed.

Lemma gauss_length n rows x : gauss n rows = Some x -> length x = n.
Proof.
  revert rows x; induction n as [|n IH]; intros rows x H; cbn [gauss] in H.
  - inversion H; auto.
  - destruct (pick_pivot rows) as [[p o]|]; [|discriminate].
    destruct (Reqb (hd 0 p) 0); [discriminate|].
    destruct (gauss n _) as [y|] eqn:E; [|discriminate].
    inversion H; subst. simpl. erewrite IH; eauto.
Qed.

(* The value returned satisfies every equation. *)
Lemma gauss_sound n rows x :
  (length rows <= n)%nat -> (forall r, In r rows -> length r = S n) ->
  gauss n rows = Some x ->
  forall r, In r rows -> dot r (x ++ [-1]) = 0.
Proof.
  revert rows x; induction n as [|n IH]; intros rows x Hlen Hrow H r Hr.
  - destruct rows; [destruct Hr|simpl in Hlen; lia].
  - cbn [gauss] in H.
    destruct (pick_pivot rows) as [[p o]|] eqn:EP; [|discriminate].
    destruct (Reqb (hd 0 p) 0) eqn:E0; [discriminate|]. apply Reqb_false in E0.
    destruct (pick_pivot_some _ _ _ EP) as [Hin [_ Hl]].
    destruct (gauss n _) as [y|] eqn:E; [|discriminate].
    inversion H; subst x; clear H.
    assert (Hp : length p = S (S n)) by (apply Hrow; apply Hin; auto).
    assert (Hpiv : dot p ((- dot (tl p) (y ++ [-1]) / hd 0 p :: y) ++ [-1]) = 0).
    { rewrite (hd_tl p) at 1 by lia. cbn [app]. rewrite dot_cons. field. exact E0. }
    apply Hin in Hr. destruct Hr as [->|Hr]; [exact Hpiv|].
    assert (Hlr : length r = S (S n)) by (apply Hrow; apply Hin; auto).
    assert (Htl : length (tl r) = length (tl p)).
    { destruct r, p; simpl in *; lia. }
    assert (G : dot (sub_row (tl r) (tl p) (hd 0 r / hd 0 p)) (y ++ [-1]) = 0).
    { eapply IH; [| |exact E|].
      - rewrite map_length. lia.
      - intros s Hs. apply in_map_iff in Hs. destruct Hs as [q [<- Hq]].
        assert (length q = S (S n)) by (apply Hrow; apply Hin; auto).
        rewrite sub_row_length; destruct q, p; simpl in *; lia.
      - apply in_map_iff. exists r. auto. }
    rewrite dot_sub_row in G by exact Htl.
    rewrite (hd_tl r) by lia. cbn [app]. rewrite dot_cons.
    assert (hd 0 r * (- dot (tl p) (y ++ [-1]) / hd 0 p)
            = - (hd 0 r / hd 0 p * dot (tl p) (y ++ [-1]))) by (field; exact E0).
    lra.
Qed.

(* A failure exhibits a non-zero vector of the kernel. *)
Lemma gauss_none n rows :
  (forall r, In r rows -> length r = S n) ->
  gauss n rows = None ->
  exists z, length z = n /\ (exists v, In v z /\ v <> 0)
    /\ forall r, In r rows -> dot r (z ++ [0]) = 0.
Proof.
  revert rows; induction n as [|n IH]; intros rows Hrow H; cbn [gauss] in H; [discriminate|].
  assert (Hz : forall (r : list R) k, dot r (repeat 0 k) = 0).
  { intros r k; revert r; induction k; intros [|a r]; simpl; auto. rewrite IHk. lra. }
  assert (He : repeat 0 n ++ [0] = repeat 0 (S n)).
  { clear. induction n; simpl; auto. rewrite IHn. auto. }
  destruct (pick_pivot rows) as [[p o]|] eqn:EP.
  - destruct (pick_pivot_some _ _ _ EP) as [Hin [Hmax Hl]].
    assert (Hp : length p = S (S n)) by (apply Hrow; apply Hin; auto).
    destruct (Reqb (hd 0 p) 0) eqn:E0.
    + apply Reqb_true in E0. exists (1 :: repeat 0 n). split; [|split].
      * simpl. rewrite repeat_length. auto.
      * exists 1. split; [left; auto|lra].
      * intros r Hr. specialize (Hmax r Hr). rewrite E0, Rabs_R0 in Hmax.
        assert (Hr0 : hd 0 r = 0).
        { destruct (Req_dec (hd 0 r) 0); auto. apply Rabs_pos_lt in H0. lra. }
        rewrite (hd_tl r) by (rewrite Hrow; auto; lia).
        cbn [app]. rewrite dot_cons, Hr0, He, Hz. lra.
    + apply Reqb_false in E0.
      destruct (gauss n _) as [y|] eqn:E; [discriminate|].
      assert (IHE := fun a => IH _ a E).
      destruct IHE as [z [Hzl [[v [Hv Hv0]] Hzr]]].
      { intros s Hs. apply in_map_iff in Hs. destruct Hs as [q [<- Hq]].
        assert (length q = S (S n)) by (apply Hrow; apply Hin; auto).
        rewrite sub_row_length; destruct q, p; simpl in *; lia. }
      exists (- dot (tl p) (z ++ [0]) / hd 0 p :: z). split; [|split].
      * simpl. lia.
      * exists v. split; [right; auto|auto].
      * intros r Hr. apply Hin in Hr. destruct Hr as [->|Hr].
        -- rewrite (hd_tl p) at 1 by lia. cbn [app]. rewrite dot_cons. field. exact E0.
        -- assert (Hlr : length r = S (S n)) by (apply Hrow; apply Hin; auto).
           assert (Htl : length (tl r) = length (tl p)) by (destruct r, p; simpl in *; lia).
           assert (G : dot (sub_row (tl r) (tl p) (hd 0 r / hd 0 p)) (z ++ [0]) = 0).
           { apply Hzr. apply in_map_iff. exists r. auto. }
           rewrite dot_sub_row in G by exact Htl.
           rewrite (hd_tl r) by lia. cbn [app]. rewrite dot_cons.
           assert (hd 0 r * (- dot (tl p) (z ++ [0]) / hd 0 p)
                   = - (hd 0 r / hd 0 p * dot (tl p) (z ++ [0]))) by (field; exact E0).
           lra.
  - exists (1 :: repeat 0 n). split; [|split].
    + simpl. rewrite repeat_length. auto.
    + exists 1. split; [left; auto|lra].
    + apply pick_pivot_none in EP. subst. intros r [].
Qed.

Lemma dot_app r1 r2 x1 x2 : length r1 = length x1 ->
  dot (r1 ++ r2) (x1 ++ x2) = dot r1 x1 + dot r2 x2.
Proof.
  revert x1; induction r1 as [|a r1 IH]; intros [|b x1] H; simpl in *; try discriminate; try lra.
  rewrite IH by lia. lra.
Qed.

Lemma dot_nth r x n : length r = n -> length x = n ->
  dot r x = sumn n (fun i => nth i r 0 * nth i x 0).
Proof.
  revert r x; induction n as [|n IH]; intros [|a r] [|b x] H1 H2; try discriminate; auto.
  rewrite sumn_S_l. cbn [dot nth]. rewrite (IH r x); auto.
Qed.

Lemma dot_row n (M : nat -> R) bi x t : length x = n ->
  dot (map M (seq 0 n) ++ [bi]) (x ++ [t]) = sumn n (fun j => M j * nth j x 0) + bi * t.
Proof.
  intro H. rewrite dot_app by (rewrite map_length, seq_length; auto).
  rewrite (dot_nth _ _ n) by (try rewrite map_length, seq_length; auto).
  simpl. rewrite Rplus_0_r. f_equal. apply sumn_ext. intros j Hj. rewrite nth_map_seq by auto. auto.
Qed.

Lemma rows_of_in n M b r : In r (rows_of n M b) <->
  exists i, (i < n)%nat /\ r = map (M i) (seq 0 n) ++ [b i].
Proof.
  unfold rows_of. rewrite in_map_iff. split.
  - intros [i [<- Hi]]. apply in_seq in Hi. exists i. split; [lia|auto].
  - intros [i [Hi ->]]. exists i. split; auto. apply in_seq. lia.
Qed.

Lemma lin_solve_sound n M b x : lin_solve n M b = Some x ->
  forall i, (i < n)%nat -> sumn n (fun j => M i j * x j) = b i.
Proof.
  unfold lin_solve. destruct (gauss n (rows_of n M b)) as [y|] eqn:E; [|discriminate].
  intros H i Hi. inversion H; subst x; clear H.
  assert (Hl := gauss_length _ _ _ E).
  assert (G : dot (map (M i) (seq 0 n) ++ [b i]) (y ++ [-1]) = 0).
  { apply (gauss_sound n (rows_of n M b)); auto.
    - unfold rows_of. rewrite map_length, seq_length. auto.
    - intros r Hr. apply rows_of_in in Hr. destruct Hr as [k [_ ->]].
      rewrite app_length, map_length, seq_length. simpl. lia.
    - apply rows_of_in. exists i. auto. }
  rewrite dot_row in G by auto. lra.
Qed.

(* The kernel of M is trivial. *)
Definition nonsingular (n : nat) (M : Mx) : Prop :=
  forall x, (forall i, (i < n)%nat -> sumn n (fun j => M i j * x j) = 0) ->
            forall i, (i < n)%nat -> x i = 0.

Lemma lin_solve_some n M b : nonsingular n M -> exists x, lin_solve n M b = Some x.
Proof.
  intro N. unfold lin_solve. destruct (gauss n (rows_of n M b)) as [y|] eqn:E; [eauto|].
  exfalso. apply gauss_none in E.
  - destruct E as [z [Hz [[v [Hv Hv0]] Hr]]].
    destruct (In_nth z v 0 Hv) as [i [Hi <-]].
    apply Hv0. apply (N (fun i => nth i z 0)); [|lia].
    intros k Hk. specialize (Hr (map (M k) (seq 0 n) ++ [b k])).
    rewrite dot_row in Hr by auto.
    assert (G : sumn n (fun j => M k j * nth j z 0) + b k * 0 = 0)
      by (apply Hr; apply rows_of_in; exists k; auto).
    lra.
  - intros r Hr. apply rows_of_in in Hr. destruct Hr as [k [_ ->]].
    rewrite app_length, map_length, seq_length. simpl. lia.
Qed.

Lemma solution_unique n M b x y : nonsingular n M ->
  (forall i, (i < n)%nat -> sumn n (fun j => M i j * x j) = b i) ->
  (forall i, (i < n)%nat -> sumn n (fun j => M i j * y j) = b i) ->
  forall i, (i < n)%nat -> x i = y i.
Proof.
  intros N Hx Hy i Hi. assert (x i - y i = 0); [|lra].
  apply (N (fun i => x i - y i)); auto. intros k Hk.
  transitivity (sumn n (fun j => M k j * x j) - sumn n (fun j => M k j * y j)).
  - rewrite <- sumn_minus. apply sumn_ext. intros; lra.
  - rewrite Hx, Hy by auto. lra.
Qed.

Lemma lin_solve_mx_some n M B : nonsingular n M -> exists X, lin_solve_mx n M B = Some X.
Proof.
  intro N. unfold lin_solve_mx. destruct (lin_solve_some n M (fun _ => 0) N) as [x ->]. eauto.
Qed.

Lemma lin_solve_nonsing n M b x : lin_solve n M b = Some x ->
  forall b', exists x', lin_solve n M b' = Some x'.
Proof.
  unfold lin_solve. intros H b'.
  destruct (gauss n (rows_of n M b)) as [y|] eqn:E; [|discriminate]. clear H.
  assert (G : forall m rows rows' y, gauss m rows = Some y ->
             map (firstn m) rows = map (firstn m) rows' ->
             (forall r, In r rows -> length r = S m) ->
             (forall r, In r rows' -> length r = S m) ->
             exists y', gauss m rows' = Some y').
  { clear. induction m as [|m IH]; intros rows rows' y H He Hl Hl'; cbn [gauss] in *; [eauto|].
    assert (P : match pick_pivot rows, pick_pivot rows' with
                | None, None => True
                | Some (p, o), Some (p', o') => firstn (S m) p = firstn (S m) p' /\ map (firstn (S m)) o = map (firstn (S m)) o'
                | _, _ => False
                end).
    { clear H IH. revert rows' He Hl Hl'; induction rows as [|r rs IH]; intros [|r' rs'] He Hl Hl'; cbn [map] in He; try discriminate; [exact I|].
      assert (E1 : firstn (S m) r = firstn (S m) r') by congruence.
      assert (E2 : map (firstn (S m)) rs = map (firstn (S m)) rs') by congruence.
      specialize (IH rs' E2). specialize (IH (fun s h => Hl s (or_intror h)) (fun s h => Hl' s (or_intror h))).
      assert (H1 : hd 0 r = hd 0 r') by (destruct r, r'; simpl in E1 |- *; congruence).
      cbn [pick_pivot].
      destruct (pick_pivot rs) as [[p o]|], (pick_pivot rs') as [[p' o']|]; try contradiction.
      - destruct IH as [I1 I2]. assert (H2 : hd 0 p = hd 0 p') by (destruct p, p'; simpl in I1 |- *; congruence).
        rewrite H1, H2. destruct (Rltb _ _); split; auto; cbn [map]; congruence.
      - split; auto. }
    destruct (pick_pivot rows) as [[p o]|] eqn:EP, (pick_pivot rows') as [[p' o']|] eqn:EP'; try contradiction; try discriminate.
    destruct P as [P1 P2].
    assert (H2 : hd 0 p = hd 0 p') by (destruct p, p'; simpl in P1 |- *; congruence).
    rewrite <- H2. destruct (Reqb (hd 0 p) 0); [discriminate|].
    destruct (gauss m (map _ o)) as [z|] eqn:EZ; [|discriminate].
    destruct (pick_pivot_some _ _ _ EP) as [Hin _]. destruct (pick_pivot_some _ _ _ EP') as [Hin' _].
    assert (Lp : length p = S (S m)) by (apply Hl, Hin; auto).
    assert (Lp' : length p' = S (S m)) by (apply Hl', Hin'; auto).
    destruct (IH _ (map (fun r => sub_row (tl r) (tl p') (hd 0 r / hd 0 p)) o') _ EZ) as [z' ->]; eauto.
    - rewrite !map_map.
      assert (T1 : firstn m (tl p) = firstn m (tl p')) by (destruct p, p'; simpl in P1; simpl; congruence).
      assert (FS : forall k r q f, firstn k (sub_row r q f) = sub_row (firstn k r) (firstn k q) f).
      { induction k; intros [|a r] [|b q] f; cbn [firstn sub_row]; auto. rewrite IHk; auto. }
      clear - P2 T1 FS.
      revert o' P2; induction o as [|r o IH]; intros [|r' o'] P2; cbn [map] in *; try discriminate; auto.
      assert (E1 : firstn (S m) r = firstn (S m) r') by congruence.
      f_equal; [|apply IH; congruence].
      rewrite !FS, T1.
      assert (hd 0 r = hd 0 r') by (destruct r, r'; simpl in E1 |- *; congruence).
      assert (firstn m (tl r) = firstn m (tl r')) by (destruct r, r'; simpl in E1; simpl; congruence).
      congruence.
    - intros s Hs. apply in_map_iff in Hs. destruct Hs as [q [<- Hq]].
      assert (length q = S (S m)) by (apply Hl, Hin; auto).
      rewrite sub_row_length; destruct q, p; simpl in *; lia.
    - intros s Hs. apply in_map_iff in Hs. destruct Hs as [q [<- Hq]].
      assert (length q = S (S m)) by (apply Hl', Hin'; auto).
      rewrite sub_row_length; destruct q, p'; simpl in *; lia. }
  assert (FA : forall c, map (firstn n) (rows_of n M c) = map (fun i => map (M i) (seq 0 n)) (seq 0 n)).
  { intro c. unfold rows_of. rewrite map_map. apply map_ext. intro i.
    assert (L : length (map (M i) (seq 0 n)) = n) by (rewrite map_length, seq_length; auto).
    rewrite firstn_app, L, Nat.sub_diag. simpl. rewrite app_nil_r. rewrite <- L at 1. apply firstn_all. }
  destruct (G n (rows_of n M b) (rows_of n M b') y E) as [y' ->]; eauto.
  - rewrite !FA. reflexivity.
  - intros r Hr. apply rows_of_in in Hr. destruct Hr as [k [_ ->]].
    rewrite app_length, map_length, seq_length. simpl. lia.
  - intros r Hr. apply rows_of_in in Hr. destruct Hr as [k [_ ->]].
    rewrite app_length, map_length, seq_length. simpl. lia.
Qed.

Lemma lin_solve_mx_sound n M B X : lin_solve_mx n M B = Some X ->
  forall i j, (i < n)%nat -> sumn n (fun k => M i k * X k j) = B i j.
Proof.
  unfold lin_solve_mx. destruct (lin_solve n M (fun _ => 0)) as [x0|] eqn:E; [|discriminate].
  intros H i j Hi. inversion H; subst X; clear H.
  destruct (lin_solve_nonsing _ _ _ _ E (fun k => B k j)) as [x Hx].
  rewrite Hx. apply (lin_solve_sound _ _ _ _ Hx). auto.
Qed.

Lemma mx_vec_mul n k A B x i :
  mx_vec k (mx_mul n A B) x i = mx_vec n A (mx_vec k B x) i.
Proof.
  unfold mx_vec, mx_mul.
  transitivity (sumn k (fun j => sumn n (fun l => A i l * B l j * x j))).
  - apply sumn_ext. intros. rewrite <- sumn_scal_r. apply sumn_ext; intros; lra.
  - rewrite sumn_swap. apply sumn_ext. intros. rewrite <- sumn_scal. apply sumn_ext; intros; lra.
Qed.
