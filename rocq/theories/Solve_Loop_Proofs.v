(** The time loops of the solver. *)
From Verif Require Import Base LinAlg Bore_Model Net_Model Solve_Model Solve_Spec Solve_Rec_Proofs.

Lemma upd_mid {A} (a b : list A) x y : upd (a ++ x :: b) (length a) y = a ++ y :: b.
Proof. induction a as [|c a IH]; simpl; auto. rewrite IH. auto. Qed.

Lemma slice_mid {A} (a b c : list A) : slice (length a) (length a + length b) (a ++ b ++ c) = b.
Proof.
  unfold slice. rewrite skipn_app, skipn_all, Nat.sub_diag. cbn [skipn app].
  replace (length a + length b - length a)%nat with (length b) by lia. rewrite firstn_app, firstn_all, Nat.sub_diag. cbn. apply app_nil_r.
Qed.

(** ** Uniform heat extraction rates *)
Section Uhtr.
  Variables (n : nat) (H : vec) (h : nat -> nat -> nat -> R).
  Definition row_sum (p : nat) : vec := fun i => sumn n (fun j => h i j p).
  Definition g_of (p : nat) : R := sumn n (fun i => row_sum p i * H i) / H_total n H.

  Lemma uhtr_loop_spec p0 m : forall p g T,
    length g = (p0 + p)%nat -> length T = (p0 + p)%nat ->
    uhtr_loop n H h p0 (seq p m) (g ++ repeat 0 m, T ++ repeat zero_vec m)
    = (g ++ map g_of (seq p m), T ++ map row_sum (seq p m)).
  Proof.
    induction m as [|m IH]; intros p g T Lg LT.
    - simpl. rewrite !app_nil_r. auto.
    - cbn [seq repeat uhtr_loop map]. cbn [fst snd].
      replace (p + p0)%nat with (length T) by lia. rewrite upd_mid. rewrite app_nth2, Nat.sub_diag by lia. cbn [nth].
      replace (length T) with (length g) by lia. rewrite upd_mid.
      specialize (IH (S p) (g ++ [g_of p]) (T ++ [row_sum p]) ltac:(rewrite app_length; simpl; lia) ltac:(rewrite app_length; simpl; lia)).
      rewrite <- !app_assoc in IH. exact IH.
  Qed.
End Uhtr.

(** ** Loops with a system of equations *)
Section Loops.
  Variables (n : nat) (H : vec) (trf : list R -> nat -> nat -> nat -> R).
  Local Notation step := (step_data n trf).

  Lemma step_slice tl p0 p z qs m : length z = p0 -> length qs = p ->
    step tl p0 p (z ++ qs ++ repeat zero_vec (S m)) = step tl 0 p (qs ++ [zero_vec]).
  Proof.
    intros Lz Lq. unfold step_data.
    replace (slice p0 (p + p0 + 1) (z ++ qs ++ repeat zero_vec (S m))) with (qs ++ [zero_vec]).
    - replace (slice 0 (p + 0 + 1) (qs ++ [zero_vec])) with (qs ++ [zero_vec]); auto.
      unfold slice. cbn [skipn]. rewrite firstn_all2; auto. rewrite app_length; simpl; lia.
    - replace (p + p0 + 1)%nat with (p0 + length (qs ++ [zero_vec]))%nat by (rewrite app_length; simpl; lia). subst p0.
      replace (qs ++ repeat zero_vec (S m)) with ((qs ++ [zero_vec]) ++ repeat zero_vec m) by (rewrite <- app_assoc; auto).
      rewrite slice_mid. auto.
  Qed.

  (** the loop with the solution of a step left open *)
  Section Generic.
    Context {O : Type}.
    Variable sol : Mx -> vec -> option (vec * O).

    Fixpoint grun (tl : list R) (ps : list nat) (s : list vec * list O) : option (list vec * list O) :=
      match ps with
      | [] => Some s
      | p :: r =>
          match step tl 0 p (fst s ++ [zero_vec]) with
          | None => None
          | Some (h_dt, T_b0) =>
              match sol h_dt T_b0 with
              | None => None
              | Some (q, o) => grun tl r (fst s ++ [q], snd s ++ [o])
              end
          end
      end.

    Lemma grun_spec tl m : forall p qs os qs' os' d, length qs = p -> length os = p ->
      grun tl (seq p m) (qs, os) = Some (qs', os') ->
      (exists a, qs' = qs ++ a /\ length a = m) /\ (exists b, os' = os ++ b /\ length b = m) /\
      forall k, (p <= k < p + m)%nat -> exists h_dt T_b0,
        step tl 0 k (firstn k qs' ++ [zero_vec]) = Some (h_dt, T_b0) /\ sol h_dt T_b0 = Some (nth k qs' zero_vec, nth k os' d).
    Proof.
      induction m as [|m IH]; intros p qs os qs' os' d Lq Lo E.
      - cbn in E. injection E as <- <-. split; [exists []; rewrite app_nil_r; auto|]. split; [exists []; rewrite app_nil_r; auto|]. intros. lia.
      - cbn [seq grun fst snd] in E. destruct (step tl 0 p (qs ++ [zero_vec])) as [[h_dt T_b0]|] eqn:Es; [|discriminate].
        destruct (sol h_dt T_b0) as [[q o]|] eqn:Eo; [|discriminate].
        destruct (IH (S p) (qs ++ [q]) (os ++ [o]) qs' os' d ltac:(rewrite app_length; simpl; lia) ltac:(rewrite app_length; simpl; lia) E) as [[a [Ea La]] [[b [Eb Lb]] K]].
        split; [exists (q :: a); rewrite Ea, <- app_assoc; simpl; auto|]. split; [exists (o :: b); rewrite Eb, <- app_assoc; simpl; auto|].
        intros k Hk. destruct (Nat.eq_dec k p) as [->|N]; [|apply K; lia].
        exists h_dt, T_b0. rewrite Ea, Eb. rewrite <- app_assoc. rewrite firstn_app. replace (p - length qs)%nat with 0%nat by lia. cbn [firstn].
        rewrite app_nil_r, firstn_all2 by lia. split; auto. rewrite Eo. rewrite <- app_assoc.
        rewrite (app_nth2 qs), (app_nth2 os) by lia. rewrite Lq, Lo, Nat.sub_diag. auto.
    Qed.
  End Generic.

  Definition ubwt_sol (h_dt : Mx) (T_b0 : vec) : option (vec * R) :=
    match lin_solve (n + 1) (ubwt_A n H h_dt) (ubwt_B n H T_b0) with
    | None => None
    | Some X => Some (fun i => if Nat.ltb i n then X i else 0, X n)
    end.

  Lemma ubwt_sim tl p0 m : forall p z w qs os, length z = p0 -> length w = p0 -> length qs = p -> length os = p ->
    ubwt_loop n H trf tl p0 (seq p m) (z ++ qs ++ repeat zero_vec m, w ++ os ++ repeat 0 m)
    = match grun ubwt_sol tl (seq p m) (qs, os) with None => None | Some (a, b) => Some (z ++ a, w ++ b) end.
  Proof.
    induction m as [|m IH]; intros p z w qs os Lz Lw Lq Lo.
    - cbn. rewrite !app_nil_r. auto.
    - cbn [seq grun ubwt_loop]. cbn [fst snd]. rewrite (step_slice tl p0 p z qs m) by auto.
      destruct (step tl 0 p (qs ++ [zero_vec])) as [[h_dt T_b0]|]; auto. unfold ubwt_sol at 1.
      destruct (lin_solve (n + 1) (ubwt_A n H h_dt) (ubwt_B n H T_b0)) as [X|]; auto.
      set (q := fun i => if Nat.ltb i n then X i else 0). cbn [repeat].
      replace (upd (z ++ qs ++ zero_vec :: repeat zero_vec m) (p + p0) q) with (z ++ (qs ++ [q]) ++ repeat zero_vec m).
      2:{ rewrite !app_assoc. replace (p + p0)%nat with (length (z ++ qs)) by (rewrite app_length; lia). rewrite upd_mid. rewrite <- !app_assoc. auto. }
      replace (upd (w ++ os ++ 0 :: repeat 0 m) (p + p0) (X n)) with (w ++ (os ++ [X n]) ++ repeat 0 m).
      2:{ rewrite !app_assoc. replace (p + p0)%nat with (length (w ++ os)) by (rewrite app_length; lia). rewrite upd_mid. rewrite <- !app_assoc. auto. }
      rewrite IH by (auto; rewrite app_length; simpl; lia). auto.
  Qed.

  Variables (k_s : R) (Hi : vec) (F : flow).

  Definition mift_sol (h_dt : Mx) (T_b0 : vec) : option (vec * (vec * R)) :=
    match lin_solve (2 * n + 1) (mift_A n H k_s Hi F h_dt) (mift_B n H T_b0) with
    | None => None
    | Some X => Some (fun i => if Nat.ltb i n then X i else 0,
                      (fun i => if Nat.ltb i n then X (n + i)%nat else 0, effective n H k_s F (X (2 * n)%nat)))
    end.

  Lemma mift_sim tl p0 m : forall p z w qs os, length z = p0 -> length w = p0 -> length qs = p -> length os = p ->
    mift_loop n H trf k_s Hi F tl p0 (seq p m)
      (z ++ qs ++ repeat zero_vec m, z ++ map fst os ++ repeat zero_vec m, w ++ map snd os ++ repeat 0 m)
    = match grun mift_sol tl (seq p m) (qs, os) with None => None | Some (a, b) => Some (z ++ a, z ++ map fst b, w ++ map snd b) end.
  Proof.
    induction m as [|m IH]; intros p z w qs os Lz Lw Lq Lo.
    - cbn. rewrite !app_nil_r. auto.
    - cbn [seq grun mift_loop]. cbn [fst snd]. rewrite (step_slice tl p0 p z qs m) by auto.
      destruct (step tl 0 p (qs ++ [zero_vec])) as [[h_dt T_b0]|]; auto. unfold mift_sol at 1.
      destruct (lin_solve (2 * n + 1) (mift_A n H k_s Hi F h_dt) (mift_B n H T_b0)) as [X|]; auto.
      set (q := fun i => if Nat.ltb i n then X i else 0). set (t := fun i => if Nat.ltb i n then X (n + i)%nat else 0).
      set (e := effective n H k_s F (X (2 * n)%nat)). cbn [repeat].
      assert (U : forall (y : vec) (ys : list vec), length ys = p -> upd (z ++ ys ++ zero_vec :: repeat zero_vec m) (p + p0) y = z ++ (ys ++ [y]) ++ repeat zero_vec m).
      { intros y ys Ly. rewrite !app_assoc. replace (p + p0)%nat with (length (z ++ ys)) by (rewrite app_length; lia). rewrite upd_mid. rewrite <- !app_assoc. auto. }
      rewrite U by auto. rewrite U by (rewrite map_length; auto).
      replace (upd (w ++ map snd os ++ 0 :: repeat 0 m) (p + p0) e) with (w ++ (map snd os ++ [e]) ++ repeat 0 m).
      2:{ rewrite !app_assoc. replace (p + p0)%nat with (length (w ++ map snd os)) by (rewrite app_length, map_length; lia). rewrite upd_mid. rewrite <- !app_assoc. auto. }
      specialize (IH (S p) z w (qs ++ [q]) (os ++ [(t, e)])). rewrite !map_app in IH. cbn [map fst snd] in IH.
      apply IH; auto; rewrite app_length; simpl; lia.
  Qed.
End Loops.

(** ** The times that are solved for *)
Lemma right_zero l x : searchsorted_right l x = O <-> l = [] \/ x < hd 0 l.
Proof.
  destruct l as [|a l]; simpl; [intuition|]. destruct (Rleb a x) eqn:E.
  - apply Rleb_true in E. split; [discriminate|]. intros [N|N]; [discriminate|lra].
  - apply Rleb_false in E. intuition.
Qed.

Lemma right_le l x : (searchsorted_right l x <= length l)%nat.
Proof. induction l as [|a l IH]; simpl; [lia|]. destruct (Rleb a x); lia. Qed.

Lemma right_below l x k : (k < searchsorted_right l x)%nat -> nth k l 0 <= x.
Proof.
  revert k. induction l as [|a l IH]; intros k Hk; simpl in *; [lia|]. destruct (Rleb a x) eqn:E; [|lia].
  apply Rleb_true in E. destruct k; auto. apply IH. lia.
Qed.

Lemma sorted_tl a l : sorted (a :: l) -> sorted l.
Proof. intros S i j L Hj. apply (S (Datatypes.S i) (Datatypes.S j)); simpl; lia. Qed.

Lemma right_above l x k : sorted l -> (searchsorted_right l x <= k)%nat -> (k < length l)%nat -> x < nth k l 0.
Proof.
  revert k. induction l as [|a l IH]; intros k S Hk Hl; simpl in *; [lia|]. destruct (Rleb a x) eqn:E.
  - destruct k; [lia|]. apply IH; try lia. eapply sorted_tl; eauto.
  - apply Rleb_false in E. pose proof (S O k ltac:(lia) ltac:(simpl; lia)) as B. cbn in B. lra.
Qed.

Lemma time_long_kept time thr : sorted time -> time_long time thr = kept time thr.
Proof.
  intros S. unfold time_long, kept, p_long.
  destruct (existsb (fun t => Rleb t thr) time) eqn:E.
  - apply existsb_exists in E. destruct E as [t [Ht Lt]]. apply Rleb_true in Lt. apply (In_nth _ _ 0) in Ht. destruct Ht as [k [Hk <-]].
    destruct (Nat.ltb_spec 0 (searchsorted_right time thr)) as [L|L].
    + f_equal. clear k Hk Lt L. induction time as [|a time IH]; auto. simpl. destruct (Rleb a thr) eqn:E.
      * apply Rleb_true in E. destruct (Rltb thr a) eqn:E2; [apply Rltb_true in E2; lra|]. cbn. apply IH. eapply sorted_tl; eauto.
      * apply Rleb_false in E. cbn [skipn]. destruct (Rltb thr a) eqn:E2; [|apply Rltb_false in E2; lra]. f_equal.
        symmetry. assert (A : forall x, In x time -> thr < x).
        { intros x Hx. apply (In_nth _ _ 0) in Hx. destruct Hx as [k [Hk <-]]. pose proof (S O (Datatypes.S k) ltac:(lia) ltac:(simpl; lia)) as B. cbn in B. lra. }
        clear -A. induction time as [|b time IH]; auto. simpl. destruct (Rltb thr b) eqn:E.
        -- f_equal. apply IH. intros; apply A; right; auto.
        -- apply Rltb_false in E. pose proof (A b (or_introl eq_refl)). lra.
    + exfalso. assert (Z : searchsorted_right time thr = O) by lia. pose proof (right_above time thr k S ltac:(lia) Hk). lra.
  - destruct (Nat.ltb_spec 0 (searchsorted_right time thr)) as [L|L]; auto. exfalso.
    pose proof (right_below time thr O L) as B. assert (In (nth 0 time 0) time) by (apply nth_In; pose proof (right_le time thr); lia).
    rewrite <- not_true_iff_false in E. apply E. apply existsb_exists. exists (nth 0 time 0). split; auto. apply Rleb_true. auto.
Qed.

Lemma long_length time thr : (p_zero time thr + length (time_long time thr) = length time)%nat.
Proof.
  unfold p_zero, time_long, p_long. pose proof (right_le time thr). destruct (Nat.ltb_spec 0 (searchsorted_right time thr)); simpl; rewrite ?skipn_length; lia.
Qed.

Lemma long_nth time thr k : (p_long time thr <= k)%nat -> (k < length time)%nat ->
  (k - p_zero time thr < length (time_long time thr))%nat /\ nth (k - p_zero time thr) (time_long time thr) 0 = nth k time 0.
Proof.
  intros Hk Hl. pose proof (long_length time thr). unfold p_zero in *. split; [lia|]. unfold time_long.
  destruct (Nat.ltb_spec 0 (p_long time thr)) as [L|L].
  - replace (k - (p_long time thr - 1))%nat with (S (k - p_long time thr)) by lia. cbn [nth]. rewrite nth_skipn. f_equal. lia.
  - f_equal. lia.
Qed.

(** linearisation of values computed on the kept times *)
Lemma lin_spec time thr (g' : list R) : sorted time -> length g' = length (time_long time thr) ->
  linear_then time thr (fun k => nth k (linearise time thr (repeat 0 (p_zero time thr) ++ g')) 0) (fun j => nth j g' 0).
Proof.
  intros S L k Hk. pose proof (long_length time thr) as LL. pose proof (right_le time thr) as RL. fold (p_long time thr) in RL.
  set (g := repeat 0 (p_zero time thr) ++ g'). assert (Lg : length g = length time) by (unfold g; rewrite app_length, repeat_length; lia).
  assert (G : forall j, (p_zero time thr <= j)%nat -> nth j g 0 = nth (j - p_zero time thr) g' 0).
  { intros j Hj. unfold g. rewrite app_nth2 by (rewrite repeat_length; auto). rewrite repeat_length. auto. }
  unfold linearise. destruct (Nat.ltb_spec 0 (p_long time thr)) as [P|P].
  - split; intros B.
    + rewrite nth_map_seq by lia. destruct (Nat.ltb_spec k (p_long time thr)) as [Q|Q].
      * rewrite G by lia. rewrite Nat.sub_diag. unfold Rdiv. ring.
      * exfalso. pose proof (right_above time thr k S Q Hk). lra.
    + rewrite nth_map_seq by lia. destruct (Nat.ltb_spec k (p_long time thr)) as [Q|Q].
      * exfalso. pose proof (right_below time thr k Q). lra.
      * destruct (long_nth time thr k Q Hk) as [N1 N2]. exists (k - p_zero time thr)%nat. rewrite <- time_long_kept by auto.
        refine (conj N1 (conj N2 _)). apply G. unfold p_zero. lia.
  - split; intros B.
    + exfalso. pose proof (right_above time thr k S ltac:(unfold p_long in *; lia) Hk). lra.
    + destruct (long_nth time thr k ltac:(lia) Hk) as [N1 N2]. exists (k - p_zero time thr)%nat. rewrite <- time_long_kept by auto.
      refine (conj N1 (conj N2 _)). apply G. unfold p_zero. lia.
Qed.

(** the same for vectors *)
Lemma lin_vec_spec time thr (T' : list vec) i : sorted time -> length T' = length (time_long time thr) ->
  linear_then time thr (fun k => nth k (linearise_vec time thr (repeat zero_vec (p_zero time thr) ++ T')) zero_vec i) (fun j => nth j T' zero_vec i).
Proof.
  intros S L k Hk. pose proof (long_length time thr) as LL. pose proof (right_le time thr) as RL. fold (p_long time thr) in RL.
  set (g := repeat zero_vec (p_zero time thr) ++ T'). assert (Lg : length g = length time) by (unfold g; rewrite app_length, repeat_length; lia).
  assert (G : forall j, (p_zero time thr <= j)%nat -> nth j g zero_vec = nth (j - p_zero time thr) T' zero_vec).
  { intros j Hj. unfold g. rewrite app_nth2 by (rewrite repeat_length; auto). rewrite repeat_length. auto. }
  unfold linearise_vec. destruct (Nat.ltb_spec 0 (p_long time thr)) as [P|P].
  - split; intros B.
    + rewrite nth_map_seq by lia. destruct (Nat.ltb_spec k (p_long time thr)) as [Q|Q].
      * rewrite G by lia. rewrite Nat.sub_diag. unfold Rdiv. ring.
      * exfalso. pose proof (right_above time thr k S Q Hk). lra.
    + rewrite nth_map_seq by lia. destruct (Nat.ltb_spec k (p_long time thr)) as [Q|Q].
      * exfalso. pose proof (right_below time thr k Q). lra.
      * destruct (long_nth time thr k Q Hk) as [N1 N2]. exists (k - p_zero time thr)%nat. rewrite <- time_long_kept by auto.
        refine (conj N1 (conj N2 _)). rewrite G; auto. unfold p_zero. lia.
  - split; intros B.
    + exfalso. pose proof (right_above time thr k S ltac:(unfold p_long in *; lia) Hk). lra.
    + destruct (long_nth time thr k ltac:(lia) Hk) as [N1 N2]. exists (k - p_zero time thr)%nat. rewrite <- time_long_kept by auto.
      refine (conj N1 (conj N2 _)). rewrite G; auto. unfold p_zero. lia.
Qed.

(** loads: the linear part goes from 1 to the value at the threshold *)
Lemma lin_loads_spec time thr (Q' : list vec) k : length Q' = length (time_long time thr) -> (k < length time)%nat ->
  (exists j, (j < length Q')%nat /\ nth k (linearise_loads time thr (repeat zero_vec (p_zero time thr) ++ Q')) zero_vec = nth j Q' zero_vec) \/
  (exists c, forall i, nth k (linearise_loads time thr (repeat zero_vec (p_zero time thr) ++ Q')) zero_vec i = 1 + (nth 0 Q' zero_vec i - 1) * c).
Proof.
  intros L Hk. pose proof (long_length time thr) as LL. pose proof (right_le time thr) as RL. fold (p_long time thr) in RL.
  set (g := repeat zero_vec (p_zero time thr) ++ Q'). assert (Lg : length g = length time) by (unfold g; rewrite app_length, repeat_length; lia).
  assert (G : forall j, (p_zero time thr <= j)%nat -> nth j g zero_vec = nth (j - p_zero time thr) Q' zero_vec).
  { intros j Hj. unfold g. rewrite app_nth2 by (rewrite repeat_length; auto). rewrite repeat_length. auto. }
  unfold linearise_loads. destruct (Nat.ltb_spec 0 (p_long time thr)) as [P|P].
  - rewrite nth_map_seq by lia. destruct (Nat.ltb_spec k (p_long time thr)) as [Q|Q].
    + right. exists (nth k time 0 / thr). intros i. rewrite G by lia. rewrite Nat.sub_diag. unfold Rdiv. ring.
    + left. exists (k - p_zero time thr)%nat. unfold p_zero in *. split; [lia|]. apply G. lia.
  - left. exists (k - p_zero time thr)%nat. unfold p_zero in *. split; [lia|]. apply G. lia.
Qed.

(** no linearisation when the threshold is below all the times *)
Lemma no_long time thr : (forall t, In t time -> thr < t) -> p_long time thr = O.
Proof.
  intros B. apply right_zero. destruct time as [|a l]; [left; auto|right]. cbn. apply B. left; auto.
Qed.
