(** The response factors between equivalent boreholes. *)
From Verif Require Import Base TimeGrid_Spec LinAlg FLS_Model FLS_Sol_Proofs.
From Verif Require Import Bore_Model Solve_Model Detailed_Model Detailed_Spec Sim_Model Sim_Spec Sim_Cells_Proofs Sim_Exact_Proofs Sim_Group_Proofs Sim_Matrix_Proofs
  Eq_Model Eq_Spec Eq_Group_Proofs Eq_Dist_Proofs.
From Coq Require Import Permutation.

Local Notation no_eb := (EBore 0 0 0 [] [] 0 []).

(** sum over the distances with weights *)
Lemma weights_sum dis l (f : R -> R) : dis <> [] \/ l = [] -> increasing dis -> exists w, weights dis l = Some w /\
  Rsum (map (fun c => snd c * f (fst c)) (combine dis (map INR w))) = Rsum (map (fun x => f (nth (closest dis x) dis 0)) l).
Proof.
  intros N I. rewrite weights_some by auto. eexists. split; [reflexivity|].
  destruct (add_all dis l (repeat O (length dis))) as [A B]. { intros x Hx. rewrite repeat_length. destruct N as [N| ->]; [apply closest_spec; auto|destruct Hx]. }
  rewrite repeat_length in A. set (w := fold_left (add_one dis) l (repeat O (length dis))) in *.
  assert (W : forall k, nth k w O = count_occ Nat.eq_dec (map (closest dis) l) k). { intros k. rewrite B, nth_repeat0. auto. }
  assert (C : forall x, In x (map (closest dis) l) -> (x < length dis)%nat).
  { intros x Hx. apply in_map_iff in Hx. destruct Hx as [y [<- Hy]]. destruct N as [N| ->]; [apply closest_spec; auto|destruct Hy]. }
  rewrite <- (map_map (closest dis) (fun k => f (nth k dis 0))). set (a := map (closest dis) l) in *.
  assert (Ct : counts dis (map (fun k => nth k dis 0) a) w).
  { exists a. split; [rewrite map_length; auto|]. split; [|split; auto]. intros q Hq. rewrite map_length in Hq. split; [apply C, nth_In; auto|].
    intros k Hk. rewrite (nth_map _ _ _ O) by auto. rewrite Rminus_eq_0, Rabs_R0. apply Rabs_pos. }
  destruct (counts_sum _ _ _ f Ct) as [a' [La' [Qa' ->]]]. rewrite map_length in *. f_equal. apply (list_eq_nth 0); [rewrite !map_length; auto|].
  intros q Hq. rewrite map_length in Hq. rewrite !(nth_map _ _ _ O) by lia. destruct (Qa' q ltac:(lia)) as [_ D]. specialize (D (nth q a O) ltac:(apply C, nth_In; lia)).
  rewrite (nth_map _ _ _ O) in D by lia. rewrite Rminus_eq_0, Rabs_R0 in D. pose proof (Rabs_pos (nth (nth q a O) dis 0 - nth (nth q a' O) dis 0)).
  f_equal. destruct (Req_dec (nth (nth q a O) dis 0 - nth (nth q a' O) dis 0) 0) as [Z|Z]; [lra|]. apply Rabs_pos_lt in Z. lra.
Qed.

Lemma cell_inj n j b j' b' : (b < n)%nat -> (b' < n)%nat -> (n * j + b = n * j' + b')%nat -> j = j' /\ b = b'.
Proof. intros H H' E. assert (j = j') by nia. subst. lia. Qed.

Lemma cumsum_from_length l : forall a, length (cumsum_from a l) = length l.
Proof. induction l; intros; cbn; auto. Qed.

(** segments of an equivalent borehole *)
Lemma eb_seg_nth e n r a : etilt e = 0 -> length (eori e) = length (ex e) -> (a < length r)%nat ->
  let s := nth a (eb_segments e n (Some r)) no_eb in
  eH s = nth a r 0 * eH e /\ eD s = eD e + nth a (0 :: cumsum r) 0 * eH e /\ er s = er e /\ length (ex s) = length (ex e).
Proof.
  intros T L Ha s. unfold s, eb_segments, eb_edges. cbn [default_ratios].
  assert (Lc : length (cumsum r) = length r) by (unfold cumsum; apply cumsum_from_length).
  assert (Lm : length (removelast (map (fun z => z * eH e) (0 :: cumsum r))) = length r).
  { rewrite removelast_firstn_len, firstn_length, map_length. cbn [length]. lia. }
  rewrite (nth_map _ _ _ (0, 0)) by (rewrite combine_length; lia). rewrite combine_nth by auto. cbn [eH eD er ex].
  rewrite removelast_firstn_len, nth_firstn by (rewrite map_length; cbn [length]; lia). rewrite (nth_map _ _ _ 0) by (cbn [length]; lia).
  rewrite T, cos_0. repeat split; try ring. rewrite map_length, combine_length. lia.
Qed.
Lemma eb_seg_length e n r : length (eb_segments e n (Some r)) = length r.
Proof.
  unfold eb_segments, eb_edges. cbn [default_ratios]. rewrite map_length, combine_length, removelast_firstn_len, firstn_length, map_length. cbn [length].
  assert (Lc : length (cumsum r) = length r) by (unfold cumsum; apply cumsum_from_length). lia.
Qed.

Section Blocks.
  Variables (tol u M : R) (E : list ebore) (n : nat) (r dis : list R) (alpha t : R).
  Local Notation nE := (length E).
  Local Notation e_ i := (nth i E no_eb).
  Local Notation N_ i := (length (ex (e_ i))).
  Hypothesis Hu : / 10 ^ 30 < u.
  Hypothesis Ht : 0 < tol.
  Hypothesis HM : tol * (2 * M + / 10 ^ 30) <= u.
  Hypothesis Ha : 0 < alpha.
  Hypothesis Htt : 0 < t.
  Hypothesis Wf : forall i, (i < nE)%nat -> length (ey (e_ i)) = N_ i /\ length (eori (e_ i)) = N_ i /\ (0 < N_ i)%nat /\ etilt (e_ i) = 0 /\ 0 < er (e_ i).
  Hypothesis Lr : length r = n.
  Definition es (i a : nat) : bore := dims (nth a (eb_segments (e_ i) n (Some r)) no_eb).
  Hypothesis Sz : forall i, (i < nE)%nat -> sized u M (dims (e_ i)).
  Hypothesis Sg : forall i a, (i < nE)%nat -> (a < n)%nat -> sized u M (es i a).
  Hypothesis Lv : forall i j, (i < nE)%nat -> (j < nE)%nat -> eH (e_ i) = eH (e_ j) -> eD (e_ i) = eD (e_ j).
  Hypothesis Ra : forall i j, (i < nE)%nat -> (j < nE)%nat -> Rabs (er (e_ i) - er (e_ j)) < tol * er (e_ i) -> er (e_ i) = er (e_ j).
  Hypothesis Dp : forall x, In x dis -> 0 < x.
  Hypothesis Di : increasing dis.
  Hypothesis Dn : dis <> [] \/ forall i j, (i < nE)%nat -> (j < nE)%nat -> pair_distances E i j = [].
  (** sums do not depend on the order of the pair *)
  Hypothesis Sy : forall i j f, (i < nE)%nat -> (j < nE)%nat -> Rsum (map f (pair_distances E i j)) = Rsum (map f (pair_distances E j i)).

  Definition near (x : R) : R := nth (closest dis x) dis 0.
  Definition offsum (i j : nat) (p : pair) : R := Rsum (map (fun d => kernel_v alpha t (near d) p) (pair_distances E i j)).
  Definition off (i j a b : nat) : R := offsum i j (es i a, es j b) / INR (N_ j).

  Lemma es_dims i a : (i < nE)%nat -> (a < n)%nat -> bH (es i a) = nth a r 0 * eH (e_ i) /\ bD (es i a) = eD (e_ i) + nth a (0 :: cumsum r) 0 * eH (e_ i).
  Proof.
    intros Hi Hx. destruct (Wf i Hi) as [_ [W2 [_ [W4 _]]]]. destruct (eb_seg_nth (e_ i) n r a W4 W2 ltac:(lia)) as [Q1 [Q2 _]]. unfold es, dims. cbn [bH bD]. auto.
  Qed.

  Definition alike (ij mn : nat * nat) : Prop :=
    eH (e_ (fst ij)) = eH (e_ (fst mn)) /\ eD (e_ (fst ij)) = eD (e_ (fst mn)) /\ eH (e_ (snd ij)) = eH (e_ (snd mn)) /\ eD (e_ (snd ij)) = eD (e_ (snd mn)).

  Lemma compare_alike i j p q : (i < nE)%nat -> (j < nE)%nat -> (p < nE)%nat -> (q < nE)%nat ->
    compare_vertical tol (dims (e_ i), dims (e_ j)) (dims (e_ p), dims (e_ q)) = true -> alike (i, j) (p, q).
  Proof.
    intros Hi Hj Hp Hq C. destruct (compare_v_exact tol u M Hu Ht HM (dims (e_ i), dims (e_ j)) (dims (e_ p), dims (e_ q)) (Sz i Hi) (Sz j Hj) (Sz p Hp) (Sz q Hq) C) as [E1 [E2 D]].
    cbn [fst snd dims bH bD] in *. unfold alike. cbn [fst snd]. destruct D as [[D1 D2]|[EH [D1 D2]]]; auto.
  Qed.

  (** indices of the segments *)
  Lemma place_nth i l k : (i < nE)%nat -> (k < length l)%nat -> nth k (place E n i l) O = (n * i + nth k l O)%nat.
  Proof.
    intros Hi Hk. unfold place. rewrite (nth_map _ _ _ O) by auto. f_equal. unfold i0_segments. rewrite nth_map_seq by auto.
    clear - Hi. revert Hi. generalize nE as m. induction i as [|i IH]; intros m Hm; [cbn; lia|]. destruct m as [|m]; [lia|]. cbn [repeat firstn]. cbn [list_sum fold_right].
    change (fold_right Nat.add O (firstn i (repeat n m))) with (list_sum (firstn i (repeat n m))). rewrite IH by lia. nia.
  Qed.
  Lemma i_pair_len : length (eq_i_pair n) = (n * n)%nat.
  Proof. unfold eq_i_pair. rewrite (flat_length _ n) by (intros; apply repeat_length). rewrite seq_length. auto. Qed.
  Lemma j_pair_len : length (eq_j_pair n) = (n * n)%nat.
  Proof. unfold eq_j_pair. rewrite concat_repeat, (flat_length _ n) by (intros; apply seq_length). rewrite repeat_length. auto. Qed.
  Lemma i_pair_at a b : (a < n)%nat -> (b < n)%nat -> nth (a * n + b) (eq_i_pair n) O = a.
  Proof.
    intros A B. unfold eq_i_pair. rewrite (nth_flat _ n _ a b O O) by (auto; try (intros; apply repeat_length); rewrite seq_length; auto).
    rewrite seq_nth by auto. cbn [plus]. rewrite (nth_indep _ O a) by (rewrite repeat_length; auto). apply nth_repeat.
  Qed.
  Lemma j_pair_at a b : (a < n)%nat -> (b < n)%nat -> nth (a * n + b) (eq_j_pair n) O = b.
  Proof.
    intros A B. unfold eq_j_pair. rewrite concat_repeat, (nth_flat _ n _ a b tt O) by (auto; try (intros; apply seq_length); rewrite repeat_length; auto).
    apply seq_nth; auto.
  Qed.

  Lemma cells_are {V} (vals : list V) dv i j rr cc v : (i < nE)%nat -> (j < nE)%nat -> length vals = (n * n)%nat ->
    In ((rr, cc), v) (combine (combine (place E n j (eq_j_pair n)) (place E n i (eq_i_pair n))) vals) <->
    exists a b, (a < n)%nat /\ (b < n)%nat /\ rr = (n * j + b)%nat /\ cc = (n * i + a)%nat /\ v = nth (a * n + b) vals dv.
  Proof.
    intros Hi Hj L. assert (L1 : length (place E n j (eq_j_pair n)) = (n * n)%nat) by (unfold place; rewrite map_length; apply j_pair_len).
    assert (L2 : length (place E n i (eq_i_pair n)) = (n * n)%nat) by (unfold place; rewrite map_length; apply i_pair_len).
    assert (Q : forall a b, (a < n)%nat -> (b < n)%nat -> nth (a * n + b) (combine (combine (place E n j (eq_j_pair n)) (place E n i (eq_i_pair n))) vals) ((O, O), dv)
      = (((n * j + b)%nat, (n * i + a)%nat), nth (a * n + b) vals dv)).
    { intros a b A B. assert (P : (a * n + b < n * n)%nat) by nia. rewrite combine_nth by (rewrite combine_length; lia). rewrite combine_nth by lia.
      rewrite !place_nth by (auto; rewrite ?i_pair_len, ?j_pair_len; auto). rewrite i_pair_at, j_pair_at by auto. auto. }
    split.
    - intros I. destruct (In_nth _ _ ((O, O), dv) I) as [p [Hp Ep]]. rewrite !combine_length, L1, L2, L in Hp. destruct (position n n p ltac:(lia)) as [a [b [A [B ->]]]].
      rewrite Q in Ep by auto. injection Ep as <- <- <-. exists a, b. auto.
    - intros [a [b [A [B [-> [-> ->]]]]]]. rewrite <- Q by auto. apply nth_In. rewrite !combine_length, L1, L2, L. assert (a * n + b < n * n)%nat by nia. lia.
  Qed.

  Lemma eq_map_spec i j U kp : (i < nE)%nat -> (j < nE)%nat -> eq_map_pairs tol E n r i j = (U, kp) ->
    length kp = (n * n)%nat /\ forall a b, (a < n)%nat -> (b < n)%nat ->
      exists a' b', (a' < n)%nat /\ (b' < n)%nat /\ nth (nth (a * n + b) kp O) U (no_bore, no_bore) = (es i a', es j b') /\
        ((a', b') = (a, b) \/ compare_vertical tol (es i a, es j b) (es i a', es j b') = true).
  Proof.
    intros Hi Hj. unfold eq_map_pairs. set (l1 := map dims (eb_segments (e_ i) n (Some r))). set (l2 := map dims (eb_segments (e_ j) n (Some r))). intros Eq.
    assert (L1 : length l1 = n) by (unfold l1; rewrite map_length, eb_seg_length; auto). assert (L2 : length l2 = n) by (unfold l2; rewrite map_length, eb_seg_length; auto).
    assert (N1 : forall a, (a < n)%nat -> nth a l1 no_bore = es i a) by (intros; unfold l1, es; rewrite (nth_map _ _ _ no_eb) by (rewrite eb_seg_length; lia); auto).
    assert (N2 : forall a, (a < n)%nat -> nth a l2 no_bore = es j a) by (intros; unfold l2, es; rewrite (nth_map _ _ _ no_eb) by (rewrite eb_seg_length; lia); auto).
    destruct (unique_pairs_spec (compare_vertical tol) (no_bore, no_bore) (list_prod l1 l2) [] U kp Eq) as [[W [-> I]] [L [Nn _]]].
    assert (LP : @length pair (list_prod l1 l2) = (n * n)%nat) by (etransitivity; [exact (prod_length l1 l2)|rewrite L1, L2; auto]).
    split; [congruence|]. intros a b A B. assert (P : (a * n + b < n * n)%nat) by nia.
    destruct (Nn (a * n + b)%nat ltac:(rewrite LP; auto)) as [K C].
    assert (Ep : nth (a * n + b) (list_prod l1 l2) (no_bore, no_bore) = (es i a, es j b)) by (rewrite <- L2 at 1; rewrite nth_list_prod, N1, N2 by lia; auto).
    unfold pair in *. rewrite Ep in C. set (k := nth (a * n + b) kp O) in *. change ([] ++ W) with W in *.
    assert (Iw : In (nth k W (no_bore, no_bore)) (list_prod l1 l2)) by (apply I, nth_In; auto).
    destruct (nth k W (no_bore, no_bore)) as [s1 s2] eqn:Es. apply in_prod_iff in Iw. destruct Iw as [I1 I2].
    destruct (In_nth _ _ no_bore I1) as [a' [A' Ea']]. destruct (In_nth _ _ no_bore I2) as [b' [B' Eb']]. rewrite N1 in Ea' by lia. rewrite N2 in Eb' by lia. subst s1 s2.
    destruct C as [C|C].
    - exists a, b. repeat split; auto.
    - exists a', b'. repeat split; auto; lia.
  Qed.

  (** the kernel of a pair of segments of similar equivalent boreholes *)
  Lemma kernel_at i j i0 j0 U kp d : (i < nE)%nat -> (j < nE)%nat -> (i0 < nE)%nat -> (j0 < nE)%nat -> alike (i, j) (i0, j0) -> eq_map_pairs tol E n r i0 j0 = (U, kp) ->
    forall a b, (a < n)%nat -> (b < n)%nat -> kernel_v alpha t d (nth (nth (a * n + b) kp O) U (no_bore, no_bore)) = kernel_v alpha t d (es i a, es j b) /\
      bH (snd (nth (nth (a * n + b) kp O) U (no_bore, no_bore))) <> 0.
  Proof.
    intros Hi Hj Hi0 Hj0 [A1 [A2 [A3 A4]]] Eq a b A B. cbn [fst snd] in *. destruct (eq_map_spec i0 j0 U kp Hi0 Hj0 Eq) as [_ K]. destruct (K a b A B) as [a' [b' [A' [B' [-> C]]]]].
    assert (Same : kernel_v alpha t d (es i a, es j b) = kernel_v alpha t d (es i0 a, es j0 b)).
    { unfold kernel_v. cbn [fst snd]. destruct (es_dims i a Hi A) as [-> ->]. destruct (es_dims j b Hj B) as [-> ->]. destruct (es_dims i0 a Hi0 A) as [-> ->]. destruct (es_dims j0 b Hj0 B) as [-> ->].
      rewrite A1, A2, A3, A4. auto. }
    split; [|cbn [snd]; destruct (Sg j0 b' Hj0 B') as [P _]; lra]. rewrite Same. destruct C as [C|C]; [injection C as -> ->; auto|].
    symmetry. apply (kernel_similar tol u M Hu Ht HM alpha t d (es i0 a, es j0 b) (es i0 a', es j0 b')); cbn [fst snd]; auto.
  Qed.

  Lemma N_pos i : (i < nE)%nat -> 0 < INR (N_ i).
  Proof. intros H. apply lt_0_INR, Wf; auto. Qed.

  (** lengths of the segments *)
  Lemma eq_length_at i a : (i < nE)%nat -> (a < n)%nat -> eq_lengths E n r (n * i + a)%nat = bH (es i a) * INR (N_ i).
  Proof.
    intros Hi A. unfold eq_lengths. rewrite Nat.mul_comm, (nth_flat _ n E i a no_eb 0); auto.
    - rewrite (nth_map _ _ _ no_eb) by (rewrite eb_seg_length; lia). unfold es, dims. cbn [bH]. unfold count. do 2 f_equal.
      destruct (Wf i Hi) as [_ [W2 [_ [W4 _]]]]. apply (eb_seg_nth (e_ i) n r a W4 W2 ltac:(lia)).
    - intros x _. rewrite map_length, eb_seg_length; auto.
  Qed.

  Lemma transposed i j a b : (i < nE)%nat -> (j < nE)%nat -> (a < n)%nat -> (b < n)%nat ->
    off i j a b * eq_lengths E n r (n * j + b)%nat / eq_lengths E n r (n * i + a)%nat = off j i b a.
  Proof.
    intros Hi Hj A B. rewrite !eq_length_at by auto. pose proof (N_pos i Hi). pose proof (N_pos j Hj).
    destruct (Sg i a Hi A) as [Pa _]. destruct (Sg j b Hj B) as [Pb _]. unfold off, offsum.
    rewrite (Sy j i) by auto.
    rewrite (Rsum_map_ext (fun d => kernel_v alpha t (near d) (es j b, es i a)) (fun d => bH (es j b) / bH (es i a) * kernel_v alpha t (near d) (es i a, es j b))).
    - rewrite Rsum_map_scal. field. repeat split; lra.
    - intros d _. pose proof (kernel_transposed u M alpha t (near d) (es i a, es j b) (Sg i a Hi A) (Sg j b Hj B)) as Q. cbn [fst snd] in Q. rewrite <- Q. field. lra.
  Qed.

  Definition done (A : Mx) (i j : nat) : Prop := forall a b, (a < n)%nat -> (b < n)%nat -> A (n * j + b)%nat (n * i + a)%nat = off i j a b.

  Lemma pair_block_ok i0 j0 U kp A i j : (i < nE)%nat -> (j < nE)%nat -> (i0 < nE)%nat -> (j0 < nE)%nat -> alike (i, j) (i0, j0) -> eq_map_pairs tol E n r i0 j0 = (U, kp) ->
    exists A', pair_block E n r dis (kernel_e alpha t) U kp (Some A) (i, j) = Some A' /\
      forall i' j', (i' < nE)%nat -> (j' < nE)%nat -> (i', j') = (i, j) \/ (j', i') = (i, j) \/ done A i' j' -> done A' i' j'.
  Proof.
    intros Hi Hj Hi0 Hj0 Al Eq. destruct (eq_map_spec i0 j0 U kp Hi0 Hj0 Eq) as [Lk _]. pose proof (fun d a b => kernel_at i j i0 j0 U kp d Hi Hj Hi0 Hj0 Al Eq a b) as K.
    unfold pair_block. assert (De : dis <> [] \/ pair_distances E i j = []) by (destruct Dn; auto).
    destruct (weights_sum dis (pair_distances E i j) (fun _ => 0) De Di) as [w [Ew _]]. rewrite Ew. eexists. split; [reflexivity|].
    set (h := map _ kp). assert (Lh : length h = (n * n)%nat) by (unfold h; rewrite map_length; auto).
    assert (Vh : forall a b, (a < n)%nat -> (b < n)%nat -> nth (a * n + b) h 0 = off i j a b).
    { intros a b Hx Hy. assert (P : (a * n + b < n * n)%nat) by nia. unfold h. rewrite (nth_map _ _ _ O) by lia. destruct (K 0 a b Hx Hy) as [_ NH].
      change (Bore 0 0 0 0 0 0 0, Bore 0 0 0 0 0 0 0) with (no_bore, no_bore). set (p := nth (nth (a * n + b) kp O) U (no_bore, no_bore)) in *. unfold kernel_e, count.
      rewrite equiv_mean; auto.
      - unfold off, offsum. f_equal. destruct (weights_sum dis (pair_distances E i j) (fun d => kernel_v alpha t d p) De Di) as [w' [Ew' Sw]]. rewrite Ew in Ew'. injection Ew' as <-.
        etransitivity; [exact Sw|]. f_equal. apply map_ext. intros d. unfold p. apply (K (near d) a b Hx Hy).
      - intros c Hc. destruct c as [c1 c2]. apply in_combine_l in Hc. pose proof (Dp c1 Hc). cbn [fst]. lra.
      - pose proof (N_pos j Hj). lra. }
    assert (First : forall i' j', (i' < nE)%nat -> (j' < nE)%nat -> (i', j') = (i, j) \/ done A i' j' -> done (assign A (place E n j (eq_j_pair n)) (place E n i (eq_i_pair n)) h) i' j').
    { intros i' j' Hi' Hj' C a b Hx Hy. apply (assign_pred (fun v => v = off i' j' a b)).
      - intros v I. apply (cells_are h 0 i j) in I; auto. destruct I as [a' [b' [A' [B' [E1 [E2 ->]]]]]]. apply cell_inj in E1; auto. apply cell_inj in E2; auto.
        destruct E1 as [-> ->], E2 as [-> ->]. auto.
      - destruct C as [C|C]; [injection C as -> ->; left|right; apply C; auto]. exists (nth (a * n + b) h 0). apply (cells_are h 0 i j); auto. exists a, b. auto. }
    destruct (Nat.eqb_spec i j) as [Eij|Nij].
    - intros i' j' Hi' Hj' C. apply First; auto. destruct C as [C|[C|C]]; auto. injection C as -> ->. left. congruence.
    - set (A1 := assign A _ _ h) in *. set (h2 := map _ (combine (combine _ _) h)).
      intros i' j' Hi' Hj' C a b Hx Hy.
      assert (W : forall rr cc v, In ((rr, cc), v) (combine (combine (place E n i (eq_i_pair n)) (place E n j (eq_j_pair n))) h2) <->
        exists a b, (a < n)%nat /\ (b < n)%nat /\ rr = (n * i + a)%nat /\ cc = (n * j + b)%nat /\ v = off j i b a).
      { assert (L1 : length (place E n j (eq_j_pair n)) = (n * n)%nat) by (unfold place; rewrite map_length; apply j_pair_len).
        assert (L2 : length (place E n i (eq_i_pair n)) = (n * n)%nat) by (unfold place; rewrite map_length; apply i_pair_len).
        assert (L3 : length h2 = (n * n)%nat) by (unfold h2; rewrite map_length, !combine_length; lia).
        assert (Vh2 : forall a b, (a < n)%nat -> (b < n)%nat -> nth (a * n + b) h2 0 = off j i b a).
        { intros a1 b1 X1 Y1. assert (P : (a1 * n + b1 < n * n)%nat) by nia. unfold h2. rewrite (nth_map _ _ _ ((O, O), 0)) by (rewrite !combine_length; lia).
          rewrite combine_nth by (rewrite combine_length; lia). rewrite combine_nth by lia. cbn [fst snd].
          rewrite !place_nth by (auto; rewrite ?i_pair_len, ?j_pair_len; auto). rewrite i_pair_at, j_pair_at, Vh by auto. apply transposed; auto. }
        intros rr cc v. split.
        - intros I. apply combine_swap in I. apply (cells_are h2 0 i j) in I; auto. destruct I as [a1 [b1 [X1 [Y1 [-> [-> ->]]]]]]. exists a1, b1. repeat split; auto.
        - intros [a1 [b1 [X1 [Y1 [-> [-> ->]]]]]]. apply combine_swap. apply (cells_are h2 0 i j); auto. exists a1, b1. rewrite Vh2 by auto. auto. }
      apply (assign_pred (fun v => v = off i' j' a b)).
      + intros v I. apply W in I. destruct I as [a' [b' [A' [B' [E1 [E2 ->]]]]]]. apply cell_inj in E1; auto. apply cell_inj in E2; auto. destruct E1 as [-> ->], E2 as [-> ->]. auto.
      + destruct C as [C|[C|C]].
        * right. apply First; auto.
        * injection C as -> ->. left. exists (off j i a b). apply W. exists b, a. auto.
        * right. apply First; auto.
  Qed.

  (** ** groups of pairs *)
  Definition eq_rel (h y : nat * nat) : Prop :=
    compare_vertical tol (dims (e_ (fst y)), dims (e_ (snd y))) (dims (e_ (fst h)), dims (e_ (snd h))) = true.
  Definition inside (p : nat * nat) : Prop := (fst p < nE)%nat /\ (snd p < nE)%nat.

  Lemma in_eq_pairs i j : In (i, j) (eq_index_pairs E) <-> (i <= j < nE)%nat.
  Proof.
    unfold eq_index_pairs. rewrite in_flat_map. split.
    - intros [k [Hk I]]. apply in_map_iff in I. destruct I as [l [Q I]]. injection Q as <- <-. apply in_seq in Hk, I. lia.
    - intros H. exists i. split; [apply in_seq; lia|]. apply in_map_iff. exists j. split; auto. apply in_seq. lia.
  Qed.

  Lemma eq_similar_is i j h y : eq_pair_similar tol E i j h = Some y -> (y = (i, j) \/ y = (j, i)) /\ eq_rel h y.
  Proof.
    unfold eq_pair_similar, eq_rel. destruct (compare_vertical tol (dims (e_ i), dims (e_ j)) _) eqn:C1; [intros Q; injection Q as <-; auto|].
    destruct (compare_vertical tol (dims (e_ j), dims (e_ i)) _) eqn:C2; [intros Q; injection Q as <-; auto|discriminate].
  Qed.

  Lemma eq_groups_fold l : forall gs, Forall (grouped eq_rel) gs -> (forall p, In p l -> inside p) -> (forall p, In p (concat gs) -> inside p) ->
    let gs' := fold_left (fun gs ij => add_group (eq_pair_similar tol E (fst ij) (snd ij)) ij gs) l gs in
    Forall (grouped eq_rel) gs' /\ (forall p, In p (concat gs') -> inside p) /\ Permutation (map unordered (concat gs')) (rev (map unordered l) ++ map unordered (concat gs)).
  Proof.
    induction l as [|[i j] l IH]; intros gs G I1 I2; [cbn; auto|]. cbn [fold_left fst snd].
    assert (F : forall h y, eq_pair_similar tol E i j h = Some y -> unordered y = unordered (i, j)).
    { intros h y Q. apply eq_similar_is in Q. destruct Q as [[-> | ->] _]; auto. unfold unordered. cbn [fst snd]. f_equal; lia. }
    destruct (IH (add_group (eq_pair_similar tol E i j) (i, j) gs)) as [A [B C]].
    - apply add_group_grouped; auto. intros h y Q. apply (eq_similar_is i j h y Q).
    - intros p Hp. apply I1. right. auto.
    - apply add_group_all; auto; [apply I1; left; auto|]. intros h y Q. apply eq_similar_is in Q. destruct (I1 (i, j) (or_introl eq_refl)) as [X Y]. destruct Q as [[-> | ->] _]; split; auto.
    - split; [exact A|]. split; [exact B|]. etransitivity; [exact C|]. cbn [map rev]. rewrite <- app_assoc. apply Permutation_app_head. cbn [app]. apply (add_group_perm unordered _ _ F).
  Qed.

  Hypothesis Ne : (0 < nE)%nat.

  Lemma pair_groups_spec : Forall (grouped eq_rel) (eq_pair_groups tol E) /\ (forall p, In p (concat (eq_pair_groups tol E)) -> inside p) /\
    forall i j, (i < nE)%nat -> (j < nE)%nat -> In (i, j) (concat (eq_pair_groups tol E)) \/ In (j, i) (concat (eq_pair_groups tol E)).
  Proof.
    unfold eq_pair_groups. destruct (Nat.ltb_spec 1 nE) as [H|H].
    - destruct (eq_groups_fold (eq_index_pairs E) []) as [A [B C]]; [constructor| |intros p []|].
      { intros [i j] I. apply in_eq_pairs in I. split; cbn [fst snd]; lia. }
      split; [exact A|]. split; [exact B|]. intros i j Hi Hj. cbn [concat map] in C. rewrite app_nil_r in C.
      assert (I : In (unordered (i, j)) (rev (map unordered (eq_index_pairs E)))).
      { rewrite <- in_rev. apply in_map_iff. exists (Nat.min i j, Nat.max i j). split; [|apply in_eq_pairs; lia]. unfold unordered. cbn [fst snd]. f_equal; lia. }
      apply (Permutation_in _ (Permutation_sym C)), in_map_iff in I. destruct I as [[p q] [Q I]]. unfold unordered in Q. cbn [fst snd] in Q. injection Q as Q1 Q2.
      destruct (Nat.le_gt_cases p q), (Nat.le_gt_cases i j).
      + left. replace i with p by lia. replace j with q by lia. auto.
      + right. replace j with p by lia. replace i with q by lia. auto.
      + right. replace j with p by lia. replace i with q by lia. auto.
      + left. replace i with p by lia. replace j with q by lia. auto.
    - split; [constructor; [|constructor]; exists (O, O), []; split; auto; intros y []|]. split.
      + intros p [<-|[]]. split; cbn [fst snd]; lia.
      + intros i j Hi Hj. left. left. f_equal; lia.
  Qed.

  Lemma pair_block_fold i0 j0 U kp l : (i0 < nE)%nat -> (j0 < nE)%nat -> eq_map_pairs tol E n r i0 j0 = (U, kp) ->
    (forall p, In p l -> inside p /\ alike p (i0, j0)) -> forall A, exists A', fold_left (pair_block E n r dis (kernel_e alpha t) U kp) l (Some A) = Some A' /\
      forall i j, (i < nE)%nat -> (j < nE)%nat -> In (i, j) l \/ In (j, i) l \/ done A i j -> done A' i j.
  Proof.
    intros Hi0 Hj0 Eq. induction l as [|[p q] l IH]; intros H A.
    - exists A. split; auto. intros i j Hi Hj [[]|[[]|D]]. auto.
    - destruct (H (p, q) (or_introl eq_refl)) as [[X Y] Al]. cbn [fst snd] in X, Y. destruct (pair_block_ok i0 j0 U kp A p q X Y Hi0 Hj0 Al Eq) as [A1 [E1 D1]].
      destruct (IH (fun z Hz => H z (or_intror Hz)) A1) as [A2 [E2 D2]]. exists A2. cbn [fold_left]. rewrite E1. split; auto.
      intros i j Hi Hj C. apply D2; auto. destruct C as [[C|C]|[[C|C]|C]]; auto; right; right; apply D1; auto.
  Qed.

  Lemma pairs_fold gs : Forall (grouped eq_rel) gs -> (forall p, In p (concat gs) -> inside p) -> forall A,
    exists A', fold_left (pair_group tol E n r dis (kernel_e alpha t)) gs (Some A) = Some A' /\
      forall i j, (i < nE)%nat -> (j < nE)%nat -> In (i, j) (concat gs) \/ In (j, i) (concat gs) \/ done A i j -> done A' i j.
  Proof.
    induction gs as [|g gs IH]; intros G I A.
    - exists A. split; auto. intros i j Hi Hj [[]|[[]|D]]. auto.
    - inversion G as [|? ? [[i0 j0] [tl [-> Rel]]] G']; subst. cbn [fold_left]. unfold pair_group at 2. cbn [hd].
      destruct (eq_map_pairs tol E n r i0 j0) as [U kp] eqn:Eq. destruct (I (i0, j0) (or_introl eq_refl)) as [H0 H1]. cbn [fst snd] in H0, H1.
      destruct (pair_block_fold i0 j0 U kp ((i0, j0) :: tl) H0 H1 Eq) with (A := A) as [A1 [E1 D1]].
      { intros p Hp. assert (Ip : inside p) by (apply I; cbn [concat]; apply in_or_app; auto). split; auto. destruct Hp as [<-|Hp]; [repeat split|].
        destruct p as [i j]. destruct Ip as [X Y]. cbn [fst snd] in *. apply compare_alike; auto. exact (Rel (i, j) Hp). }
      rewrite E1. destruct (IH G' (fun p Hp => I p (in_or_app _ _ _ (or_intror Hp))) A1) as [A2 [E2 D2]]. exists A2. split; auto.
      intros i j Hi Hj C. apply D2; auto. cbn [concat] in C. rewrite !in_app_iff in C. destruct C as [[C|C]|[[C|C]|C]]; auto; right; right; apply D1; auto.
  Qed.

  Lemma first_phase : exists A, fold_left (pair_group tol E n r dis (kernel_e alpha t)) (eq_pair_groups tol E) (Some (fun _ _ => 0)) = Some A /\
    forall i j, (i < nE)%nat -> (j < nE)%nat -> done A i j.
  Proof.
    destruct pair_groups_spec as [G [I C]]. destruct (pairs_fold _ G I (fun _ _ => 0)) as [A [EA D]]. exists A. split; auto.
    intros i j Hi Hj. apply D; auto. destruct (C i j Hi Hj); auto.
  Qed.

  (** ** the boreholes of an equivalent borehole on themselves *)
  Definition self_part (i a b : nat) : R := kernel_v alpha t (er (e_ i)) (es i a, es i b).

  Lemma self_block_ok i0 U kp A i : (i < nE)%nat -> (i0 < nE)%nat -> alike (i, i) (i0, i0) -> er (e_ i) = er (e_ i0) -> eq_map_pairs tol E n r i0 i0 = (U, kp) ->
    let A' := self_block E n (kernel_v alpha t) U kp (er (e_ i0)) A i in
    forall i' j' a b, (i' < nE)%nat -> (j' < nE)%nat -> (a < n)%nat -> (b < n)%nat ->
      A' (n * j' + b)%nat (n * i' + a)%nat = A (n * j' + b)%nat (n * i' + a)%nat + (if Nat.eqb i' i && Nat.eqb j' i then self_part i a b else 0).
  Proof.
    intros Hi Hi0 Al Er Eq A' i' j' a b Hi' Hj' X Y. destruct (eq_map_spec i0 i0 U kp Hi0 Hi0 Eq) as [Lk _]. pose proof (fun d a b => kernel_at i i i0 i0 U kp d Hi Hi Hi0 Hi0 Al Eq a b) as K.
    unfold A', self_block. set (h := map _ (combine (combine _ _) kp)).
    assert (L1 : length (place E n i (eq_j_pair n)) = (n * n)%nat) by (unfold place; rewrite map_length; apply j_pair_len).
    assert (L2 : length (place E n i (eq_i_pair n)) = (n * n)%nat) by (unfold place; rewrite map_length; apply i_pair_len).
    assert (Lh : length h = (n * n)%nat) by (unfold h; rewrite map_length, !combine_length; lia).
    assert (Vh : forall a b, (a < n)%nat -> (b < n)%nat -> nth (a * n + b) h 0 = A (n * i + b)%nat (n * i + a)%nat + self_part i a b).
    { intros a1 b1 X1 Y1. assert (P : (a1 * n + b1 < n * n)%nat) by nia. unfold h. rewrite (nth_map _ _ _ ((O, O), O)) by (rewrite !combine_length; lia).
      rewrite combine_nth by (rewrite combine_length; lia). rewrite combine_nth by lia. cbn [fst snd].
      rewrite !place_nth by (auto; rewrite ?i_pair_len, ?j_pair_len; auto). rewrite i_pair_at, j_pair_at by auto. f_equal. unfold self_part. rewrite Er. apply (K _ a1 b1 X1 Y1). }
    apply (assign_pred (fun v => v = A (n * j' + b)%nat (n * i' + a)%nat + (if Nat.eqb i' i && Nat.eqb j' i then self_part i a b else 0))).
    - intros v I. apply (cells_are h 0 i i) in I; auto. destruct I as [a' [b' [A0 [B0 [E1 [E2 ->]]]]]]. apply cell_inj in E1; auto. apply cell_inj in E2; auto.
      destruct E1 as [-> ->], E2 as [-> ->]. rewrite !Nat.eqb_refl. cbn [andb]. apply Vh; auto.
    - destruct (Nat.eqb_spec i' i) as [->|N1]; [destruct (Nat.eqb_spec j' i) as [->|N2]|]; cbn [andb]; [|right; ring|right; ring].
      left. exists (nth (a * n + b) h 0). apply (cells_are h 0 i i); auto. exists a, b. auto.
  Qed.

  Lemma self_block_fold i0 U kp l : (i0 < nE)%nat -> eq_map_pairs tol E n r i0 i0 = (U, kp) -> NoDup l ->
    (forall i, In i l -> (i < nE)%nat /\ alike (i, i) (i0, i0) /\ er (e_ i) = er (e_ i0)) -> forall A i' j' a b, (i' < nE)%nat -> (j' < nE)%nat -> (a < n)%nat -> (b < n)%nat ->
      fold_left (self_block E n (kernel_v alpha t) U kp (er (e_ i0))) l A (n * j' + b)%nat (n * i' + a)%nat
      = A (n * j' + b)%nat (n * i' + a)%nat + (if Nat.eqb i' j' && (if in_dec Nat.eq_dec i' l then true else false) then self_part i' a b else 0).
  Proof.
    intros Hi0 Eq. induction l as [|i l IH]; intros Nd H A i' j' a b Hi' Hj' X Y.
    - cbn [fold_left in_dec list_rec list_rect]. rewrite andb_false_r. ring.
    - inversion Nd as [|? ? Ni Nd']; subst. cbn [fold_left]. rewrite IH by (auto; intros; apply H; right; auto).
      destruct (H i (or_introl eq_refl)) as [Hi [Al Er]]. rewrite (self_block_ok i0 U kp A i Hi Hi0 Al Er Eq) by auto. rewrite Rplus_assoc. f_equal.
      destruct (Nat.eqb_spec i' i) as [->|N1]; cbn [andb].
      + destruct (in_dec Nat.eq_dec i l); [contradiction|]. destruct (in_dec Nat.eq_dec i (i :: l)) as [_|Q]; [|destruct Q; left; auto].
        rewrite andb_false_r, andb_true_r, Nat.eqb_sym. destruct (Nat.eqb i j'); ring.
      + destruct (in_dec Nat.eq_dec i' l) as [Q|Q]; destruct (in_dec Nat.eq_dec i' (i :: l)) as [Q'|Q']; try ring; [destruct Q'; right; auto|destruct Q' as [Q'|Q']; [congruence|contradiction]].
  Qed.

  Definition self_rel (h y : nat) : Prop := alike (y, y) (h, h) /\ er (e_ y) = er (e_ h).

  Lemma self_compare i h : (i < nE)%nat -> (h < nE)%nat -> eq_compare tol (dims (e_ i)) (dims (e_ h)) = true -> self_rel h i.
  Proof.
    intros Hi Hh C. destruct (Wf i Hi) as [_ [_ [_ [_ Pi]]]]. assert (C' : compare_boreholes tol (dims (e_ i)) (dims (e_ h)) = true).
    { unfold compare_boreholes. unfold eq_compare in C. rewrite C. cbn [andb]. apply Rltb_true. unfold dims. cbn [btilt]. rewrite Rminus_eq_0, Rabs_R0. unfold Rdiv. rewrite Rmult_0_l. auto. }
    destruct (compare_b_exact tol u M Hu Ht HM (dims (e_ i)) (dims (e_ h)) (Sz i Hi) (Sz h Hh) Pi C') as [Q1 [Q2 Q3]]. cbn [dims bH bD br] in *. split; [repeat split; auto|].
    apply Ra; auto.
  Qed.

  Lemma self_groups_spec : Permutation (concat (eq_self_groups tol E)) (seq 0 nE) /\ Forall (grouped self_rel) (eq_self_groups tol E).
  Proof.
    unfold eq_self_groups. destruct (Nat.ltb_spec 1 nE) as [H|H].
    - pose proof (unique_perm tol (map dims E)) as P. rewrite map_length in P. split; auto.
      pose proof (unique_grouped tol (map dims E)) as G. rewrite Forall_forall in *. intros g Ig. destruct (G g Ig) as [h [tl [-> Q]]]. exists h, tl. split; auto.
      assert (In_r : forall y, In y (h :: tl) -> (y < nE)%nat). { intros y Iy. assert (I : In y (concat (unique_boreholes tol (map dims E)))) by (apply in_concat; eauto). apply (Permutation_in _ P), in_seq in I. lia. }
      intros y Iy. specialize (Q y Iy). unfold uq_rel in Q. pose proof (In_r h (or_introl eq_refl)). pose proof (In_r y (or_intror Iy)).
      rewrite !(nth_map _ _ _ no_eb) in Q by auto. apply self_compare; auto.
    - assert (L : nE = 1%nat) by lia. rewrite L. split; [cbn; auto|]. constructor; [|constructor]. exists O, []. split; auto. intros y [].
  Qed.

  Lemma self_fold gs : Forall (grouped self_rel) gs -> NoDup (concat gs) -> (forall i, In i (concat gs) -> (i < nE)%nat) -> forall A i' j' a b, (i' < nE)%nat -> (j' < nE)%nat -> (a < n)%nat -> (b < n)%nat ->
    fold_left (self_group tol E n r (kernel_v alpha t)) gs A (n * j' + b)%nat (n * i' + a)%nat
    = A (n * j' + b)%nat (n * i' + a)%nat + (if Nat.eqb i' j' && (if in_dec Nat.eq_dec i' (concat gs) then true else false) then self_part i' a b else 0).
  Proof.
    induction gs as [|g gs IH]; intros G Nd I A i' j' a b Hi' Hj' X Y.
    - cbn [fold_left concat in_dec list_rec list_rect]. rewrite andb_false_r. ring.
    - inversion G as [|? ? [i0 [tl [-> Rel]]] G']; subst. cbn [fold_left]. cbn [concat] in Nd, I. 
      assert (Nd' : NoDup (concat gs) /\ NoDup (i0 :: tl) /\ forall x, In x (i0 :: tl) -> ~ In x (concat gs)).
      { clear - Nd. revert Nd. generalize (i0 :: tl) as l1, (concat gs) as l2. induction l1 as [|x l1 IH1]; intros l2 Q; cbn [app] in Q; [repeat split; auto; constructor|].
        inversion Q as [|? ? Q1 Q2]; subst. destruct (IH1 l2 Q2) as [S1 [S2 S3]]. rewrite in_app_iff in Q1. repeat split; auto; [constructor; tauto|]. intros y [<-|Iy]; [tauto|apply S3; auto]. }
      destruct Nd' as [Nd1 [Nd2 Nd3]]. rewrite IH by (auto; intros; apply I, in_or_app; auto).
      unfold self_group. cbn [hd]. destruct (eq_map_pairs tol E n r i0 i0) as [U kp] eqn:Eq.
      assert (H0 : (i0 < nE)%nat) by (apply I; left; auto).
      assert (Al : forall i, In i (i0 :: tl) -> (i < nE)%nat /\ alike (i, i) (i0, i0) /\ er (e_ i) = er (e_ i0)).
      { intros i Ii. split; [apply I, in_or_app; auto|]. destruct Ii as [<-|Ii]; [split; [repeat split|reflexivity]|apply Rel; auto]. }
      rewrite (self_block_fold i0 U kp (i0 :: tl) H0 Eq Nd2 Al) by auto.
      rewrite Rplus_assoc. f_equal. cbn [concat]. destruct (Nat.eqb i' j'); cbn [andb]; [|ring].
      destruct (in_dec Nat.eq_dec i' (i0 :: tl)) as [Q1|Q1], (in_dec Nat.eq_dec i' (concat gs)) as [Q2|Q2], (in_dec Nat.eq_dec i' ((i0 :: tl) ++ concat gs)) as [Q3|Q3];
        rewrite ?in_app_iff in Q3; try ring; try tauto. destruct (Nd3 i' Q1 Q2).
  Qed.

  (** ** the matrix *)
  Lemma eq_matrix_main : exists A, eq_matrix tol E n r dis (kernel_e alpha t) (kernel_v alpha t) = Some A /\
    forall i j a b, (i < nE)%nat -> (j < nE)%nat -> (a < n)%nat -> (b < n)%nat ->
      A (n * j + b)%nat (n * i + a)%nat = off i j a b + (if Nat.eqb i j then self_part i a b else 0).
  Proof.
    destruct first_phase as [A [EA D]]. unfold eq_matrix. rewrite EA. eexists. split; [reflexivity|]. intros i j a b Hi Hj X Y.
    destruct self_groups_spec as [P G].
    rewrite self_fold; auto.
    - rewrite (D i j Hi Hj a b X Y). f_equal. destruct (in_dec Nat.eq_dec i (concat (eq_self_groups tol E))) as [Q|Q]; [rewrite andb_true_r; auto|].
      destruct Q. apply (Permutation_in _ (Permutation_sym P)), in_seq. lia.
    - apply (Permutation_NoDup (Permutation_sym P)), seq_NoDup.
    - intros k Ik. apply (Permutation_in _ P), in_seq in Ik. lia.
  Qed.
End Blocks.
