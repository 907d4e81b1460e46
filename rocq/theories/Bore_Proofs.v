(** Proofs on boreholes, segments, duplicates and distance classes. *)
From Verif Require Import Base Bore_Model Bore_Spec.
From Coq Require Import Permutation Relations Sorting.Sorted.

(** * Segments *)
Lemma cumsum_from_length s l : length (cumsum_from s l) = length l.
Proof. revert s; induction l; intros; cbn; [reflexivity|]. rewrite IHl. reflexivity. Qed.

Lemma nth_cumsum_from s l i : (i <= length l)%nat ->
  nth i (s :: cumsum_from s l) 0 = s + sumn i (fun k => nth k l 0).
Proof.
  revert s i. induction l as [|x l IH]; intros s i H.
  - cbn in H. assert (i = 0)%nat by lia. subst. cbn. ring.
  - destruct i as [|i]; [cbn; ring|]. rewrite sumn_S_l.
    change (nth (S i) (s :: cumsum_from s (x :: l)) 0) with (nth i ((s + x) :: cumsum_from (s + x) l) 0).
    cbn in H. rewrite IH by lia. cbn [nth]. ring.
Qed.

Lemma nth_removelast {A} (l : list A) i d : (S i < length l)%nat -> nth i (removelast l) d = nth i l d.
Proof.
  revert i. induction l as [|x l IH]; intros i H; [cbn in H; lia|].
  destruct l as [|y l]; [cbn in H; lia|].
  change (removelast (x :: y :: l)) with (x :: removelast (y :: l)).
  destruct i as [|i]; [reflexivity|]. cbn [nth]. rewrite IH by (cbn in *; lia). reflexivity.
Qed.
Lemma length_removelast {A} (l : list A) : length (removelast l) = (length l - 1)%nat.
Proof.
  induction l as [|x l IH]; [reflexivity|]. destruct l as [|y l]; [reflexivity|].
  change (removelast (x :: y :: l)) with (x :: removelast (y :: l)). cbn [length] in *. lia.
Qed.

Lemma edges_nth b n o i : (i <= length (default_ratios n o))%nat ->
  nth i (segment_edges b n o) 0 = bH b * sumn i (fun k => nth k (default_ratios n o) 0).
Proof.
  intros H. unfold segment_edges.
  rewrite (nth_map _ _ i 0).
  2:{ cbn [length]. unfold cumsum. rewrite cumsum_from_length. lia. }
  unfold cumsum. rewrite nth_cumsum_from by exact H. ring.
Qed.
Lemma edges_length b n o : length (segment_edges b n o) = S (length (default_ratios n o)).
Proof. unfold segment_edges. rewrite map_length. cbn [length]. unfold cumsum. rewrite cumsum_from_length. reflexivity. Qed.

Lemma zip_length b n o :
  length (combine (removelast (segment_edges b n o)) (default_ratios n o)) = length (default_ratios n o).
Proof. rewrite combine_length, length_removelast, edges_length. lia. Qed.

Lemma segments_length b n o : length (segments b n o) = length (default_ratios n o).
Proof. unfold segments. rewrite map_length. apply zip_length. Qed.

Lemma zip_nth b n o i : (i < length (default_ratios n o))%nat ->
  nth i (combine (removelast (segment_edges b n o)) (default_ratios n o)) (0, 0)
  = (bH b * sumn i (fun k => nth k (default_ratios n o) 0), nth i (default_ratios n o) 0).
Proof.
  intros H. rewrite combine_nth by (rewrite length_removelast, edges_length; lia).
  rewrite nth_removelast by (rewrite edges_length; lia). rewrite edges_nth by lia. reflexivity.
Qed.

Lemma segments_nth b n o i : (i < length (default_ratios n o))%nat ->
  nth i (segments b n o) b0 =
  let z := bH b * sumn i (fun k => nth k (default_ratios n o) 0) in
  mk_bore (nth i (default_ratios n o) 0 * bH b) (bD b + z * cos (btilt b)) (br b)
    (bx b + z * sin (btilt b) * cos (bori b)) (by_ b + z * sin (btilt b) * sin (bori b)) (btilt b) (bori b).
Proof.
  intros H. unfold segments.
  rewrite (nth_map _ _ i (0, 0)) by (rewrite zip_length; exact H).
  rewrite zip_nth by exact H. reflexivity.
Qed.

Lemma mk_ok b H D x y : bore_ok b ->
  let s := mk_bore H D (br b) x y (btilt b) (bori b) in btilt s = btilt b /\ bori s = bori b /\ br s = br b.
Proof.
  intros Ok. cbn. split; [reflexivity|]. split; [|reflexivity].
  destruct (tilted (btilt b)) eqn:E; [reflexivity|]. symmetry. apply Ok. exact E.
Qed.

Lemma segments_axis b n o i : bore_ok b -> (i < length (default_ratios n o))%nat ->
  let r := default_ratios n o in let s := nth i (segments b n o) b0 in
  bH s = nth i r 0 * bH b /\ btilt s = btilt b /\ bori s = bori b /\ br s = br b
  /\ head s = axis b (bH b * sumn i (fun k => nth k r 0))
  /\ toe s = axis b (bH b * sumn (S i) (fun k => nth k r 0)).
Proof.
  intros Ok H r s. subst s. rewrite segments_nth by exact H. fold r.
  set (z := bH b * sumn i (fun k => nth k r 0)). cbv zeta.
  destruct (mk_ok b (nth i r 0 * bH b) (bD b + z * cos (btilt b))
     (bx b + z * sin (btilt b) * cos (bori b)) (by_ b + z * sin (btilt b) * sin (bori b)) Ok) as (A & B & C).
  split; [reflexivity|]. split; [exact A|]. split; [exact B|]. split; [exact C|].
  unfold head, toe, axis. rewrite A, B. cbn [bx by_ bD bH mk_bore sumn].
  split; [f_equal; [f_equal|]; ring|]. unfold z. f_equal; [f_equal|]; ring.
Qed.

Lemma segments_partition b n o : bore_ok b -> Rsum (default_ratios n o) = 1 ->
  let r := default_ratios n o in let s := segments b n o in
  length s = length r
  /\ (forall i, (S i < length s)%nat -> toe (nth i s b0) = head (nth (S i) s b0))
  /\ head (nth 0 s b0) = head b
  /\ toe (nth (length s - 1) s b0) = toe b
  /\ Rsum (map bH s) = bH b.
Proof.
  intros Ok S1 r s. assert (L : length s = length r) by apply segments_length.
  assert (Lp : (0 < length r)%nat).
  { destruct r eqn:E; [|cbn; lia]. unfold r in E. rewrite E in S1. cbn in S1. lra. }
  split; [exact L|]. split; [|split; [|split]].
  - intros i Hi. rewrite L in Hi.
    destruct (segments_axis b n o i Ok ltac:(fold r; lia)) as (_ & _ & _ & _ & _ & T).
    destruct (segments_axis b n o (S i) Ok ltac:(fold r; lia)) as (_ & _ & _ & _ & Hd & _).
    fold s in T, Hd. rewrite T, Hd. reflexivity.
  - destruct (segments_axis b n o 0 Ok ltac:(fold r; lia)) as (_ & _ & _ & _ & Hd & _). fold s in Hd.
    rewrite Hd. cbn [sumn]. unfold head. rewrite Rmult_0_r. reflexivity.
  - rewrite L. destruct (segments_axis b n o (length r - 1) Ok ltac:(fold r; lia)) as (_ & _ & _ & _ & _ & T).
    fold s in T. fold r in T. rewrite T. replace (S (length r - 1)) with (length r) by lia.
    rewrite <- Rsum_sumn. fold r in S1. rewrite S1, Rmult_1_r. reflexivity.
  - rewrite Rsum_sumn, map_length, L.
    rewrite (sumn_ext _ _ (fun i => nth i r 0 * bH b)).
    + rewrite sumn_scal_r, <- Rsum_sumn. fold r in S1. rewrite S1. ring.
    + intros i Hi. rewrite (nth_map _ _ i b0) by (rewrite L; exact Hi).
      destruct (segments_axis b n o i Ok ltac:(fold r; lia)) as (A & _). exact A.
Qed.

Lemma default_ratios_sum n : (1 <= n)%nat -> Rsum (default_ratios n None) = 1.
Proof. intros. cbn. rewrite Rsum_repeat. field. apply not_0_INR. lia. Qed.

Lemma midpoints_spec b n o i : (i < length (default_ratios n o))%nat ->
  nth i (segment_midpoints b n o) 0 = (nth i (segment_edges b n o) 0 + nth (S i) (segment_edges b n o) 0) / 2.
Proof.
  intros H. unfold segment_midpoints.
  rewrite (nth_map _ _ i (0, 0)) by (rewrite zip_length; exact H).
  rewrite zip_nth by exact H. rewrite !edges_nth by lia. cbn [fst snd sumn]. field.
Qed.

(** * Distance *)
Lemma planar_sym a b : planar a b = planar b a.
Proof. unfold planar. f_equal. ring. Qed.

Lemma dist_props a b :
  (br a = br b -> bdist a b = bdist b a)
  /\ br a <= bdist a b /\ plane_dist a b <= bdist a b
  /\ (br a <= plane_dist a b -> bdist a b = plane_dist a b)
  /\ (0 <= br a -> bdist a a = br a)
  /\ forall u v, bdist (shift u v a) (shift u v b) = bdist a b.
Proof.
  unfold bdist, plane_dist.
  split; [|split; [|split; [|split; [|split]]]].
  - intros E. rewrite E. f_equal. f_equal. ring.
  - apply Rmax_l.
  - apply Rmax_r.
  - intros H. apply Rmax_right. exact H.
  - intros H. replace ((bx a - bx a) ^ 2 + (by_ a - by_ a) ^ 2) with 0 by ring. rewrite sqrt_0.
    apply Rmax_left. exact H.
  - intros u v. cbn [shift bx by_ br]. f_equal. f_equal. ring.
Qed.

Lemma dist_asym : exists a b, bore_ok a /\ bore_ok b /\ 0 < br a /\ 0 < br b /\ bdist a b <> bdist b a.
Proof.
  exists (mk_bore 100 4 (1/10) 0 0 0 0), (mk_bore 100 4 (1/20) 0 0 0 0).
  assert (T : tilted 0 = false).
  { unfold tilted. rewrite Rabs_R0. apply Rltb_false. apply Rlt_le, Rinv_0_lt_compat, pow_lt; lra. }
  unfold bore_ok, mk_bore, bdist. rewrite T. cbn [br bx by_ btilt bori].
  split; [reflexivity|]. split; [reflexivity|]. split; [lra|]. split; [lra|].
  replace ((0 - 0) ^ 2 + (0 - 0) ^ 2) with 0 by ring. rewrite sqrt_0.
  rewrite !Rmax_left by lra. lra.
Qed.

(** * Duplicates *)
Fixpoint pairs (n : nat) : list (nat * nat) :=
  match n with
  | O => []
  | S m => map (fun j => (O, S j)) (seq 0 m) ++ map (fun p => (S (fst p), S (snd p))) (pairs m)
  end.

Lemma in_pairs n i j : In (i, j) (pairs n) <-> (i < j < n)%nat.
Proof.
  revert i j. induction n as [|n IH]; intros i j; cbn [pairs]; [cbn; lia|].
  rewrite in_app_iff, !in_map_iff. split.
  - intros [(x & E & I)|([a b] & E & I)]; inversion E; subst; clear E.
    + apply in_seq in I. lia.
    + apply IH in I. cbn [fst snd]. lia.
  - intros H. destruct i as [|i].
    + left. exists (j - 1)%nat. split; [f_equal; lia|apply in_seq; lia].
    + right. exists (i, (j - 1)%nat). split; [cbn; f_equal; lia|]. apply IH. lia.
Qed.

Lemma pdist_pairs f : pdist f = map (fun p => planar (nth (fst p) f b0) (nth (snd p) f b0)) (pairs (length f)).
Proof.
  induction f as [|a f IH]; [reflexivity|]. cbn [pdist length pairs]. rewrite map_app. f_equal.
  - rewrite map_map. cbn [fst snd nth].
    apply (list_eq_nth 0); [rewrite !map_length, seq_length; reflexivity|].
    intros i Hi. rewrite map_length in Hi. rewrite (nth_map _ _ i b0) by exact Hi.
    rewrite nth_map_seq by exact Hi. reflexivity.
  - rewrite IH, map_map. cbn [fst snd nth]. reflexivity.
Qed.

Definition decode (n k : Z) : nat * nat := (Z.to_nat (pair_i n k), Z.to_nat (pair_j n k)).

Lemma half_mul a b c : (a * b = 2 * c -> a * b / 2 = c)%Z.
Proof. intros H. rewrite H, Z.mul_comm. apply Z.div_mul. lia. Qed.

Lemma tri_even x : exists c, (x * (x - 1) = 2 * c)%Z.
Proof.
  destruct (Z.Even_or_Odd x) as [[k E]|[k E]]; subst.
  - exists (k * (2 * k - 1))%Z. ring.
  - exists ((2 * k + 1) * k)%Z. ring.
Qed.

Lemma Int_part_bounds x (m : Z) : IZR m <= x < IZR m + 1 -> Int_part x = m.
Proof.
  intros [A B]. unfold Int_part. assert (E : (m + 1 = up x)%Z).
  { apply tech_up; rewrite plus_IZR; lra. }
  lia.
Qed.

Lemma sqrt_ge_lin M a : 0 <= a -> a * a <= M -> a <= sqrt M.
Proof. intros Ha H. rewrite <- (sqrt_square a Ha). apply sqrt_le_1_alt. exact H. Qed.
Lemma sqrt_lt_lin M a : 0 <= a -> 0 <= M -> M < a * a -> sqrt M < a.
Proof. intros Ha P H. rewrite <- (sqrt_square a Ha). apply sqrt_lt_1_alt. lra. Qed.

Lemma decode_row0 n k : (0 <= k < n)%Z -> pair_i (n + 1) k = 0%Z /\ pair_j (n + 1) k = (k + 1)%Z.
Proof.
  intros H.
  assert (E : pair_i (n + 1) k = 0%Z).
  { unfold pair_i. rewrite (Int_part_bounds _ (n - 1)); [lia|].
    set (M := (-8 * k + 4 * (n + 1) * (n + 1 - 1) - 7)%Z).
    assert (M1 : ((2 * n - 1) * (2 * n - 1) <= M)%Z) by (unfold M; lia).
    assert (M2 : (M < (2 * n + 1) * (2 * n + 1))%Z) by (unfold M; lia).
    assert (M0 : (0 <= M)%Z) by nia.
    apply IZR_le in M1. apply IZR_lt in M2. apply IZR_le in M0. rewrite !mult_IZR in M1, M2.
    assert (Hn : 1 <= IZR n) by (apply (IZR_le 1); lia).
    rewrite minus_IZR, mult_IZR in M1. rewrite plus_IZR, mult_IZR in M2. rewrite minus_IZR.
    pose proof (sqrt_ge_lin (IZR M) (2 * IZR n - 1) ltac:(lra) M1).
    pose proof (sqrt_lt_lin (IZR M) (2 * IZR n + 1) ltac:(lra) M0 M2). lra. }
  split; [exact E|]. unfold pair_j. rewrite E. cbv zeta.
  replace ((n + 1 - 0) * (n + 1 - 0 - 1))%Z with ((n + 1) * (n + 1 - 1))%Z by ring. lia.
Qed.

Lemma decode_next n k : pair_i (n + 1) (k + n) = (pair_i n k + 1)%Z /\ pair_j (n + 1) (k + n) = (pair_j n k + 1)%Z.
Proof.
  assert (E : pair_i (n + 1) (k + n) = (pair_i n k + 1)%Z).
  { unfold pair_i. replace (-8 * (k + n) + 4 * (n + 1) * (n + 1 - 1) - 7)%Z with (-8 * k + 4 * n * (n - 1) - 7)%Z by ring.
    ring. }
  split; [exact E|]. unfold pair_j. rewrite E. cbv zeta. set (i := pair_i n k).
  destruct (tri_even n) as [c Hc]. destruct (tri_even (n - i)) as [d Hd].
  rewrite (half_mul n (n - 1) c Hc).
  rewrite (half_mul (n + 1) (n + 1 - 1) (c + n)) by lia.
  replace ((n + 1 - (i + 1)) * (n + 1 - (i + 1) - 1))%Z with ((n - i) * (n - i - 1))%Z by ring.
  rewrite (half_mul (n - i) (n - i - 1) d Hd). lia.
Qed.

Lemma decode_nat n k : (k < length (pairs n))%nat ->
  decode (Z.of_nat n) (Z.of_nat k) = nth k (pairs n) (O, O)
  /\ (0 <= pair_i (Z.of_nat n) (Z.of_nat k))%Z /\ (0 <= pair_j (Z.of_nat n) (Z.of_nat k))%Z.
Proof.
  revert k. induction n as [|n IH]; intros k H; [cbn in H; lia|].
  cbn [pairs] in *. rewrite app_length, !map_length, seq_length in H.
  replace (Z.of_nat (S n)) with (Z.of_nat n + 1)%Z by lia. unfold decode.
  destruct (Nat.lt_ge_cases k n) as [L|L].
  - destruct (decode_row0 (Z.of_nat n) (Z.of_nat k) ltac:(lia)) as [E1 E2]. rewrite E1, E2.
    rewrite app_nth1 by (rewrite map_length, seq_length; lia).
    rewrite nth_map_seq by exact L. split; [f_equal; lia|lia].
  - specialize (IH (k - n)%nat ltac:(lia)). destruct IH as (E & P1 & P2).
    replace (Z.of_nat k) with (Z.of_nat (k - n) + Z.of_nat n)%Z by lia.
    destruct (decode_next (Z.of_nat n) (Z.of_nat (k - n))) as [E1 E2]. rewrite E1, E2.
    rewrite app_nth2 by (rewrite map_length, seq_length; lia). rewrite map_length, seq_length.
    rewrite (nth_map _ _ (k - n) (O, O)) by lia. rewrite <- E. unfold decode. cbn [fst snd].
    split; [f_equal; lia|lia].
Qed.

Lemma argwhere_filter r k (d : list R) (g : nat -> nat * nat) (ps : list (nat * nat)) (dist : nat * nat -> R) :
  d = map dist ps -> (forall i, (i < length ps)%nat -> g (k + i)%nat = nth i ps (O, O)) ->
  map g (argwhere_lt r k d) = filter (fun p => Rltb (dist p) r) ps.
Proof.
  revert k d. induction ps as [|p ps IH]; intros k d E G; subst d; [reflexivity|].
  cbn [map argwhere_lt filter]. specialize (IH (S k) _ eq_refl).
  assert (G' : forall i, (i < length ps)%nat -> g (S k + i)%nat = nth i ps (O, O)).
  { intros i Hi. specialize (G (S i) ltac:(cbn; lia)). cbn [nth] in G. rewrite <- G. f_equal. lia. }
  specialize (IH G'). destruct (Rltb (dist p) r); cbn [map]; rewrite IH; [|reflexivity].
  f_equal. specialize (G O ltac:(cbn; lia)). rewrite Nat.add_0_r in G. exact G.
Qed.

Definition close (f : list bore) (r : R) (p : nat * nat) : bool :=
  Rltb (planar (nth (fst p) f b0) (nth (snd p) f b0)) r.

Lemma find_duplicates_eq f : find_duplicates f =
  match lmax (map br f) with None => None | Some r => Some (filter (close f r) (pairs (length f))) end.
Proof.
  unfold find_duplicates. destruct (lmax (map br f)) as [r|]; [|reflexivity]. f_equal.
  unfold close.
  apply (argwhere_filter r 0 (pdist f) (fun k => decode (Z.of_nat (length f)) (Z.of_nat k)) (pairs (length f))
    (fun p => planar (nth (fst p) f b0) (nth (snd p) f b0))).
  - apply pdist_pairs.
  - intros i Hi. apply decode_nat. exact Hi.
Qed.

Lemma fold_max_spec l x : let m := fold_left Rmax l x in
  (m = x \/ In m l) /\ x <= m /\ forall y, In y l -> y <= m.
Proof.
  revert x. induction l as [|a l IH]; intros x; cbn [fold_left].
  - split; [left; reflexivity|]. split; [lra|]. intros y [].
  - destruct (IH (Rmax x a)) as (A & B & C). cbv zeta.
    split; [|split].
    + destruct A as [A|A]; [|right; right; exact A]. rewrite A. unfold Rmax.
      destruct (Rle_dec x a); [right; left; reflexivity|left; reflexivity].
    + pose proof (Rmax_l x a). lra.
    + intros y [<-|I]; [pose proof (Rmax_r x a); lra|apply C; exact I].
Qed.

Lemma lmax_radius f r : lmax (map br f) = Some r <-> is_max_radius f r.
Proof.
  destruct f as [|a f].
  - cbn. split; [discriminate|]. intros [(b & [] & _) _].
  - cbn [map lmax]. destruct (fold_max_spec (map br f) (br a)) as (A & B & C).
    set (m := fold_left Rmax (map br f) (br a)) in *. cbv zeta in *. split.
    + intros E. inversion E; subst r. split.
      * destruct A as [A|A]; [exists a; split; [left; reflexivity|congruence]|].
        apply in_map_iff in A. destruct A as (b & E1 & I). exists b. split; [right; exact I|exact E1].
      * intros b [<-|I]; [exact B|]. apply C, in_map, I.
    + intros [(b & I & E) U]. f_equal. apply Rle_antisym.
      * destruct A as [A|A]; [rewrite A; apply U; left; reflexivity|].
        apply in_map_iff in A. destruct A as (c & E1 & Ic). rewrite <- E1. apply U. right; exact Ic.
      * rewrite <- E. destruct I as [<-|I]; [exact B|]. apply C, in_map, I.
Qed.

Lemma pairs_sorted n : StronglySorted lex_lt (pairs n).
Proof.
  induction n as [|n IH]; cbn [pairs]; [constructor|].
  assert (S2 : StronglySorted lex_lt (map (fun p => (S (fst p), S (snd p))) (pairs n))).
  { clear - IH. induction IH as [|a l H IH2 F]; cbn; constructor; [assumption|].
    rewrite Forall_map. eapply Forall_impl; [|exact F]. intros q [L|[L1 L2]]; unfold lex_lt; cbn in *; lia. }
  assert (G : forall a m l, (forall q, In q l -> (1 <= fst q)%nat) -> StronglySorted lex_lt l ->
    StronglySorted lex_lt (map (fun j => (O, S j)) (seq a m) ++ l)).
  { intros a m l Hl Sl. revert a. induction m as [|m IHm]; intros a; cbn; [exact Sl|].
    constructor; [apply IHm|]. apply Forall_forall. intros q I. apply in_app_or in I.
    destruct I as [I|I].
    - apply in_map_iff in I. destruct I as (j & <- & Ij). apply in_seq in Ij. unfold lex_lt; cbn. lia.
    - left. cbn. specialize (Hl q I). lia. }
  apply G; [|exact S2]. intros q I. apply in_map_iff in I. destruct I as (p & <- & _). cbn. lia.
Qed.

Lemma sorted_filter {A} (R : A -> A -> Prop) p l : StronglySorted R l -> StronglySorted R (filter p l).
Proof.
  induction 1 as [|a l H IH F]; cbn; [constructor|]. destruct (p a); [|exact IH].
  constructor; [exact IH|]. apply Forall_forall. intros x I. apply filter_In in I.
  rewrite Forall_forall in F. apply F. apply I.
Qed.

Lemma find_duplicates_spec f r : is_max_radius f r ->
  exists ps, find_duplicates f = Some ps /\ StronglySorted lex_lt ps
    /\ forall i j, In (i, j) ps <-> dup_pair f r i j.
Proof.
  intros M. apply lmax_radius in M. rewrite find_duplicates_eq, M. eexists. split; [reflexivity|].
  split; [apply sorted_filter, pairs_sorted|].
  intros i j. rewrite filter_In, in_pairs. unfold close, dup_pair. cbn [fst snd].
  rewrite Rltb_true. reflexivity.
Qed.

(** * Removal of duplicates *)
Definition kept (dup : list nat) (n : nat) : list nat :=
  filter (fun i => negb (existsb (Nat.eqb i) dup)) (seq 0 n).

Lemma keep_gen dup (f : list bore) a :
  map snd (filter (fun p => negb (existsb (Nat.eqb (fst p)) dup)) (combine (seq a (length f)) f))
  = map (fun i => nth (i - a) f b0) (filter (fun i => negb (existsb (Nat.eqb i) dup)) (seq a (length f))).
Proof.
  revert a. induction f as [|b f IH]; intros a; [reflexivity|].
  cbn [length seq combine filter fst].
  assert (E : map (fun i => nth (i - a) (b :: f) b0)
      (filter (fun i => negb (existsb (Nat.eqb i) dup)) (seq (S a) (length f))) =
    map (fun i => nth (i - S a) f b0) (filter (fun i => negb (existsb (Nat.eqb i) dup)) (seq (S a) (length f)))).
  { apply map_ext_in. intros i I. apply filter_In in I. destruct I as [I _]. apply in_seq in I.
    replace (i - a)%nat with (S (i - S a)) by lia. reflexivity. }
  destruct (negb (existsb (Nat.eqb a) dup)); cbn [map snd]; rewrite IH, E; [|reflexivity].
  rewrite Nat.sub_diag. reflexivity.
Qed.

Lemma keep_eq dup f : keep_bores dup f = map (fun i => nth i f b0) (kept dup (length f)).
Proof.
  unfold keep_bores, kept. rewrite keep_gen. apply map_ext. intros i. rewrite Nat.sub_0_r. reflexivity.
Qed.

Lemma in_kept dup n i : In i (kept dup n) <-> (i < n)%nat /\ ~ In i dup.
Proof.
  unfold kept. rewrite filter_In, in_seq, negb_true_iff.
  assert (E : existsb (Nat.eqb i) dup = true <-> In i dup).
  { rewrite existsb_exists. split; [intros (x & I & E); apply Nat.eqb_eq in E; subst; exact I|].
    intros I; exists i; split; [exact I|apply Nat.eqb_refl]. }
  rewrite <- E. destruct (existsb (Nat.eqb i) dup); split; intros [A B]; split; (lia || congruence).
Qed.

Lemma seq_sorted a n : StronglySorted lt (seq a n).
Proof.
  revert a. induction n as [|n IH]; intros a; cbn; constructor; [apply IH|].
  apply Forall_forall. intros x I. apply in_seq in I. lia.
Qed.

Lemma remove_spec f r : is_max_radius f r ->
  exists ks, remove_duplicates f = Some (map (fun k => nth k f b0) ks)
    /\ StronglySorted lt ks
    /\ (forall k, In k ks <-> (k < length f)%nat /\ forall i, ~ dup_pair f r i k).
Proof.
  intros M. destruct (find_duplicates_spec f r M) as (ps & E & _ & I).
  exists (kept (map snd ps) (length f)). unfold remove_duplicates. rewrite E. split; [rewrite keep_eq; reflexivity|].
  split; [apply sorted_filter, seq_sorted|].
  intros k. rewrite in_kept. split; intros [A B]; (split; [exact A|]).
  - intros i D. apply B. apply in_map_iff. exists (i, k). split; [reflexivity|]. apply I. exact D.
  - intros H. apply in_map_iff in H. destruct H as ([i k'] & E1 & H). cbn in E1. subst k'.
    apply I in H. exact (B i H).
Qed.

Lemma remove_clean f r ks : (forall k, In k ks <-> (k < length f)%nat /\ forall i, ~ dup_pair f r i k) ->
  (forall i j, In i ks -> In j ks -> i <> j -> r <= plane_dist (nth i f b0) (nth j f b0))
  /\ (forall j, (j < length f)%nat -> exists k, In k ks /\ (k <= j)%nat /\
        clos_refl_trans nat (dup_pair f r) k j).
Proof.
  intros K. split.
  - assert (G : forall i j, In i ks -> In j ks -> (i < j)%nat -> r <= plane_dist (nth i f b0) (nth j f b0)).
    { intros i j Hi Hj L. apply K in Hj. destruct Hj as [Hj N].
      destruct (Rle_lt_dec r (plane_dist (nth i f b0) (nth j f b0))) as [G|G]; [exact G|].
      exfalso. apply (N i). split; [lia|exact G]. }
    intros i j Hi Hj N. destruct (Nat.lt_trichotomy i j) as [L|[L|L]]; [apply G; assumption|contradiction|].
    replace (plane_dist (nth i f b0) (nth j f b0)) with (plane_dist (nth j f b0) (nth i f b0)).
    + apply G; assumption.
    + unfold plane_dist. f_equal. ring.
  - induction j as [j IH] using lt_wf_ind. intros Hj.
    assert (Dec : (forall i, ~ dup_pair f r i j) \/ exists i, dup_pair f r i j).
    { assert (G : forall m, (forall i, (i < m)%nat -> ~ dup_pair f r i j) \/ exists i, dup_pair f r i j).
      { induction m as [|m [IHm|IHm]]; [left; lia| |right; exact IHm].
        destruct (Rlt_dec (plane_dist (nth m f b0) (nth j f b0)) r) as [L|L].
        - destruct (Nat.lt_ge_cases m j) as [Lm|Lm].
          + right. exists m. split; [lia|exact L].
          + left. intros i Hi [D1 D2]. destruct (Nat.eq_dec i m) as [->|]; [lia|]. apply (IHm i ltac:(lia)). split; assumption.
        - left. intros i Hi D. destruct (Nat.eq_dec i m) as [->|]; [destruct D; contradiction|]. apply (IHm i ltac:(lia) D). }
      destruct (G j) as [Gj|Gj]; [left|right; exact Gj].
      intros i [D1 D2]. apply (Gj i ltac:(lia)). split; assumption. }
    destruct Dec as [D|(i & D)].
    + exists j. split; [apply K; split; assumption|]. split; [lia|apply rt_refl].
    + destruct D as [D1 D2]. destruct (IH i ltac:(lia) ltac:(lia)) as (k & A & B & C).
      exists k. split; [exact A|]. split; [lia|]. eapply rt_trans; [exact C|]. apply rt_step. split; assumption.
Qed.

Lemma sorted_full ks n : StronglySorted lt ks -> (forall k, In k ks <-> (k < n)%nat) -> ks = seq 0 n.
Proof.
  intros S H.
  assert (G : forall l1 l2, StronglySorted lt l1 -> StronglySorted lt l2 ->
    (forall k, In k l1 <-> In k l2) -> l1 = l2).
  { induction l1 as [|a l1 IH]; intros l2 S1 S2 E.
    - destruct l2 as [|b l2]; [reflexivity|]. exfalso. apply (E b). left; reflexivity.
    - destruct l2 as [|b l2]; [exfalso; apply (E a); left; reflexivity|].
      inversion S1 as [|? ? S1' F1]; subst. inversion S2 as [|? ? S2' F2]; subst.
      rewrite Forall_forall in F1, F2.
      assert (a = b).
      { destruct (proj1 (E a) (or_introl eq_refl)) as [Ha|Ha]; [congruence|].
        destruct (proj2 (E b) (or_introl eq_refl)) as [Hb|Hb]; [congruence|].
        apply F2 in Ha. apply F1 in Hb. lia. }
      subst b. f_equal. apply IH; [assumption|assumption|]. intros k. split; intros I.
      + destruct (proj1 (E k) (or_intror I)) as [<-|J]; [apply F1 in I; lia|exact J].
      + destruct (proj2 (E k) (or_intror I)) as [<-|J]; [apply F2 in I; lia|exact J]. }
  apply G; [exact S|apply seq_sorted|]. intros k. rewrite H, in_seq. lia.
Qed.

Lemma map_nth_seq {A} (l : list A) d : map (fun k => nth k l d) (seq 0 (length l)) = l.
Proof.
  apply (list_eq_nth d); [rewrite map_length, seq_length; reflexivity|].
  intros i Hi. rewrite map_length, seq_length in Hi. rewrite nth_map_seq by exact Hi. reflexivity.
Qed.

Lemma remove_identity f r : is_max_radius f r -> (forall i j, ~ dup_pair f r i j) -> remove_duplicates f = Some f.
Proof.
  intros M N. destruct (remove_spec f r M) as (ks & E & S & K). rewrite E. f_equal.
  rewrite (sorted_full ks (length f) S).
  - apply map_nth_seq.
  - intros k. rewrite K. split; [intros [A _]; exact A|]. intros A; split; [exact A|]. intros i; apply N.
Qed.

Lemma remove_idempotent f g : remove_duplicates f = Some g -> remove_duplicates g = Some g.
Proof.
  intros H. destruct (lmax (map br f)) as [r|] eqn:E.
  2:{ unfold remove_duplicates in H. rewrite find_duplicates_eq, E in H. discriminate. }
  pose proof E as M. apply lmax_radius in M. destruct (remove_spec f r M) as (ks & Eq & S & K).
  rewrite Eq in H. inversion H; subst g. clear H.
  destruct (remove_clean f r ks K) as [C _].
  assert (Hks : ks <> []).
  { destruct M as [(b & I & _) _]. destruct (In_nth _ _ b0 I) as (i & Hi & _).
    assert (In O ks).
    { apply K. split; [lia|]. intros j [D _]. lia. }
    intros ->. contradiction. }
  set (g := map (fun k => nth k f b0) ks) in *.
  destruct (lmax (map br g)) as [r'|] eqn:E'.
  2:{ destruct ks; [congruence|discriminate]. }
  apply lmax_radius in E'. apply (remove_identity g r' E').
  assert (Hr : r' <= r).
  { destruct E' as [(b & I & <-) _]. apply M. unfold g in I. apply in_map_iff in I.
    destruct I as (k & <- & Ik). apply nth_In. apply K in Ik. apply Ik. }
  intros i j [L D]. unfold g in L, D. rewrite map_length in L.
  rewrite !(nth_map _ _ _ O) in D by lia.
  assert (N : nth i ks O <> nth j ks O).
  { assert (Nd : NoDup ks).
    { clear - S. induction S as [|a l S' IH F]; constructor; [|exact IH].
      intros I. rewrite Forall_forall in F. apply F in I. lia. }
    intros En. rewrite NoDup_nth in Nd. specialize (Nd i j ltac:(lia) ltac:(lia) En). lia. }
  specialize (C (nth i ks O) (nth j ks O) ltac:(apply nth_In; lia) ltac:(apply nth_In; lia) N).
  lra.
Qed.

(** * Equivalent boreholes *)
Lemma nth_combine_map (f : R * R -> R) (a b : list R) k : length a = length b -> (k < length a)%nat ->
  nth k (map f (combine a b)) 0 = f (nth k a 0, nth k b 0).
Proof.
  intros E H. rewrite (nth_map f (combine a b) k (0, 0) 0) by (rewrite combine_length; lia).
  now rewrite combine_nth.
Qed.

Lemma eb_segments_member e n o k : length (ex e) = length (ey e) -> length (eori e) = length (ex e) ->
  (k < length (ex e))%nat -> bore_ok (member e k) ->
  map (fun s => member s k) (eb_segments e n o) = segments (member e k) n o.
Proof.
  intros E1 E2 Hk Hok. unfold eb_segments, segments. rewrite map_map.
  change (eb_edges e n o) with (segment_edges (member e k) n o).
  apply map_ext. intros [z q]. unfold member, mk_bore. cbn [bH bD br bx by_ btilt bori eH eD er ex ey etilt eori].
  rewrite !nth_combine_map by lia. cbn [fst snd].
  f_equal. unfold bore_ok in Hok. cbn [member btilt bori] in Hok.
  destruct (tilted (etilt e)); [reflexivity|]. now rewrite Hok.
Qed.

Lemma eb_of_bores_member l e k : eb_of_bores l = Some e ->
  (forall b, In b l -> bH b = bH (hd b0 l) /\ bD b = bD (hd b0 l) /\ br b = br (hd b0 l) /\ btilt b = btilt (hd b0 l)) ->
  (k < length l)%nat -> length (ex e) = length l /\ length (ey e) = length l /\ length (eori e) = length l
  /\ member e k = nth k l b0.
Proof.
  intros He Hs Hk. destruct l as [|b l]; [discriminate|].
  unfold eb_of_bores in He. injection He as <-. cbn [hd] in Hs. cbn [ex ey eori].
  change (bx b :: map bx l) with (map bx (b :: l)). change (by_ b :: map by_ l) with (map by_ (b :: l)).
  change (bori b :: map bori l) with (map bori (b :: l)).
  set (m := b :: l) in *.
  split; [apply map_length|]. split; [apply map_length|]. split; [apply map_length|].
  unfold member. cbn [eH eD er ex ey etilt eori].
  rewrite !(nth_map _ m k b0 0) by exact Hk.
  destruct (Hs (nth k m b0)) as (A & B & C & D); [now apply nth_In|].
  rewrite <- A, <- B, <- C, <- D. now destruct (nth k m b0).
Qed.

(** Merging groups of the same dimensions appends their members. *)
Lemma eb_merge_members a c e k : eb_of_ebores [a; c] = Some e ->
  length (ex a) = length (ey a) -> length (eori a) = length (ex a) ->
  eH a = eH c -> eD a = eD c -> er a = er c -> etilt a = etilt c ->
  member e k = if (k <? length (ex a))%nat then member a k else member c (k - length (ex a)).
Proof.
  intros He E1 E2 A B C D. injection He as <-. unfold member. cbn [eH eD er ex ey etilt eori map concat].
  rewrite !app_nil_r. destruct (Nat.ltb_spec k (length (ex a))) as [L|L].
  - rewrite !app_nth1 by lia. reflexivity.
  - rewrite !app_nth2 by lia. rewrite <- E1, E2. now rewrite A, B, C, D.
Qed.
