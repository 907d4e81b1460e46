From Verif Require Import Base LinAlg FLS_Model.
From Verif Require Import Bore_Model Solve_Model Detailed_Model Detailed_Spec Sim_Model Sim_Group_Proofs Eq_Model Eq_Spec Eq_Group_Proofs.
From Coq Require Import Permutation.

Local Notation b_ bs i := (nth i bs no_bore).
Local Notation no_eb := (EBore 0 0 0 [] [] 0 []).

Section Clusters.
  Variables (link : list R -> tree) (kC : nat) (tol : R).
  Hypothesis Ag : agglomerative link.

  Lemma n_clusters_range t m size : (1 < size)%nat -> (0 < n_clusters kC t m size <= size)%nat.
  Proof. intros H. unfold n_clusters, max_clusters. lia. Qed.

  Lemma cluster_fold data : forall gs cl n, Forall (fun g => g <> []) gs -> exists ls n', fold_left (cluster_step link kC data) gs (cl, n) = (cl ++ ls, n') /\
    (n <= n')%nat /\ length ls = length (concat gs) /\ (forall x, In x ls -> (n <= x < n')%nat) /\ (forall j, (n <= j < n')%nat -> In j ls) /\
    (forall p q, (p < length ls)%nat -> (q < length ls)%nat -> nth p ls O = nth q ls O -> exists g, In g gs /\ In (nth p (concat gs) O) g /\ In (nth q (concat gs) O) g).
  Proof.
    induction gs as [|g gs IH]; intros cl n F.
    - exists [], n. cbn. rewrite app_nil_r. repeat split; auto; try (intros; lia); contradiction.
    - inversion F as [|? ? Fg Fs]; subst. cbn [fold_left].
      assert (X : exists k l0, cluster_step link kC data (cl, n) g = (cl ++ map (fun x => (x + n)%nat) l0, (n + k)%nat) /\ labelled k (length g) l0).
      { unfold cluster_step. destruct (Nat.ltb_spec 1 (length g)) as [L|L].
        - pose proof (n_clusters_range (link (map (fun k => nth k data 0) g)) (maxR (map (fun k => nth k data 0) g)) _ L) as Q.
          eexists _, _. split; [reflexivity|]. destruct (Ag (map (fun k => nth k data 0) g)) as [_ [_ [_ A]]]; [rewrite map_length; auto|].
          rewrite map_length in A. apply A. auto.
        - exists 1%nat, [O]. split; [reflexivity|]. destruct g as [|a [|b g]]; cbn in L; [congruence| |lia].
          split; [reflexivity|]. split; [intros x [<-|[]]; lia|]. intros j Hj. left. lia. }
      destruct X as [k [l0 [-> [L0 [L1 L2]]]]]. destruct (IH (cl ++ map (fun x => (x + n)%nat) l0) (n + k)%nat Fs) as [ls [n' [-> [Q1 [Q2 [Q3 [Q4 Q5]]]]]]].
      exists (map (fun x => (x + n)%nat) l0 ++ ls), n'. rewrite app_assoc. split; [reflexivity|]. split; [lia|].
      assert (Lm : length (map (fun x => (x + n)%nat) l0) = length g) by (rewrite map_length; auto).
      split; [cbn [concat]; rewrite !app_length; lia|]. split.
      { intros x I. apply in_app_or in I. destruct I as [I|I]; [|specialize (Q3 x I); lia]. apply in_map_iff in I. destruct I as [y [<- Iy]]. specialize (L1 y Iy). lia. }
      split.
      { intros j Hj. apply in_or_app. destruct (Nat.lt_ge_cases j (n + k)) as [A|A]; [|right; apply Q4; lia]. left. apply in_map_iff. exists (j - n)%nat. split; [lia|apply L2; lia]. }
      intros p q Hp Hq Eq. rewrite app_length, Lm in Hp, Hq. cbn [concat].
      assert (Z : forall p, (p < length g)%nat -> nth p (map (fun x => (x + n)%nat) l0 ++ ls) O = (nth p l0 O + n)%nat /\ (nth p l0 O < k)%nat).
      { intros p' Hp'. rewrite app_nth1 by lia. rewrite (nth_map _ _ _ O) by lia. split; auto. apply L1, nth_In. lia. }
      assert (Y : forall p, (length g <= p)%nat -> (p < length g + length ls)%nat -> nth p (map (fun x => (x + n)%nat) l0 ++ ls) O = nth (p - length g) ls O /\ (n + k <= nth (p - length g) ls O)%nat).
      { intros p' A B. rewrite app_nth2 by lia. rewrite Lm. split; auto. apply Q3, nth_In. lia. }
      destruct (Nat.lt_ge_cases p (length g)) as [A|A], (Nat.lt_ge_cases q (length g)) as [B|B].
      + exists g. split; [left; auto|]. rewrite !app_nth1 by lia. split; apply nth_In; auto.
      + destruct (Z p A), (Y q B ltac:(lia)). lia.
      + destruct (Z q B), (Y p A ltac:(lia)). lia.
      + destruct (Y p A ltac:(lia)) as [E1 _], (Y q B ltac:(lia)) as [E2 _]. rewrite E1, E2 in Eq. rewrite !app_nth2 by lia.
        destruct (Q5 (p - length g)%nat (q - length g)%nat ltac:(lia) ltac:(lia) Eq) as [g' [I [I1 I2]]]. exists g'. split; [right; auto|auto].
  Qed.

  Lemma uq_nonempty bs : Forall (fun g => g <> []) (unique_boreholes tol bs).
  Proof. apply Forall_impl with (2 := unique_grouped tol bs). intros g [h [t [-> _]]]. discriminate. Qed.

  (** the labels of all the boreholes *)
  Lemma clusters_spec bs : (0 < length bs)%nat -> exists ls n, clusters link kC tol bs = (ls, n) /\ labelled n (length bs) ls /\
    (forall p q, (p < length bs)%nat -> (q < length bs)%nat -> nth p ls O = nth q ls O ->
       p = q \/ exists g, In g (unique_boreholes tol bs) /\ In (nth p (concat (unique_boreholes tol bs)) O) g /\ In (nth q (concat (unique_boreholes tol bs)) O) g).
  Proof.
    intros H. unfold clusters. destruct (Nat.ltb_spec 1 (length bs)) as [L|L].
    - destruct (cluster_fold (steady_data bs) (unique_boreholes tol bs) [] O (uq_nonempty bs)) as [ls [n [-> [Q1 [Q2 [Q3 [Q4 Q5]]]]]]].
      cbn [app]. exists ls, n. split; [reflexivity|].
      assert (Ll : length ls = length bs). { rewrite Q2, (Permutation_length (unique_perm tol bs)). apply seq_length. }
      split; [split; [auto|split; [intros x I; apply Q3; auto|intros j Hj; apply Q4; lia]]|]. intros p q Hp Hq Eq. right. apply Q5; auto; lia.
    - exists (seq 0 (length bs)), (length bs). split; [reflexivity|]. split.
      + split; [apply seq_length|]. split; [intros x I; apply in_seq in I; lia|intros; apply in_seq; lia].
      + intros p q Hp Hq _. left. lia.
  Qed.

  Lemma all_some_map {A B} (f : A -> option B) (g : A -> B) l : (forall x, In x l -> f x = Some (g x)) -> all_some (map f l) = Some (map g l).
  Proof. induction l as [|x l IH]; intros H; cbn [map all_some]; auto. rewrite H by (left; auto). rewrite IH; auto. intros y Hy. apply H. right; auto. Qed.

  Lemma members_are bs ls i : length ls = length bs ->
    members bs ls i = map (fun k => b_ bs k) (filter (fun k => Nat.eqb (nth k ls O) i) (seq 0 (length bs))).
  Proof.
    intros L. unfold members. assert (C : combine bs ls = map (fun k => (b_ bs k, nth k ls O)) (seq 0 (length bs))).
    { apply (list_eq_nth (no_bore, O)); [rewrite combine_length, map_length, seq_length; lia|]. intros k Hk. rewrite combine_length in Hk.
      rewrite combine_nth by auto. rewrite (nth_map _ _ _ O) by (rewrite seq_length; lia). rewrite seq_nth by lia. reflexivity. }
    rewrite C. generalize (seq 0 (length bs)) as l. induction l as [|k l IH]; cbn [map filter]; auto. cbn [snd]. destruct (Nat.eqb (nth k ls O) i); cbn [map]; rewrite IH; auto.
  Qed.

  Lemma partition_main bs : (0 < length bs)%nat -> exists ls E, equivalent_boreholes link kC tol bs = Some E /\ gathers bs ls E /\
    (forall p q, (p < length bs)%nat -> (q < length bs)%nat -> nth p ls O = nth q ls O ->
       p = q \/ exists g, In g (unique_boreholes tol bs) /\ In (nth p (concat (unique_boreholes tol bs)) O) g /\ In (nth q (concat (unique_boreholes tol bs)) O) g).
  Proof.
    intros H. destruct (clusters_spec bs H) as [ls [n [Ec [[L0 [L1 L2]] Q]]]]. unfold equivalent_boreholes. rewrite Ec.
    set (ks i := filter (fun k => Nat.eqb (nth k ls O) i) (seq 0 (length bs))).
    assert (Nk : forall i, (i < n)%nat -> ks i <> []).
    { intros i Hi Ek. destruct (In_nth ls i O (L2 i Hi)) as [k [Hk Ei]]. assert (I : In k (ks i)) by (apply filter_In; split; [apply in_seq; lia|apply Nat.eqb_eq; auto]).
      rewrite Ek in I. destruct I. }
    set (eb i := let b := b_ bs (hd O (ks i)) in let l := map (fun k => b_ bs k) (ks i) in EBore (bH b) (bD b) (br b) (map bx l) (map by_ l) (btilt b) (map bori l)).
    assert (S : all_some (map (fun i => eb_of_bores (members bs ls i)) (seq 0 n)) = Some (map eb (seq 0 n))).
    { apply all_some_map. intros i Hi. apply in_seq in Hi. rewrite members_are by auto. fold (ks i). specialize (Nk i ltac:(lia)). unfold eb. destruct (ks i) as [|k r]; [congruence|reflexivity]. }
    rewrite S. exists ls, (map eb (seq 0 n)). split; [reflexivity|]. split; [|auto].
    assert (Ln : length (map eb (seq 0 n)) = n) by (rewrite map_length, seq_length; auto).
    split; [auto|]. rewrite Ln. split; [intros k Hk; apply L1, nth_In; lia|]. intros i Hi. cbv zeta. rewrite nth_map_seq by auto.
    fold (ks i). split; [auto|]. unfold eb. cbn [ex ey eori eH eD er etilt]. rewrite !map_map. repeat split; reflexivity.
  Qed.

  (** * boreholes in blocks *)
  Lemma blocks_main bs : (0 < length bs)%nat -> 0 < tol -> dims_apart tol bs -> in_blocks bs -> (forall b, In b bs -> 0 < bH b /\ 0 <= bD b /\ 0 < br b) ->
    exists ls E, equivalent_boreholes link kC tol bs = Some E /\ gathers bs ls E /\
    forall p q, (p < length bs)%nat -> (q < length bs)%nat -> nth p ls O = nth q ls O -> same_dims (b_ bs p) (b_ bs q).
  Proof.
    intros H Ht Da Bl Pos. destruct (partition_main bs H) as [ls [E [A [B C]]]]. exists ls, E. split; auto. split; auto.
    intros p q Hp Hq Eq. destruct (C p q Hp Hq Eq) as [->|[g [I [Ip Iq]]]]; [repeat split|].
    destruct (unique_blocks tol bs Ht Da Pos Bl) as [Cc [G _]]. rewrite Cc, !seq_nth in * by auto. apply (proj2 (G g I)); auto.
  Qed.
End Clusters.

(** * total length *)
Lemma filter_sum (f : nat -> R) (ls : list nat) n l : (forall k, In k l -> (nth k ls O < n)%nat) ->
  Rsum (map f l) = sumn n (fun i => Rsum (map f (filter (fun k => Nat.eqb (nth k ls O) i) l))).
Proof.
  induction l as [|k l IH]; intros H.
  - cbn. symmetry. induction n; cbn [sumn]; auto. rewrite IHn; [ring|intros; contradiction].
  - cbn [map Rsum]. rewrite IH by (intros; apply H; right; auto). pose proof (H k (or_introl eq_refl)) as Hk. clear IH H.
    assert (Q : forall m, sumn m (fun i => Rsum (map f (filter (fun k => Nat.eqb (nth k ls O) i) (k :: l))))
      = (if Nat.ltb (nth k ls O) m then f k else 0) + sumn m (fun i => Rsum (map f (filter (fun k => Nat.eqb (nth k ls O) i) l)))).
    { induction m as [|m IH]; [cbn; ring|]. cbn [sumn]. rewrite IH. cbn [filter]. destruct (Nat.eqb_spec (nth k ls O) m) as [->|N].
      - rewrite Nat.ltb_irrefl. rewrite (proj2 (Nat.ltb_lt m (S m))) by lia. cbn [map Rsum]. ring.
      - destruct (Nat.ltb_spec (nth k ls O) m), (Nat.ltb_spec (nth k ls O) (S m)); try lia; ring. }
    rewrite Q, (proj2 (Nat.ltb_lt _ _) Hk). ring.
Qed.

Lemma Rsum_seq (f : nat -> R) n : Rsum (map f (seq 0 n)) = sumn n f.
Proof.
  induction n as [|n IH]; [reflexivity|]. rewrite seq_S, map_app. cbn [sumn map plus]. rewrite <- IH.
  generalize (map f (seq 0 n)) as l. induction l as [|x l IHl]; cbn [app Rsum]; [ring|]. rewrite IHl. ring.
Qed.

Lemma length_conserved bs ls E : gathers bs ls E -> (forall p q, (p < length bs)%nat -> (q < length bs)%nat -> nth p ls O = nth q ls O -> same_dims (b_ bs p) (b_ bs q)) ->
  equivalent_length E = total_length bs.
Proof.
  intros [L0 [L1 L2]] S. unfold total_length, equivalent_length.
  rewrite <- (map_id bs) at 1. assert (M : map bH bs = map (fun k => bH (b_ bs k)) (seq 0 (length bs))).
  { apply (list_eq_nth 0); [rewrite !map_length, seq_length; auto|]. intros k Hk. rewrite map_length in Hk. rewrite (nth_map _ _ _ no_bore), (nth_map _ _ _ O) by (rewrite ?seq_length; auto). rewrite seq_nth by auto. auto. }
  rewrite map_id, M. rewrite (filter_sum _ ls (length E)) by (intros k I; apply in_seq in I; apply L1; lia).
  assert (M' : map (fun e => eH e * INR (length (ex e))) E = map (fun i => eH (nth i E no_eb) * INR (length (ex (nth i E no_eb)))) (seq 0 (length E))).
  { apply (list_eq_nth 0); [rewrite !map_length, seq_length; auto|]. intros k Hk. rewrite map_length in Hk. rewrite (nth_map _ _ _ no_eb), (nth_map _ _ _ O) by (rewrite ?seq_length; auto). rewrite seq_nth by auto. auto. }
  rewrite M', Rsum_seq. apply sumn_ext. intros i Hi. destruct (L2 i Hi) as [Nk [X [_ [_ [B _]]]]]. rewrite X, B, map_length. clear X B.
  set (ks := filter (fun k => Nat.eqb (nth k ls O) i) (seq 0 (length bs))) in *.
  assert (K : forall k, In k ks -> (k < length bs)%nat /\ nth k ls O = i). { intros k I. apply filter_In in I. destruct I as [I J]. apply in_seq in I. apply Nat.eqb_eq in J. split; auto. lia. }
  assert (Kh : In (hd O ks) ks) by (destruct ks; [congruence|left; auto]).
  assert (V : forall k, In k ks -> bH (b_ bs k) = bH (b_ bs (hd O ks))). { intros k I. destruct (K k I), (K _ Kh). apply S; auto. congruence. }
  clear - V. revert V. generalize (bH (b_ bs (hd O ks))) as h. induction ks as [|k l IH]; intros h V; [cbn; ring|].
  cbn [map length]. rewrite S_INR. cbn [Rsum]. rewrite <- (IH h) by (intros; apply V; right; auto).
  rewrite (V k) by (left; auto). ring.
Qed.
