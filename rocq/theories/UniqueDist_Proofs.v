(** Proofs on [unique_distance] and [_EquivalentBorehole]. *)
From Verif Require Import Base Bore_Model Bore_Spec Bore_Proofs TimeGrid_Spec.
From Coq Require Import Permutation.

Definition sortedR (l : list R) : Prop := forall i j, (i <= j < length l)%nat -> nth i l 0 <= nth j l 0.

Lemma rinsert_perm x l : Permutation (rinsert x l) (x :: l).
Proof.
  induction l as [|y l IH]; cbn; [reflexivity|]. destruct (Rleb x y); [reflexivity|].
  rewrite IH. apply perm_swap.
Qed.
Lemma rsort_perm l : Permutation (rsort l) l.
Proof. induction l as [|x l IH]; cbn; [reflexivity|]. rewrite rinsert_perm, IH. reflexivity. Qed.

Lemma sortedR_cons x l : (forall y, In y l -> x <= y) -> sortedR l -> sortedR (x :: l).
Proof.
  intros H S i j L. destruct i as [|i], j as [|j]; cbn [nth length] in *; try lia; try lra.
  - apply H, nth_In. lia.
  - apply S. lia.
Qed.
Lemma sortedR_tail x l : sortedR (x :: l) -> sortedR l /\ forall y, In y l -> x <= y.
Proof.
  intros S. split.
  - intros i j L. apply (S (Datatypes.S i) (Datatypes.S j)). cbn [length]. lia.
  - intros y I. destruct (In_nth _ _ 0 I) as (k & Hk & <-).
    apply (S 0%nat (Datatypes.S k)). cbn [length]. lia.
Qed.
Lemma rinsert_sorted x l : sortedR l -> sortedR (rinsert x l).
Proof.
  induction l as [|y l IH]; intros S; cbn.
  - apply sortedR_cons; [intros ? []|exact S].
  - destruct (Rleb x y) eqn:E.
    + apply Rleb_true in E. apply sortedR_cons; [|exact S].
      intros z [<-|I]; [exact E|]. apply sortedR_tail in S. destruct S as [_ S]. specialize (S z I). lra.
    + apply Rleb_false in E. apply sortedR_tail in S. destruct S as [S H].
      apply sortedR_cons; [|apply IH; exact S].
      intros z I. apply (Permutation_in _ (rinsert_perm x l)) in I. destruct I as [<-|I]; [lra|apply H; exact I].
Qed.
Lemma rsort_sorted l : sortedR (rsort l).
Proof.
  induction l as [|x l IH]; cbn; [intros i j L; cbn in L; lia|]. apply rinsert_sorted, IH.
Qed.

Lemma first_true_spec l : match first_true l with
  | Some k => (k < length l)%nat /\ nth k l false = true /\ forall i, (i < k)%nat -> nth i l false = false
  | None => forall i, nth i l false = false
  end.
Proof.
  induction l as [|b l IH]; cbn; [intros [|i]; reflexivity|].
  destruct b; [split; [lia|split; [reflexivity|lia]]|].
  destruct (first_true l) as [k|]; cbn [option_map].
  - destruct IH as (A & B & C). split; [lia|]. split; [exact B|].
    intros [|i] Hi; [reflexivity|]. apply C. lia.
  - intros [|i]; [reflexivity|apply IH].
Qed.

(** Classes in a sorted list from position [j0]. *)
Inductive classes_from (tol : R) (d : list R) : nat -> list (list R) -> Prop :=
| cf_last j0 : (j0 < length d)%nat -> (forall i, (j0 <= i < length d)%nat -> nth i d 0 < (1 + tol) * nth j0 d 0) ->
    classes_from tol d j0 [skipn j0 d]
| cf_next j0 j1 cls : (j0 < j1 < length d)%nat ->
    (forall i, (j0 <= i < j1)%nat -> nth i d 0 < (1 + tol) * nth j0 d 0) ->
    (1 + tol) * nth j0 d 0 <= nth j1 d 0 ->
    classes_from tol d j1 cls ->
    classes_from tol d j0 (slice j0 j1 d :: cls).

Lemma ud_loop_classes tol d : 0 < tol -> sortedR d -> (forall x, In x d -> 0 < x) ->
  forall f j0 j1, (j0 < length d)%nat -> (0 < j1)%nat -> (length d - j0 <= f)%nat ->
  exists cls, classes_from tol d j0 cls
    /\ ud_loop f tol d j0 j1 = Some (map mean cls, map (@length R) cls).
Proof.
  intros Ht S P. induction f as [|f IH]; intros j0 j1 L0 L1 Lf; [lia|].
  cbn [ud_loop].
  assert (C : ((j0 <? length d) && (0 <? j1))%nat = true) by (apply andb_true_iff; split; apply Nat.ltb_lt; assumption).
  rewrite C. set (p := fun x => Rleb ((1 + tol) * nth j0 d 0) x).
  assert (P0 : 0 < nth j0 d 0) by (apply P, nth_In; exact L0).
  pose proof (first_true_spec (map p d)) as F. unfold argmax_bool.
  assert (Np : forall i, (i < length d)%nat -> nth i (map p d) false = p (nth i d 0)).
  { intros i Hi. apply nth_map. exact Hi. }
  destruct (first_true (map p d)) as [k|].
  - destruct F as (A & B & G). rewrite map_length in A.
    rewrite Np in B by exact A. unfold p in B. apply Rleb_true in B.
    assert (K : (j0 < k)%nat).
    { destruct (Nat.lt_ge_cases j0 k) as [Q|Q]; [exact Q|exfalso].
      specialize (S k j0 ltac:(lia)). nra. }
    assert (C2 : (j0 <? k)%nat = true) by (apply Nat.ltb_lt; exact K). rewrite C2.
    destruct (IH k k A ltac:(lia) ltac:(lia)) as (cls & H1 & H2). rewrite H2.
    exists (slice j0 k d :: cls). split.
    + apply cf_next; [lia| |exact B|exact H1].
      intros i Hi. specialize (G i ltac:(lia)). rewrite Np in G by lia. unfold p in G. apply Rleb_false in G. exact G.
    + cbn [fst snd map]. rewrite slice_length by lia. reflexivity.
  - cbn [Nat.ltb Nat.leb].
    assert (E : ud_loop f tol d 0 0 = Some ([], [])).
    { destruct f; cbn [ud_loop]; rewrite andb_false_r; reflexivity. }
    rewrite E. exists [skipn j0 d]. split.
    + apply cf_last; [exact L0|]. intros i Hi. specialize (F i). rewrite Np in F by lia. unfold p in F.
      apply Rleb_false in F. exact F.
    + cbn [fst snd map]. rewrite skipn_length. reflexivity.
Qed.

Lemma in_slice {A} a b (l : list A) x d0 : (b <= length l)%nat -> In x (slice a b l) ->
  exists i, (a <= i < b)%nat /\ x = nth i l d0.
Proof.
  intros Hb I. destruct (In_nth _ _ d0 I) as (i & Hi & <-). rewrite slice_length in Hi by exact Hb.
  exists (a + i)%nat. split; [lia|]. apply nth_slice. lia.
Qed.
Lemma in_skipn {A} a (l : list A) x d0 : In x (skipn a l) -> exists i, (a <= i < length l)%nat /\ x = nth i l d0.
Proof.
  intros I. destruct (In_nth _ _ d0 I) as (i & Hi & <-). rewrite skipn_length in Hi.
  exists (a + i)%nat. split; [lia|]. apply nth_skipn.
Qed.

Lemma slice_skipn {A} a b (l : list A) : (a <= b)%nat -> slice a b l ++ skipn b l = skipn a l.
Proof.
  intros H. unfold slice. replace (skipn b l) with (skipn (b - a) (skipn a l)).
  - apply firstn_skipn.
  - replace b with ((b - a) + a)%nat at 2 by lia.
    revert l. induction a as [|a IH]; intros l.
    + cbn. rewrite Nat.add_0_r, Nat.sub_0_r. reflexivity.
    + destruct l as [|x l]; [rewrite !skipn_nil; reflexivity|].
      replace (b - S a + S a)%nat with (S (b - S a + a)) by lia. cbn [skipn].
      clear IH H. generalize (b - S a)%nat as k. intros k. revert l. induction a as [|a IHa]; intros l.
      * rewrite Nat.add_0_r. reflexivity.
      * destruct l as [|y l]; [rewrite !skipn_nil; reflexivity|].
        replace (k + S a)%nat with (S (k + a)) by lia. cbn [skipn]. apply IHa.
Qed.

Lemma classes_concat tol d j0 cls : classes_from tol d j0 cls -> concat cls = skipn j0 d.
Proof.
  induction 1 as [j0 H1 H2|j0 j1 cls H1 H2 H3 H4 IH]; cbn [concat].
  - apply app_nil_r.
  - rewrite IH. apply slice_skipn. lia.
Qed.

Lemma classes_members tol d j0 cls : sortedR d -> classes_from tol d j0 cls ->
  forall c, In c cls -> exists lo, In lo c /\ forall x, In x c -> lo <= x < (1 + tol) * lo.
Proof.
  intros S. induction 1 as [j0 H1 H2|j0 j1 cls H1 H2 H3 H4 IH]; intros c I.
  - destruct I as [<-|[]]. exists (nth j0 d 0). split.
    + rewrite <- (Nat.add_0_r j0) at 1. rewrite <- nth_skipn. apply nth_In. rewrite skipn_length. lia.
    + intros x Ix. apply (in_skipn _ _ _ 0) in Ix. destruct Ix as (i & Hi & ->).
      split; [apply S; lia|apply H2; exact Hi].
  - destruct I as [<-|I]; [|apply IH; exact I]. exists (nth j0 d 0). split.
    + rewrite <- (Nat.add_0_r j0) at 1. rewrite <- (nth_slice j0 j1) by lia. apply nth_In. rewrite slice_length by lia. lia.
    + intros x Ix. apply (in_slice _ _ _ _ 0) in Ix; [|lia]. destruct Ix as (i & Hi & ->).
      split; [apply S; lia|apply H2; exact Hi].
Qed.

Lemma classes_separate tol d j0 cls : sortedR d -> classes_from tol d j0 cls -> 0 < tol ->
  forall a b, (a < b < length cls)%nat -> forall lo y, In lo (nth a cls []) ->
    (forall x, In x (nth a cls []) -> lo <= x) -> In y (nth b cls []) -> (1 + tol) * lo <= y.
Proof.
  intros S H Ht. induction H as [j0 H1 H2|j0 j1 cls H1 H2 H3 H4 IH]; intros a b L lo y Il Hlo Iy.
  - cbn in L. lia.
  - destruct b as [|b]; [lia|]. cbn [length] in L. cbn [nth] in Iy.
    destruct a as [|a].
    + cbn [nth] in Il, Hlo.
      assert (Iy' : In y (skipn j1 d)).
      { rewrite <- (classes_concat tol d j1 cls H4). apply in_concat. exists (nth b cls []).
        split; [apply nth_In; lia|exact Iy]. }
      apply (in_skipn _ _ _ 0) in Iy'. destruct Iy' as (i & Hi & ->).
      assert (lo <= nth j0 d 0).
      { apply Hlo. rewrite <- (Nat.add_0_r j0) at 1. rewrite <- (nth_slice j0 j1) by lia.
        apply nth_In. rewrite slice_length by lia. lia. }
      pose proof (S j1 i ltac:(lia)). nra.
    + cbn [nth] in Il, Hlo. apply (IH a b ltac:(lia)); assumption.
Qed.

Lemma ud_main tol all : 0 < tol -> (forall x, In x all -> 0 < x) ->
  exists ds ws, (forall f, (length all <= f)%nat -> ud_loop f tol (rsort all) 0 1 = Some (ds, ws))
    /\ distance_classes tol all ds ws.
Proof.
  intros Ht P. destruct all as [|x0 all'] eqn:Ea.
  - exists [], []. split; [intros f _; destruct f; reflexivity|].
    exists []. split; [reflexivity|]. split; [reflexivity|]. split; [reflexivity|]. split.
    + intros c [].
    + intros a b L. cbn in L. lia.
  - rewrite <- Ea in *. set (d := rsort all).
    assert (Ld : length d = length all) by (apply Permutation_length, rsort_perm).
    assert (Pd : forall x, In x d -> 0 < x).
    { intros x I. apply P. apply (Permutation_in _ (rsort_perm all)). exact I. }
    assert (L0 : (0 < length d)%nat) by (rewrite Ld, Ea; cbn; lia).
    destruct (ud_loop_classes tol d Ht (rsort_sorted all) Pd (length all) 0 1 L0 ltac:(lia) ltac:(lia)) as (cls & C & E).
    exists (map mean cls), (map (@length R) cls). split.
    + intros f Hf. destruct (ud_loop_classes tol d Ht (rsort_sorted all) Pd f 0 1 L0 ltac:(lia) ltac:(lia)) as (cls' & C' & E').
      assert (M : forall f f' j0 j1 r, ud_loop f tol d j0 j1 = Some r -> (f <= f')%nat -> ud_loop f' tol d j0 j1 = Some r).
      { clear. induction f as [|f IH]; intros f' j0 j1 r H L.
        - cbn [ud_loop] in H. destruct f'; cbn [ud_loop]; destruct (_ && _)%bool; try discriminate; exact H.
        - destruct f' as [|f']; [lia|]. cbn [ud_loop] in *. destruct (_ && _)%bool; [|exact H].
          match type of H with context [ud_loop f tol d ?a ?b] => destruct (ud_loop f tol d a b) as [[? ?]|] eqn:E; [|discriminate] end.
          rewrite (IH f' _ _ _ E) by lia. exact H. }
      exact (M _ _ _ _ _ E Hf).
    + exists cls. split; [rewrite (classes_concat tol d 0 cls C); apply rsort_perm|].
      split; [reflexivity|]. split; [reflexivity|].
      split; [apply (classes_members tol d 0 cls (rsort_sorted all) C)|].
      intros a b L lo y. apply (classes_separate tol d 0 cls (rsort_sorted all) C Ht a b L).
Qed.

Lemma mean_bounds c lo hi : c <> [] -> (forall x, In x c -> lo <= x < hi) -> lo <= mean c < hi.
Proof.
  intros N H. assert (P : 0 < INR (length c)) by (apply lt_0_INR; destruct c; [congruence|cbn; lia]).
  pose proof (mean_mul c) as M. assert (L : (0 < length c)%nat) by (destruct c; [congruence|cbn; lia]).
  specialize (M L).
  assert (G : INR (length c) * lo <= Rsum c /\ (c <> [] -> Rsum c < INR (length c) * hi)).
  { clear - H. induction c as [|x c IH]; [cbn; split; [lra|congruence]|].
    destruct IH as [A B]; [intros y I; apply H; right; exact I|].
    change (length (x :: c)) with (S (length c)). rewrite S_INR. cbn [Rsum fold_right]. fold (Rsum c).
    pose proof (H x (or_introl eq_refl)) as Hx. split; [lra|]. intros _.
    destruct c as [|y c]; [cbn; lra|]. specialize (B ltac:(discriminate)). lra. }
  destruct G as [G1 G2]. specialize (G2 N). split; [nra|nra].
Qed.

(** Consequences: weights count the pairs, representatives increase and are close. *)
Lemma classes_consequences tol all ds ws : 0 < tol -> (forall x, In x all -> 0 < x) ->
  distance_classes tol all ds ws ->
  fold_right Nat.add O ws = length all /\ length ds = length ws /\ strictly_increasing ds
  /\ Rsum (map (fun p => fst p * INR (snd p)) (combine ds ws)) = Rsum all
  /\ (forall x, In x all -> exists k, (k < length ds)%nat /\ Rabs (x - nth k ds 0) < tol * x).
Proof.
  intros Ht P (cls & Pm & -> & -> & M & Sp).
  assert (Nn : forall c, In c cls -> c <> []).
  { intros c I ->. destruct (M [] I) as (lo & [] & _). }
  split; [|split; [|split; [|split]]].
  - rewrite <- (Permutation_length Pm). clear. induction cls as [|c cls IH]; cbn; [reflexivity|].
    rewrite app_length, IH. reflexivity.
  - rewrite !map_length. reflexivity.
  - intros k Hk. rewrite map_length in Hk.
    assert (I1 : In (nth k cls []) cls) by (apply nth_In; lia).
    assert (I2 : In (nth (S k) cls []) cls) by (apply nth_In; lia).
    rewrite !(nth_map mean cls _ []) by lia.
    destruct (M _ I1) as (lo & A & B).
    assert (C : lo <= mean (nth k cls []) < (1 + tol) * lo) by (apply mean_bounds; [apply Nn; exact I1|exact B]).
    destruct (M _ I2) as (lo2 & A2 & B2).
    assert (C2 : lo2 <= mean (nth (S k) cls []) < (1 + tol) * lo2) by (apply mean_bounds; [apply Nn; exact I2|exact B2]).
    assert (D : (1 + tol) * lo <= lo2).
    { apply (Sp k (S k) ltac:(lia) lo lo2 A); [intros x I; apply B; exact I|exact A2]. }
    lra.
  - assert (E : Rsum all = Rsum (concat cls)).
    { clear - Pm. induction Pm; cbn; lra. }
    rewrite E. clear - Nn. induction cls as [|c cls IH]; [reflexivity|].
    cbn [map combine concat]. rewrite Rsum_app. cbn [Rsum fold_right fst snd].
    fold (Rsum (map (fun p : R * nat => fst p * INR (snd p)) (combine (map mean cls) (map (@length R) cls)))).
    rewrite IH by (intros c' I; apply Nn; right; exact I).
    assert (L : (0 < length c)%nat) by (specialize (Nn c (or_introl eq_refl)); destruct c; [congruence|cbn; lia]).
    rewrite <- (mean_mul c L) at 1. ring.
  - intros x I. apply (Permutation_in _ (Permutation_sym Pm)) in I. apply in_concat in I.
    destruct I as (c & Ic & Ix). destruct (In_nth _ _ [] Ic) as (k & Hk & Ek).
    exists k. rewrite map_length. split; [exact Hk|]. rewrite (nth_map mean cls k []) by exact Hk. rewrite Ek.
    destruct (M c Ic) as (lo & A & B).
    assert (C : lo <= mean c < (1 + tol) * lo) by (apply mean_bounds; [apply Nn; exact Ic|exact B]).
    specialize (B x Ix).
    assert (0 < lo). { apply P. apply (Permutation_in _ Pm). apply in_concat. exists c. auto. }
    assert (tol * lo <= tol * x) by nra. apply Rabs_def1; lra.
Qed.

Lemma combine_nth_map {A B} (l : list A) (l' : list B) d d' : length l = length l' ->
  combine l l' = map (fun i => (nth i l d, nth i l' d')) (seq 0 (length l)).
Proof.
  intros E. apply (list_eq_nth (d, d')).
  - rewrite combine_length, map_length, seq_length. lia.
  - intros i Hi. rewrite combine_length in Hi. rewrite combine_nth by exact E.
    rewrite (nth_map_seq (fun i => (nth i l d, nth i l' d'))) by lia. reflexivity.
Qed.

Lemma eb_distance_group b t : length (ex b) = length (ey b) -> length (ex t) = length (ey t) ->
  concat (eb_distance b t) = group_distances b t.
Proof.
  intros Eb Et. unfold eb_distance, group_distances. f_equal.
  rewrite (combine_nth_map (ex t) (ey t) 0 0 Et), map_map. apply map_ext. intros j.
  rewrite (combine_nth_map (ex b) (ey b) 0 0 Eb), map_map. apply map_ext. intros i.
  reflexivity.
Qed.

Lemma group_distances_pos b t : 0 < er b -> forall x, In x (group_distances b t) -> 0 < x.
Proof.
  intros P x I. apply in_concat in I. destruct I as (c & Ic & Ix). apply in_map_iff in Ic.
  destruct Ic as (j & <- & _). apply in_map_iff in Ix. destruct Ix as (i & <- & _).
  eapply Rlt_le_trans; [exact P|apply Rmax_r].
Qed.
Lemma group_distances_length b t : length (group_distances b t) = (length (ex b) * length (ex t))%nat.
Proof.
  unfold group_distances.
  generalize (seq 0 (length (ex t))) as s, (seq_length (length (ex t)) 0). intros s Hs. rewrite <- Hs. clear Hs.
  induction s as [|a s IH]; cbn [map concat length]; [lia|]. rewrite app_length, IH, map_length, seq_length. lia.
Qed.

Lemma unique_distance_main tol b t : 0 < tol -> 0 < er b ->
  length (ex b) = length (ey b) -> length (ex t) = length (ey t) ->
  exists ds ws, (forall f, (length (ex b) * length (ex t) <= f)%nat -> unique_distance f tol b t = Some (ds, ws))
    /\ distance_classes tol (group_distances b t) ds ws.
Proof.
  intros Ht P Eb Et. unfold unique_distance. rewrite (eb_distance_group b t Eb Et).
  destruct (ud_main tol (group_distances b t) Ht (group_distances_pos b t P)) as (ds & ws & A & B).
  exists ds, ws. split; [|exact B]. intros f Hf. apply A. rewrite group_distances_length. exact Hf.
Qed.

(** With zero tolerance everything is lumped into one class. *)
Lemma unique_distance_zero_tol : exists b t f ds ws, 0 < er b
  /\ unique_distance f 0 b t = Some (ds, ws) /\ ds = [(5 + 10) / 2] /\ ws = [2%nat]
  /\ group_distances b t = [5; 10].
Proof.
  exists (EBore 150 4 (75/1000) [0] [0] 0 [0]), (EBore 150 4 (75/1000) [5; 10] [0; 0] 0 [0; 0]).
  exists 1%nat.
  assert (E1 : Rmax (sqrt ((5 - 0) ^ 2 + (0 - 0) ^ 2)) (75/1000) = 5).
  { replace ((5 - 0) ^ 2 + (0 - 0) ^ 2) with (5 * 5) by ring. rewrite sqrt_square by lra. apply Rmax_left; lra. }
  assert (E2 : Rmax (sqrt ((10 - 0) ^ 2 + (0 - 0) ^ 2)) (75/1000) = 10).
  { replace ((10 - 0) ^ 2 + (0 - 0) ^ 2) with (10 * 10) by ring. rewrite sqrt_square by lra. apply Rmax_left; lra. }
  eexists. eexists.
  assert (G : group_distances (EBore 150 4 (75/1000) [0] [0] 0 [0]) (EBore 150 4 (75/1000) [5; 10] [0; 0] 0 [0; 0]) = [5; 10]).
  { unfold group_distances. cbn [ex ey er length seq map nth concat app]. rewrite E1, E2. reflexivity. }
  split; [cbn; lra|]. split; [|split; [|split; [|exact G]]].
  - unfold unique_distance. rewrite eb_distance_group by reflexivity. rewrite G.
    assert (S : rsort [5; 10] = [5; 10]).
    { cbn. assert (Q : Rleb 5 10 = true) by (apply Rleb_true; lra). rewrite Q. reflexivity. }
    rewrite S. cbn [ud_loop length Nat.ltb Nat.leb andb map nth].
    assert (Q1 : Rleb ((1 + 0) * 5) 5 = true) by (apply Rleb_true; lra). rewrite Q1.
    cbn [argmax_bool first_true Nat.ltb Nat.leb fst snd]. reflexivity.
  - unfold mean. cbn [skipn Rsum fold_right length INR]. f_equal. lra.
  - reflexivity.
Qed.
