(** Distance classes of the similarities solver. *)
From Verif Require Import Base FLS_Model FLS_Spec.
From Verif Require Import Bore_Model Bore_Spec Bore_Proofs TimeGrid_Spec UniqueDist_Proofs Solve_Model Detailed_Model Detailed_Spec Sim_Model Sim_Spec.
From Coq Require Import Permutation.

Lemma insert_index_perm d i l : Permutation (insert_index d i l) (i :: l).
Proof. induction l as [|j l IH]; cbn; [reflexivity|]. destruct (Rleb (nth i d 0) (nth j d 0)); [reflexivity|]. rewrite IH. apply perm_swap. Qed.
Lemma argsort_perm d : Permutation (argsort d) (seq 0 (length d)).
Proof. unfold argsort. induction (seq 0 (length d)) as [|i l IH]; cbn; [reflexivity|]. rewrite insert_index_perm, IH. reflexivity. Qed.
Lemma insert_index_sorted d i l : map (fun k => nth k d 0) (insert_index d i l) = rinsert (nth i d 0) (map (fun k => nth k d 0) l).
Proof. induction l as [|j l IH]; cbn; auto. destruct (Rleb (nth i d 0) (nth j d 0)); cbn; auto. rewrite IH. auto. Qed.
Lemma argsort_values d : map (fun k => nth k d 0) (argsort d) = rsort d.
Proof.
  unfold argsort. transitivity (rsort (map (fun k => nth k d 0) (seq 0 (length d)))).
  - induction (seq 0 (length d)) as [|i l IH]; cbn; auto. rewrite insert_index_sorted, IH. auto.
  - f_equal. apply (list_eq_nth 0); [rewrite map_length, seq_length; auto|]. intros k Hk. rewrite map_length, seq_length in Hk.
    rewrite nth_map_seq by auto. auto.
Qed.

Lemma fold_upd (who : list nat) (v : nat) : forall ind q,
  length (fold_left (fun a i => upd a i v) who ind) = length ind /\
  (In q who -> (q < length ind)%nat -> nth q (fold_left (fun a i => upd a i v) who ind) O = v) /\
  (~ In q who -> nth q (fold_left (fun a i => upd a i v) who ind) O = nth q ind O).
Proof.
  induction who as [|i who IH]; intros ind q; cbn [fold_left]; [repeat split; auto; intros []|].
  destruct (IH (upd ind i v) q) as [L [A B]]. rewrite upd_length in L, A. split; [auto|]. split.
  - intros H Hq. destruct (in_dec Nat.eq_dec q who) as [I|N]; auto. rewrite B by auto. destruct H as [->|H]; [|tauto].
    apply nth_upd_eq; auto.
  - intros N. rewrite B by (intros I; apply N; right; auto). apply nth_upd_neq. intros ->. apply N. left; auto.
Qed.

Lemma nth_inj_in (l : list nat) i q : NoDup l -> (i < length l)%nat -> nth i l O = nth q l O -> (q < length l)%nat -> i = q.
Proof. intros N Hi E Hq. exact (proj1 (NoDup_nth l O) N i q Hi Hq E). Qed.

Section Loop.
  Variables (tol : R) (d : list R) (isort : list nat) (n : nat).
  Hypothesis Ht : 0 < tol.
  Hypothesis S : sortedR d.
  Hypothesis P : forall x, In x d -> 0 < x.
  Hypothesis Li : length isort = length d.
  Hypothesis Nd : NoDup isort.
  Hypothesis Ri : forall i, In i isort -> (i < n)%nat.

  Lemma in_slice_iff {A} a b (l : list A) x d0 : (b <= length l)%nat -> In x (slice a b l) <-> exists i, (a <= i < b)%nat /\ x = nth i l d0.
  Proof.
    intros Hb. split; [apply in_slice; auto|]. intros [i [Hi ->]]. replace i with (a + (i - a))%nat by lia. rewrite <- (nth_slice a b) by lia.
    apply nth_In. rewrite slice_length by auto. lia.
  Qed.
  Lemma in_skipn_iff {A} a (l : list A) x d0 : In x (skipn a l) <-> exists i, (a <= i < length l)%nat /\ x = nth i l d0.
  Proof.
    split; [apply in_skipn|]. intros [i [Hi ->]]. replace i with (a + (i - a))%nat by lia. rewrite <- nth_skipn.
    apply nth_In. rewrite skipn_length. lia.
  Qed.

  Lemma fd_loop_classes : forall f j0 j1 nDis ind, (j0 < length d)%nat -> (0 < j1)%nat -> (length d - j0 <= f)%nat -> length ind = n ->
    exists ds ind', fd_loop f tol d isort j0 j1 nDis ind = Some (ds, ind') /\ length ind' = n /\
      (forall q, (forall i, (j0 <= i < length d)%nat -> nth i isort O <> q) -> nth q ind' O = nth q ind O) /\
      (forall i, (j0 <= i < length d)%nat -> exists c, nth (nth i isort O) ind' O = (nDis + c)%nat /\ (c < length ds)%nat /\
          class_mean tol (fun z => In z d) (nth i d 0) (nth c ds 0)).
  Proof.
    induction f as [|f IH]; intros j0 j1 nDis ind L0 L1 Lf Hind; [lia|]. cbn [fd_loop].
    assert (C : ((j0 <? length d) && (0 <? j1))%nat = true) by (apply andb_true_iff; split; apply Nat.ltb_lt; assumption).
    rewrite C. set (p := fun x => Rleb ((1 + tol) * nth j0 d 0) x).
    assert (P0 : 0 < nth j0 d 0) by (apply P, nth_In; exact L0).
    pose proof (first_true_spec (map p d)) as F. unfold argmax_bool.
    assert (Np : forall i, (i < length d)%nat -> nth i (map p d) false = p (nth i d 0)) by (intros i Hi; apply nth_map; exact Hi).
    destruct (first_true (map p d)) as [k|].
    - destruct F as (A & B & G). rewrite map_length in A. rewrite Np in B by exact A. unfold p in B. apply Rleb_true in B.
      assert (K : (j0 < k)%nat).
      { destruct (Nat.lt_ge_cases j0 k) as [Q|Q]; [exact Q|exfalso]. specialize (S k j0 ltac:(lia)). nra. }
      rewrite (proj2 (Nat.ltb_lt j0 k) K).
      set (ind1 := fold_left (fun a i => upd a i nDis) (slice j0 k isort) ind).
      assert (Hi1 : length ind1 = n) by (unfold ind1; rewrite (proj1 (fold_upd _ _ _ O)); auto).
      destruct (IH k k (nDis + 1)%nat ind1 A ltac:(lia) ltac:(lia) Hi1) as (ds & ind' & E & Hl & Keep & Cl). rewrite E.
      exists (mean (slice j0 k d) :: ds), ind'. split; auto. split; auto. split.
      + intros q Hq. rewrite Keep by (intros i Hi; apply Hq; lia). unfold ind1. apply fold_upd. intros I.
        apply (in_slice_iff _ _ _ _ O) in I; [|lia]. destruct I as [i [Hi E2]]. apply (Hq i); [lia|auto].
      + intros i Hi. destruct (Nat.lt_ge_cases i k) as [Lk|Lk].
        * exists O. rewrite Keep.
          2:{ intros i' Hi' E2. apply (nth_inj_in isort i' i) in E2; auto; lia. }
          unfold ind1. rewrite (proj1 (proj2 (fold_upd (slice j0 k isort) nDis ind (nth i isort O)))).
          2:{ apply (in_slice_iff _ _ _ _ O); [lia|]. exists i. split; [lia|auto]. }
          2:{ rewrite Hind. apply Ri. apply nth_In. lia. }
          split; [lia|]. split; [cbn; lia|]. cbn [nth]. exists (slice j0 k d). split.
          { intros x Hx. apply (in_slice_iff _ _ _ _ 0) in Hx; [|lia]. destruct Hx as [m [Hm ->]]. apply nth_In. lia. }
          split. { apply (in_slice_iff _ _ _ _ 0); [lia|]. exists i. split; [lia|auto]. }
          split; auto. exists (nth j0 d 0). split. { apply (in_slice_iff _ _ _ _ 0); [lia|]. exists j0. split; [lia|auto]. }
          intros z Hz. apply (in_slice_iff _ _ _ _ 0) in Hz; [|lia]. destruct Hz as [m [Hm ->]]. split; [apply S; lia|].
          specialize (G m ltac:(lia)). rewrite Np in G by lia. unfold p in G. apply Rleb_false in G. exact G.
        * destruct (Cl i ltac:(lia)) as [c [E2 [Hc Cm]]]. exists (Datatypes.S c). rewrite E2. split; [lia|]. split; [cbn; lia|]. exact Cm.
    - assert (F0 : (j0 <? 0)%nat = false) by (apply Nat.ltb_ge; lia). rewrite F0.
      set (ind1 := fold_left (fun a i => upd a i nDis) (skipn j0 isort) ind).
      assert (E : fd_loop f tol d isort 0 0 (nDis + 1) ind1 = Some ([], ind1)).
      { destruct f; cbn [fd_loop]; rewrite andb_false_r; reflexivity. }
      rewrite E. exists [mean (skipn j0 d)], ind1. split; auto. split; [unfold ind1; rewrite (proj1 (fold_upd _ _ _ O)); auto|]. split.
      + intros q Hq. unfold ind1. apply fold_upd. intros I.
        apply (in_skipn_iff _ _ _ O) in I. destruct I as [i [Hi E2]]. apply (Hq i); [lia|auto].
      + intros i Hi. exists O. unfold ind1. rewrite (proj1 (proj2 (fold_upd (skipn j0 isort) nDis ind (nth i isort O)))).
        2:{ apply (in_skipn_iff _ _ _ O). exists i. split; [lia|auto]. }
        2:{ rewrite Hind. apply Ri. apply nth_In. lia. }
        split; [lia|]. split; [cbn; lia|]. cbn [nth]. exists (skipn j0 d). split.
        { intros x Hx. apply (in_skipn_iff _ _ _ 0) in Hx. destruct Hx as [m [Hm ->]]. apply nth_In. lia. }
        split. { apply (in_skipn_iff _ _ _ 0). exists i. split; [lia|auto]. }
        split; auto. exists (nth j0 d 0). split. { apply (in_skipn_iff _ _ _ 0). exists j0. split; [lia|auto]. }
        intros z Hz. apply (in_skipn_iff _ _ _ 0) in Hz. destruct Hz as [m [Hm ->]]. split; [apply S; lia|].
        specialize (F m). rewrite Np in F by lia. unfold p in F. apply Rleb_false in F. exact F.
  Qed.
End Loop.

Lemma class_mean_incl tol (l l' : R -> Prop) x y : (forall z, l z -> l' z) -> class_mean tol l x y -> class_mean tol l' x y.
Proof. intros I [cs [A B]]. exists cs. split; auto. Qed.

Lemma find_distances_classes tol all : 0 < tol -> (forall x, In x all -> 0 < x) ->
  exists ds ind, find_distances (length all) tol all = Some (ds, ind) /\ length ind = length all /\
    forall q, (q < length all)%nat -> (nth q ind O < length ds)%nat /\ class_mean tol (fun z => In z all) (nth q all 0) (nth (nth q ind O) ds 0).
Proof.
  intros Ht P. unfold find_distances. pose proof (argsort_perm all) as Pm. rewrite argsort_values.
  assert (Lr : length (rsort all) = length all) by (apply Permutation_length, rsort_perm).
  assert (Li : length (argsort all) = length all) by (rewrite (Permutation_length Pm), seq_length; auto).
  destruct (length all) as [|m] eqn:El.
  - exists [], []. destruct all; [|discriminate]. split; [reflexivity|]. split; auto. intros q Hq. lia.
  - assert (Ri : forall i, In i (argsort all) -> (i < S m)%nat) by (intros i Hi; apply (Permutation_in _ Pm) in Hi; apply in_seq in Hi; lia).
    assert (Pd : forall x, In x (rsort all) -> 0 < x) by (intros x Hx; apply P; apply (Permutation_in _ (rsort_perm all)); auto).
    destruct (fd_loop_classes tol (rsort all) (argsort all) (S m) Ht (rsort_sorted all) Pd ltac:(lia) ltac:(apply (Permutation_NoDup (Permutation_sym Pm)), seq_NoDup) Ri
      (S m) 0 1 0 (repeat O (S m)) ltac:(lia) ltac:(lia) ltac:(lia) ltac:(apply repeat_length)) as (ds & ind & E & Hl & _ & Cl).
    exists ds, ind. split; [exact E|]. split; auto. intros q Hq.
    assert (Iq : In q (argsort all)) by (apply (Permutation_in _ (Permutation_sym Pm)), in_seq; lia).
    destruct (In_nth _ _ O Iq) as [i [Hi Ei]]. destruct (Cl i ltac:(lia)) as [c [E2 [Hc Cm]]]. rewrite Ei in E2. cbn in E2. rewrite E2. split; auto.
    assert (Ex : nth i (rsort all) 0 = nth q all 0) by (rewrite <- argsort_values, (nth_map _ _ _ O) by lia; rewrite Ei; auto). rewrite Ex in Cm.
    apply (class_mean_incl tol (fun z => In z (rsort all))); auto. intros z Hz. apply (Permutation_in _ (rsort_perm all)); auto.
Qed.

Lemma class_mean_close tol (all : R -> Prop) x y : 0 < tol -> (forall z, all z -> 0 < z) -> class_mean tol all x y ->
  Rabs (x - y) < tol * x /\ x / (1 + tol) < y < (1 + tol) * x.
Proof.
  intros Ht P [cs [I [Ix [-> [lo [Il B]]]]]].
  assert (C : lo <= mean cs < (1 + tol) * lo) by (apply mean_bounds; [destruct cs; [destruct Ix|discriminate]|exact B]).
  specialize (B x Ix). assert (0 < lo) by (apply P, I; auto). assert (tol * lo <= tol * x) by nra.
  split; [apply Rabs_def1; lra|]. split; [|nra]. apply (Rmult_lt_reg_r (1 + tol)); [lra|]. unfold Rdiv. rewrite Rmult_assoc, Rinv_l by lra. nra.
Qed.

Lemma mean_const cs x : cs <> [] -> (forall z, In z cs -> z = x) -> mean cs = x.
Proof.
  intros N H. assert (L : (0 < length cs)%nat) by (destruct cs; [congruence|cbn; lia]). pose proof (mean_mul cs L) as M.
  assert (E : Rsum cs = INR (length cs) * x).
  { clear - H. induction cs as [|y cs IH]; [cbn; ring|]. change (length (y :: cs)) with (S (length cs)). rewrite S_INR. cbn [Rsum fold_right]. fold (Rsum cs).
    rewrite IH by (intros; apply H; right; auto). rewrite (H y) by (left; auto). ring. }
  pose proof (lt_0_INR _ L). rewrite E in M. apply (Rmult_eq_reg_l (INR (length cs))); [lra|lra].
Qed.

Lemma class_mean_exact tol (all : R -> Prop) x y : 0 < tol -> (forall a b, all a -> all b -> a < b -> (1 + tol) * a <= b) -> class_mean tol all x y -> y = x.
Proof.
  intros Ht A [cs [I [Ix [-> [lo [Il B]]]]]].
  assert (Q : forall z, In z cs -> z = lo).
  { intros z Hz. destruct (B z Hz) as [B1 B2]. destruct (Rle_lt_or_eq_dec lo z B1) as [L|L]; auto. pose proof (A lo z (I lo Il) (I z Hz) L). lra. }
  rewrite (Q x Ix). apply mean_const; auto. destruct cs; [destruct Ix|discriminate].
Qed.
