From Verif Require Import Base TimeGrid_Spec LinAlg FLS_Model FLS_Sol_Proofs.
From Verif Require Import Bore_Model Bore_Spec Bore_Proofs UniqueDist_Proofs Solve_Model Detailed_Model Detailed_Spec Sim_Model Sim_Spec Sim_Dist_Proofs Eq_Model Eq_Spec Eq_Dist_Proofs.
From Coq Require Import Permutation.

Local Notation no_eb := (EBore 0 0 0 [] [] 0 []).
Local Notation b_ bs i := (nth i bs no_bore).

(** * distances between equivalent boreholes *)
Lemma pair_distances_are E i j : length (ex (nth i E no_eb)) = length (ey (nth i E no_eb)) -> length (ex (nth j E no_eb)) = length (ey (nth j E no_eb)) ->
  pair_distances E i j = distances_between E i j.
Proof.
  intros Li Lj. unfold pair_distances, distances_between. set (e := nth i E no_eb) in *. set (t := nth j E no_eb) in *.
  set (v b a := Rmax (sqrt ((nth b (ex t) 0 - nth a (ex e) 0) ^ 2 + (nth b (ey t) 0 - nth a (ey e) 0) ^ 2)) (er e)).
  assert (D : eb_distance e t = map (fun b => map (v b) (seq 0 (length (ex e)))) (seq 0 (length (ex t)))).
  { unfold eb_distance. rewrite (combine_nth_map (ex t) (ey t) 0 0 Lj), map_map. apply map_ext. intros b. rewrite (combine_nth_map (ex e) (ey e) 0 0 Li), map_map. apply map_ext. reflexivity. }
  rewrite D. destruct (Nat.eqb_spec i j) as [Eij|Nij].
  - cbn [andb]. f_equal. rewrite map_length, seq_length.
    assert (C : combine (seq 0 (length (ex t))) (map (fun b => map (v b) (seq 0 (length (ex e)))) (seq 0 (length (ex t))))
      = map (fun b => (b, map (v b) (seq 0 (length (ex e))))) (seq 0 (length (ex t)))).
    { generalize (seq 0 (length (ex t))) as l. induction l as [|x l IH]; cbn; auto. rewrite IH. auto. }
    rewrite C, map_map. apply map_ext. intros b. cbn [fst snd]. rewrite map_length, seq_length.
    generalize (seq 0 (length (ex e))) as l. induction l as [|a l IH]; cbn [map combine filter]; auto. cbn [fst]. destruct (Nat.eqb a b); cbn [negb map]; rewrite IH; auto.
  - f_equal. apply map_ext. intros b. cbn [andb negb]. f_equal. generalize (seq 0 (length (ex e))) as l. induction l as [|a l IH]; cbn [filter]; auto. rewrite <- IH at 1. auto.
Qed.

Lemma in_group_distances e t x : In x (group_distances e t) <-> exists a b, (a < length (ex e))%nat /\ (b < length (ex t))%nat /\
  x = Rmax (sqrt ((nth b (ex t) 0 - nth a (ex e) 0) ^ 2 + (nth b (ey t) 0 - nth a (ey e) 0) ^ 2)) (er e).
Proof.
  unfold group_distances. rewrite in_concat. split.
  - intros [l [I J]]. apply in_map_iff in I. destruct I as [b [<- Hb]]. apply in_map_iff in J. destruct J as [a [<- Ha]]. apply in_seq in Ha, Hb. exists a, b. repeat split; auto; lia.
  - intros [a [b [Ha [Hb ->]]]]. eexists. split; [apply in_map_iff; exists b; split; [reflexivity|apply in_seq; lia]|]. apply in_map_iff. exists a. split; [reflexivity|apply in_seq; lia].
Qed.

(** * distances of the field *)
Section Field.
  Variables (tol : R) (bs : list bore).
  Hypothesis Ht : 0 < tol.
  Hypothesis Nb : (0 < length bs)%nat.
  Hypothesis Hr : 0 < br (b_ bs 0).
  Hypothesis Far : forall a b, (a < length bs)%nat -> (b < length bs)%nat -> a <> b -> (1 + tol) * br (b_ bs 0) <= planar (b_ bs a) (b_ bs b).
  Local Notation r0 := (br (b_ bs 0)).

  Lemma field_main : exists dis, field_distances tol bs = Some dis /\ strictly_increasing dis /\ (forall x, In x dis -> 0 < x) /\
    (forall a b, (a < length bs)%nat -> (b < length bs)%nat -> a <> b -> exists k, (k < length dis)%nat /\
       Rabs (planar (b_ bs a) (b_ bs b) - nth k dis 0) < tol * planar (b_ bs a) (b_ bs b) /\
       (distances_apart tol bs -> nth k dis 0 = planar (b_ bs a) (b_ bs b))).
  Proof.
    set (e := EBore (bH (b_ bs 0)) (bD (b_ bs 0)) r0 (map bx bs) (map by_ bs) (btilt (b_ bs 0)) (map bori bs)).
    assert (Ee : eb_of_bores bs = Some e) by (unfold e; destruct bs; [cbn in Nb; lia|reflexivity]).
    assert (Lx : length (ex e) = length bs) by (unfold e; cbn [ex]; apply map_length). assert (Ly : length (ey e) = length bs) by (unfold e; cbn [ey]; apply map_length).
    destruct (unique_distance_main tol e e Ht Hr ltac:(congruence) ltac:(congruence)) as [ds [ws [Eu Dc]]].
    unfold field_distances. rewrite Ee, (Eu (length bs * length bs)%nat) by (rewrite Lx; auto). exists (tl ds). split; [reflexivity|].
    pose proof (group_distances_pos e e Hr) as Pos.
    destruct (classes_consequences tol _ ds ws Ht Pos Dc) as [_ [_ [Inc _]]].
    destruct Dc as [cls [Pm [Ed [_ [M Sp]]]]].
    assert (Nn : forall c, In c cls -> c <> []). { intros c I ->. destruct (M [] I) as (lo & [] & _). }
    assert (V : forall x, In x (group_distances e e) -> r0 <= x /\ (x = r0 \/ field_distance bs x)).
    { intros x I. apply in_group_distances in I. destruct I as [a [b [Ha [Hb ->]]]]. rewrite Lx in Ha, Hb. split; [apply Rmax_r|].
      change (er e) with r0. change (ex e) with (map bx bs). change (ey e) with (map by_ bs).
      rewrite !(nth_map _ _ _ no_bore) by auto. destruct (Nat.eq_dec a b) as [->|N].
      - left. replace ((bx (b_ bs b) - bx (b_ bs b)) ^ 2 + (by_ (b_ bs b) - by_ (b_ bs b)) ^ 2) with 0 by ring. rewrite sqrt_0. apply Rmax_right. lra.
      - right. exists b, a. repeat split; auto. fold (planar (b_ bs b) (b_ bs a)). apply Rmax_left. pose proof (Far b a Hb Ha ltac:(auto)). nra. }
    assert (W : forall c x, In c cls -> In x c -> In x (group_distances e e)). { intros c x Ic Ix. apply (Permutation_in _ Pm), in_concat. eauto. }
    assert (I0 : In r0 (group_distances e e)).
    { apply in_group_distances. exists O, O. rewrite Lx. repeat split; auto. rewrite !Rminus_eq_0. replace (0 ^ 2 + 0 ^ 2) with 0 by ring. rewrite sqrt_0. symmetry. apply Rmax_right. change (er e) with r0. lra. }
    assert (First : forall k, (k < length cls)%nat -> In r0 (nth k cls []) -> k = O).
    { intros k Hk Ik. destruct k as [|k]; auto. assert (L0 : (0 < length cls)%nat) by lia. destruct (M (nth 0 cls []) (nth_In cls [] L0)) as [lo [Il B]].
      pose proof (Sp O (S k) ltac:(lia) lo r0 Il (fun x I => proj1 (B x I)) Ik). destruct (V lo (W _ _ (nth_In cls [] L0) Il)) as [Q _]. assert (0 < tol * lo) by (apply Rmult_lt_0_compat; lra). exfalso. lra. }
    assert (C0 : (0 < length cls)%nat /\ In r0 (nth 0 cls [])).
    { apply (Permutation_in _ (Permutation_sym Pm)), in_concat in I0. destruct I0 as [c [Ic Ir]]. destruct (In_nth cls c [] Ic) as [k [Hk Ek]].
      assert (k = O) by (apply First; auto; rewrite Ek; auto). subst k. rewrite Ek. split; auto. }
    destruct C0 as [L0 R0].
    assert (Tl : forall k, nth k (tl ds) 0 = nth (S k) ds 0) by (intros k; destruct ds as [|d [|d' ds']], k; reflexivity).
    assert (Lt : length (tl ds) = (length cls - 1)%nat). { rewrite Ed. destruct cls as [|c l]; [cbn in L0; lia|]. cbn [map tl length]. rewrite map_length. lia. }
    assert (Sd : length ds = length cls) by (rewrite Ed; apply map_length).
    split; [intros k Hk; rewrite !Tl; apply Inc; lia|]. split.
    { intros x I. assert (I' : In x ds) by (destruct ds; [destruct I|right; auto]). rewrite Ed in I'. apply in_map_iff in I'. destruct I' as [c [<- Ic]].
      destruct (M c Ic) as [lo [Il B]]. pose proof (mean_bounds c lo _ (Nn c Ic) B). pose proof (Pos lo (W c lo Ic Il)). lra. }
    intros a b Ha Hb N. pose proof (Far a b Ha Hb N) as F. set (x := planar (b_ bs a) (b_ bs b)) in *.
    assert (Ix : In x (group_distances e e)).
    { apply in_group_distances. exists b, a. rewrite Lx. repeat split; auto. change (er e) with r0. change (ex e) with (map bx bs). change (ey e) with (map by_ bs).
      rewrite !(nth_map _ _ _ no_bore) by auto. fold (planar (b_ bs a) (b_ bs b)). fold x. symmetry. apply Rmax_left. nra. }
    apply (Permutation_in _ (Permutation_sym Pm)), in_concat in Ix. destruct Ix as [c [Ic Jx]]. destruct (In_nth cls c [] Ic) as [k [Hk Ek]].
    destruct (M c Ic) as [lo [Il B]]. pose proof (B x Jx) as Bx.
    assert (K : k <> O).
    { intros ->. rewrite Ek in R0. pose proof (B r0 R0). nra. }
    exists (k - 1)%nat. split; [lia|]. rewrite Tl. replace (S (k - 1)) with k by lia. rewrite Ed, (nth_map _ _ _ []), Ek by auto.
    pose proof (mean_bounds c lo _ (Nn c Ic) B) as Mb. pose proof (Pos lo (W c lo Ic Il)) as Pl.
    assert (tol * lo <= tol * x) by nra. split; [apply Rabs_def1; lra|].
    intros Ap. assert (Fd : forall z, In z c -> field_distance bs z).
    { intros z Iz. destruct (V z (W c z Ic Iz)) as [_ [->|]]; auto. destruct K. apply First; auto. rewrite Ek. auto. }
    assert (Q : forall z, In z c -> z = lo).
    { intros z Iz. pose proof (B z Iz). destruct (Rle_lt_or_eq_dec lo z ltac:(lra)) as [Lz|]; auto. pose proof (Ap lo z (Fd lo Il) (Fd z Iz) Lz). lra. }
    rewrite (Q x Jx). apply mean_const; auto.
  Qed.

  Lemma increasing_of l : strictly_increasing l -> increasing l.
  Proof.
    intros H i j Hij Hj. induction j as [|j IH]; [assert (i = O) by lia; subst; lra|]. destruct (Nat.eq_dec i (S j)) as [->|N]; [lra|].
    apply Rle_trans with (nth j l 0); [apply IH; lia|]. left. apply H. lia.
  Qed.
End Field.
