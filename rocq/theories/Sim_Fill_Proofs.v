(** The response matrix of the similarities solver exists when no borehole is horizontal. *)
From Verif Require Import Base LinAlg FLS_Model.
From Verif Require Import Bore_Model Solve_Model Detailed_Model Detailed_Spec Detailed_Proofs.
From Verif Require Import Sim_Model Sim_Spec Sim_Dist_Proofs Sim_Group_Proofs Sim_Cells_Proofs Sim_Matrix_Proofs Sim_Exact_Proofs Sim_All_Proofs.

Lemma find_index_none {A} (f : A -> bool) l : (forall x, In x l -> f x = false) -> find_index f l = None.
Proof. induction l as [|x l IH]; intros H; cbn; auto. rewrite H by (left; auto). rewrite IH; auto. intros y Hy. apply H. right; auto. Qed.

Lemma unique_all {A} (cmp : A -> A -> bool) (d : A) ps : forall U, (forall p u, In p ps -> In u U -> cmp p u = false) ->
  (forall m n, (m < length ps)%nat -> (n < length ps)%nat -> m <> n -> cmp (nth m ps d) (nth n ps d) = false) ->
  length (fst (unique_pairs cmp ps U)) = (length U + length ps)%nat.
Proof.
  induction ps as [|p ps IH]; intros U HU HP; cbn [unique_pairs length]; [cbn; lia|].
  rewrite find_index_none by (intros u Hu; apply HU; auto; left; auto).
  destruct (unique_pairs cmp ps (U ++ [p])) as [V ks] eqn:E. cbn [fst]. replace V with (fst (unique_pairs cmp ps (U ++ [p]))) by (rewrite E; auto).
  rewrite IH.
  - rewrite app_length. cbn. lia.
  - intros q u Hq Hu. apply in_app_or in Hu. destruct Hu as [Hu|[<-|[]]]; [apply HU; auto; right; auto|].
    destruct (In_nth _ _ d Hq) as [m [Hm <-]]. apply (HP (S m) O); cbn; lia.
  - intros m n Hm Hn N. apply (HP (S m) (S n)); cbn; lia.
Qed.

Section Fill.
  Variables (tol disTol : R) (bs : list bore) (ns : list nat) (rs : list (list R)) (kv : R -> pair -> R) (ki : pair -> R).
  Hypothesis W : segmented bs ns rs.
  Hypothesis Ne : (0 < length bs)%nat.
  Hypothesis Np : forall i, (i < length bs)%nat -> (0 < nth i ns O)%nat.
  Hypothesis Da : depths_apart tol bs ns rs.
  Hypothesis Ht : 0 < disTol.
  Hypothesis Rp : forall b, In b bs -> 0 < br b.
  Local Notation nB := (length bs).
  Local Notation n_ i := (nth i ns 0%nat).
  Local Notation sg := (sg bs ns rs).

  Lemma near_false x y : tol * (Rabs x + tiny) <= Rabs (x - y) -> Rltb (Rabs (x - y) / (Rabs x + tiny)) tol = false.
  Proof.
    intros H. apply Rltb_false. pose proof tiny_pos. pose proof (Rabs_pos x). apply Rnot_lt_le. intros L. apply ratio_lt' in L; [lra|lra].
  Qed.
  Lemma pairs_differ i j a b a' b' : (i < nB)%nat -> (j < nB)%nat -> (a < n_ i)%nat -> (b < n_ j)%nat -> (a' < n_ i)%nat -> (b' < n_ j)%nat -> a <> a' \/ b <> b' ->
    compare_inclined tol disTol (sg i a, sg j b) (sg i a', sg j b') = false.
  Proof.
    intros Hi Hj Ha Hb Ha' Hb' N. unfold compare_inclined. cbn [fst snd]. destruct N as [N|N].
    - rewrite (near_false (bD (sg i a)) (bD (sg i a'))) by (apply (Da i a a'); auto). cbn [andb]. rewrite !andb_false_r. cbn [andb]. auto.
    - rewrite (near_false (bD (sg j b)) (bD (sg j b'))) by (apply (Da j b b'); auto). rewrite !andb_false_r. cbn [andb]. auto.
  Qed.
  Lemma all_unique i j : (i < nB)%nat -> (j < nB)%nat -> let (U, kp) := map_pairs bs ns rs (compare_inclined tol disTol) i j in length U = length kp.
  Proof.
    intros Hi Hj. destruct (map_pairs bs ns rs (compare_inclined tol disTol) i j) as [U kp] eqn:E.
    destruct (map_pairs_spec bs ns rs W _ _ _ _ _ Hi Hj E) as [Lk _]. rewrite Lk. unfold map_pairs in E.
    assert (EU : U = fst (U, kp)) by auto. rewrite EU, <- E. destruct W as [_ [_ L]]. fold no_bore.
    rewrite (unique_all _ no_pair).
    - cbn [length]. change (@length pair) with (@length (bore * bore)). rewrite prod_length, !segments_length, !L by auto. auto.
    - intros p u _ [].
    - change (@length pair) with (@length (bore * bore)). rewrite prod_length, !segments_length, !L by auto. intros m n Hm Hn N. assert (0 < n_ j)%nat by nia.
      assert (Q : forall x, (x < n_ i * n_ j)%nat -> nth x (list_prod (segments (nth i bs no_bore) (n_ i) (Some (nth i rs []))) (segments (nth j bs no_bore) (n_ j) (Some (nth j rs [])))) no_pair
                          = (sg i (x / n_ j)%nat, sg j (x mod n_ j)%nat) /\ (x / n_ j < n_ i)%nat /\ (x mod n_ j < n_ j)%nat).
      { intros x Hx. assert (X1 : (x / n_ j < n_ i)%nat) by (apply Nat.div_lt_upper_bound; lia). assert (X2 : (x mod n_ j < n_ j)%nat) by (apply Nat.mod_upper_bound; lia). split; auto.
        pose proof (nth_list_prod (segments (nth i bs no_bore) (n_ i) (Some (nth i rs []))) (segments (nth j bs no_bore) (n_ j) (Some (nth j rs []))) (x / n_ j) (x mod n_ j) no_bore no_bore) as P.
        rewrite !segments_length, !L in P by auto. specialize (P X1 X2). etransitivity; [|exact P]. unfold no_pair. f_equal. rewrite Nat.mul_comm. apply Nat.div_mod. lia. }
      destruct (Q m Hm) as [Em [M1 M2]]. destruct (Q n Hn) as [En [N1 N2]]. transitivity (compare_inclined tol disTol (sg i (m / n_ j)%nat, sg j (m mod n_ j)%nat) (sg i (n / n_ j)%nat, sg j (n mod n_ j)%nat)); [f_equal; [exact Em|exact En]|].
      apply pairs_differ; auto.
      destruct (Nat.eq_dec (m / n_ j) (n / n_ j)) as [E1|]; auto. right. intros E2. apply N. rewrite (Nat.div_mod m (n_ j)), (Nat.div_mod n (n_ j)) by lia. lia.
  Qed.

  Lemma pair_step_some m g : even bs ns g -> exists m', pair_vertical_step tol disTol bs ns rs kv (Some m) g = Some m'.
  Proof.
    intros [i [j [t [Eg Rg]]]]. unfold pair_vertical_step. replace (hd (O, O) g) with (i, j) by (rewrite Eg; auto). cbv iota beta. fold no_bore.
    set (ds := map (fun p => Rmax (planar (nth (fst p) bs no_bore) (nth (snd p) bs no_bore)) (br (nth (fst p) bs no_bore))) g).
    assert (Pos : forall x, In x ds -> 0 < x).
    { intros x Hx. apply in_map_iff in Hx. destruct Hx as [p [<- Hp]]. destruct (Rg p Hp) as [R1 _]. eapply Rlt_le_trans; [|apply Rmax_r]. apply Rp, nth_In. auto. }
    destruct (find_distances_classes disTol ds Ht Pos) as [dist [ind [Ef _]]].
    assert (Ef' : find_distances (length g) disTol ds = Some (dist, ind)) by (rewrite <- Ef; unfold ds at 2; rewrite map_length; reflexivity). rewrite Ef'.
    destruct (map_pairs bs ns rs (compare_vertical tol) i j) as [U kp]. eexists. reflexivity.
  Qed.
  Lemma pair_fold_some gs : Forall (even bs ns) gs -> forall m, exists m', fold_left (pair_vertical_step tol disTol bs ns rs kv) gs (Some m) = Some m'.
  Proof.
    induction gs as [|g gs IH]; intros F m; [exists m; auto|]. inversion F; subst. destruct (pair_step_some m g H1) as [m1 E1]. cbn [fold_left]. rewrite E1. auto.
  Qed.

  Lemma matrix_exists : exists m, sim_matrix tol disTol bs ns rs kv ki = Some m.
  Proof.
    destruct (groups_even tol disTol bs ns rs kv W Ne) as [G1 [G2 [G3 G4]]].
    destruct (vertical_covers tol bs ns rs W Ne _ G1 Np) as [_ [_ Rv]]. destruct (inclined_covers tol disTol bs ns rs W Ne _ G2) as [_ Ri]. destruct (inclined_covers tol disTol bs ns rs W Ne _ G4) as [_ Rq].
    destruct (Ri all_unique) as [_ Ri']. destruct (Rq all_unique) as [_ Rq']. unfold start in *.
    unfold sim_matrix. fold (self_vertical tol bs ns rs) in Rv. fold (self_inclined tol disTol bs ns rs) in Ri'. fold (pair_inclined tol disTol bs ns rs) in Rq'.
    rewrite gather_some by (rewrite map_length; auto). rewrite gather_some by (rewrite map_length; auto).
    destruct (pair_fold_some _ G3 (assign (assign (fun _ _ : nat => 0) (s_j (self_vertical tol bs ns rs)) (s_i (self_vertical tol bs ns rs))
         (map (fun i : nat => nth i (map (fun c : R * pair => kv (fst c) (snd c)) (s_dp (self_vertical tol bs ns rs))) 0) (s_k (self_vertical tol bs ns rs))))
      (s_j (self_inclined tol disTol bs ns rs)) (s_i (self_inclined tol disTol bs ns rs))
      (map (fun i : nat => nth i (map (fun c : R * pair => ki (snd c)) (s_dp (self_inclined tol disTol bs ns rs))) 0) (s_k (self_inclined tol disTol bs ns rs))))) as [m1 E1].
    rewrite E1. rewrite gather_some by (rewrite map_length; auto). rewrite gather_some by (rewrite map_length; auto). eexists. reflexivity.
  Qed.
End Fill.
