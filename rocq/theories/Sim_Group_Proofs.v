(** Groups of boreholes and of pairs of boreholes. *)
From Verif Require Import Base FLS_Model FLS_Spec.
From Verif Require Import Bore_Model Solve_Model Detailed_Model Detailed_Spec Sim_Model Sim_Spec.
From Coq Require Import Permutation.

Section Add.
  Context {A B : Type} (f : A -> B) (sim : A -> option A) (x : A).
  Hypothesis F : forall h y, sim h = Some y -> f y = f x.

  Lemma add_group_perm gs : Permutation (map f (concat (add_group sim x gs))) (f x :: map f (concat gs)).
  Proof.
    induction gs as [|g gs IH]; [reflexivity|]. cbn [add_group concat]. destruct g as [|h g].
    - cbn [concat app]. exact IH.
    - destruct (sim h) as [y|] eqn:E.
      + cbn [concat]. generalize (h :: g) as G. intros G. rewrite <- app_assoc, !map_app. cbn [map app]. rewrite (F h y E).
        symmetry. apply Permutation_middle.
      + cbn [concat]. rewrite !map_app, IH. symmetry. apply Permutation_middle.
  Qed.

  (** a group has a head, to which the others are related *)
  Variable Rel : A -> A -> Prop.
  Definition grouped (g : list A) : Prop := exists h t, g = h :: t /\ forall y, In y t -> Rel h y.
  Lemma add_group_grouped gs : (forall h y, sim h = Some y -> Rel h y) -> Forall grouped gs -> Forall grouped (add_group sim x gs).
  Proof.
    intros Q. induction gs as [|g gs IH]; intros H; cbn [add_group].
    - constructor; [|constructor]. exists x, []. split; auto. intros y [].
    - inversion H as [|? ? [h [t [-> T]]] Hg]; subst. destruct (sim h) as [y|] eqn:E.
      + constructor; auto. exists h, (t ++ [y]). split; auto. intros z Hz. apply in_app_or in Hz. destruct Hz as [Hz|[<-|[]]]; auto.
      + constructor; auto. exists h, t. auto.
  Qed.

  Lemma add_group_all (P : A -> Prop) gs : P x -> (forall h y, sim h = Some y -> P y) -> (forall y, In y (concat gs) -> P y) -> forall y, In y (concat (add_group sim x gs)) -> P y.
  Proof.
    intros Px Py. induction gs as [|g gs IH]; intros H y; cbn [add_group concat].
    - intros [<-|[]]; auto.
    - destruct g as [|h g]; [cbn [concat app]; apply IH; auto|]. destruct (sim h) as [z|] eqn:E; cbn [concat]; intros Hy; apply in_app_or in Hy.
      + destruct Hy as [Hy|Hy]; [apply in_app_or in Hy; destruct Hy as [Hy|[<-|[]]]|]; [|eapply Py; eauto|]; apply H; cbn [concat]; apply in_or_app; auto.
      + destruct Hy as [Hy|Hy]; [apply H; cbn [concat]; apply in_or_app; auto|]. apply IH; auto. intros w Hw. apply H. cbn [concat]. apply in_or_app; auto.
  Qed.
End Add.

Definition unordered (p : nat * nat) : nat * nat := (Nat.min (fst p) (snd p), Nat.max (fst p) (snd p)).

Lemma in_index_pairs n a b : In (a, b) (index_pairs n) <-> (a < b < n)%nat.
Proof.
  unfold index_pairs. rewrite in_flat_map. split.
  - intros [i [Hi I]]. apply in_seq in Hi. apply in_map_iff in I. destruct I as [j [E Hj]]. apply in_seq in Hj. injection E as <- <-. lia.
  - intros H. exists a. split; [apply in_seq; lia|]. apply in_map_iff. exists b. split; auto. apply in_seq. lia.
Qed.

Lemma NoDup_app {A} (l l' : list A) : NoDup l -> NoDup l' -> (forall x, In x l -> ~ In x l') -> NoDup (l ++ l').
Proof.
  induction l as [|x l IH]; intros N N' D; auto. inversion N; subst. cbn. constructor.
  - intros I. apply in_app_or in I. destruct I as [I|I]; auto. apply (D x); auto. left; auto.
  - apply IH; auto. intros y Hy. apply D. right; auto.
Qed.

Lemma index_pairs_nodup n : NoDup (index_pairs n).
Proof.
  unfold index_pairs. assert (H : forall l, NoDup l -> NoDup (flat_map (fun i => map (fun j => (i, j)) (seq (i + 1) (n - i - 1))) l)).
  { induction l as [|i l IH]; intros N; [constructor|]. inversion N; subst. cbn [flat_map]. apply NoDup_app; auto.
    - apply FinFun.Injective_map_NoDup; [|apply seq_NoDup]. intros u v E. congruence.
    - intros [u v] I J. apply in_map_iff in I. destruct I as [k [E _]]. apply in_flat_map in J. destruct J as [m [Hm J]]. apply in_map_iff in J.
      destruct J as [k' [E' _]]. congruence. }
  apply H, seq_NoDup.
Qed.

Lemma unordered_map_id n : map unordered (index_pairs n) = index_pairs n.
Proof.
  rewrite <- map_id. apply map_ext_in. intros [a b] I. apply in_index_pairs in I. unfold unordered. cbn [fst snd].
  rewrite Nat.min_l, Nat.max_r by lia. auto.
Qed.

Lemma once_from_perm n l : Permutation (map unordered l) (index_pairs n) -> each_pair_once n l.
Proof.
  intros Pm. assert (N : NoDup (map unordered l)) by (apply (Permutation_NoDup (Permutation_sym Pm)), index_pairs_nodup).
  assert (R : forall a b, In (a, b) l -> (Nat.min a b < Nat.max a b < n)%nat).
  { intros a b I. apply (in_map unordered) in I. apply (Permutation_in _ Pm) in I. apply in_index_pairs in I. exact I. }
  split; [apply NoDup_map_inv with (f := unordered); auto|]. split.
  - intros a b I. pose proof (R a b I) as Q. split; [lia|]. split; [lia|]. split; [intros ->; lia|]. intros J.
    assert (E : a = b \/ a <> b) by lia. destruct E as [->|E]; [lia|].
    destruct (in_split _ _ I) as [l1 [l2 ->]]. rewrite map_app in N. cbn [map] in N. apply NoDup_remove_2 in N. apply N.
    assert (U : unordered (a, b) = unordered (b, a)) by (unfold unordered; cbn [fst snd]; rewrite Nat.min_comm, Nat.max_comm; auto). rewrite U.
    rewrite <- map_app. apply in_map. apply in_app_or in J. apply in_or_app. destruct J as [J|[J|J]]; auto. congruence.
  - intros a b Ha Hb Nab. assert (I : In (unordered (a, b)) (map unordered l)).
    { apply (Permutation_in _ (Permutation_sym Pm)). unfold unordered. cbn [fst snd]. apply in_index_pairs. lia. }
    apply in_map_iff in I. destruct I as [[u v] [E I]]. unfold unordered in E. cbn [fst snd] in E. injection E as E1 E2.
    assert (Q : (u = a /\ v = b) \/ (u = b /\ v = a)) by lia. destruct Q as [[-> ->]|[-> ->]]; auto.
Qed.

Section Groups.
  Variables (tol disTol : R) (bs : list bore) (ns : list nat) (rs : list (list R)).
  Local Notation nB := (length bs).
  Local Notation b_ i := (nth i bs no_bore).
  Local Notation pairs := (pair_groups tol disTol bs ns rs).
  Local Notation selfs := (self_groups tol bs ns rs).

  Lemma pair_similar_norm cmp i j h y : pair_similar tol bs ns rs cmp i j h = Some y -> unordered y = unordered (i, j).
  Proof.
    unfold pair_similar. destruct h as [m n].
    match goal with |- (if ?x then _ else _) = _ -> _ => destruct x end; [intros E; injection E as <-; auto|].
    match goal with |- (if ?x then _ else _) = _ -> _ => destruct x end; [intros E; injection E as <-|discriminate].
    unfold unordered. cbn [fst snd]. rewrite Nat.min_comm, Nat.max_comm. auto.
  Qed.

  Lemma pair_fold l : forall s, let s' := fold_left (pair_step tol disTol bs ns rs) l s in
    Permutation (map unordered (concat (fst s') ++ concat (snd s'))) (rev (map unordered l) ++ map unordered (concat (fst s) ++ concat (snd s))).
  Proof.
    induction l as [|[i j] l IH]; intros s; cbn [fold_left map rev]; [reflexivity|]. cbv zeta in *. rewrite (IH (pair_step tol disTol bs ns rs s (i, j))).
    rewrite <- app_assoc. apply Permutation_app_head. cbn [app]. unfold pair_step. rewrite !map_app.
    destruct (vertical _ && vertical _); cbn [fst snd].
    - rewrite (add_group_perm unordered _ (i, j)) by (intros; eapply pair_similar_norm; eauto). reflexivity.
    - rewrite (add_group_perm unordered _ (i, j)) by (intros; eapply pair_similar_norm; eauto). symmetry. apply Permutation_middle.
  Qed.

  Lemma pairs_once : each_pair_once nB (concat (fst pairs) ++ concat (snd pairs)).
  Proof.
    apply once_from_perm. unfold pair_groups. destruct (Nat.ltb_spec 1 nB) as [L|L].
    - pose proof (pair_fold (index_pairs nB) ([], [])) as H. cbn [fst snd concat app map] in H. cbv zeta in H. rewrite app_nil_r in H.
      rewrite H. rewrite <- Permutation_rev. rewrite unordered_map_id. reflexivity.
    - cbn [fst snd concat app map]. destruct nB as [|[|?]]; [reflexivity|reflexivity|lia].
  Qed.

  Lemma self_similar_id i h y : self_similar tol bs ns rs i h = Some y -> y = i.
  Proof. unfold self_similar. destruct (_ && _); [intros E; injection E as <-; auto|discriminate]. Qed.

  Lemma self_fold l : forall s, let s' := fold_left (self_step tol bs ns rs) l s in
    Permutation (concat (fst s') ++ concat (snd s')) (rev l ++ concat (fst s) ++ concat (snd s)).
  Proof.
    induction l as [|i l IH]; intros s; cbn [fold_left rev]; [reflexivity|]. cbv zeta in *. rewrite (IH (self_step tol bs ns rs s i)).
    rewrite <- app_assoc. apply Permutation_app_head. cbn [app]. unfold self_step.
    assert (Q : forall gs, Permutation (concat (add_group (self_similar tol bs ns rs i) i gs)) (i :: concat gs)).
    { intros gs. pose proof (add_group_perm (fun x : nat => x) (self_similar tol bs ns rs i) i (fun h y E => self_similar_id i h y E) gs) as H.
      rewrite !map_id in H. exact H. }
    destruct (vertical _); cbn [fst snd].
    - rewrite Q. reflexivity.
    - rewrite Q. symmetry. apply Permutation_middle.
  Qed.

  Lemma selfs_once : (0 < nB)%nat -> each_once nB (concat (fst selfs) ++ concat (snd selfs)).
  Proof.
    intros L0. assert (Pm : Permutation (concat (fst selfs) ++ concat (snd selfs)) (seq 0 nB)).
    { unfold self_groups. destruct (Nat.ltb_spec 1 nB) as [L|L].
      - pose proof (self_fold (seq 0 nB) ([], [])) as H. cbn [fst snd concat app] in H. cbv zeta in H. rewrite app_nil_r in H.
        rewrite H. symmetry. apply Permutation_rev.
      - cbn [fst snd concat app]. destruct nB as [|[|?]]; [lia|reflexivity|lia]. }
    split; [apply (Permutation_NoDup (Permutation_sym Pm)), seq_NoDup|]. intros a. split.
    - intros I. apply (Permutation_in _ Pm) in I. apply in_seq in I. lia.
    - intros I. apply (Permutation_in _ (Permutation_sym Pm)), in_seq. lia.
  Qed.

  (** vertical and inclined boreholes are in their own groups *)
  Lemma self_kinds : (1 < nB)%nat -> (forall a, In a (concat (fst selfs)) -> vertical (b_ a) = true) /\ (forall a, In a (concat (snd selfs)) -> vertical (b_ a) = false).
  Proof.
    intros L. unfold self_groups. rewrite (proj2 (Nat.ltb_lt 1 nB) L).
    assert (Q : forall l s, (forall a, In a (concat (fst s)) -> vertical (b_ a) = true) /\ (forall a, In a (concat (snd s)) -> vertical (b_ a) = false) ->
      let s' := fold_left (self_step tol bs ns rs) l s in (forall a, In a (concat (fst s')) -> vertical (b_ a) = true) /\ (forall a, In a (concat (snd s')) -> vertical (b_ a) = false)).
    { induction l as [|i l IH]; intros s [H1 H2]; [split; auto|]. cbn [fold_left]. apply IH. unfold self_step.
      destruct (vertical (nth i bs (Bore 0 0 0 0 0 0 0))) eqn:V; cbn [fst snd]; split; auto; apply add_group_all; auto;
        intros h y E; apply self_similar_id in E; subst; auto. }
    apply Q. split; intros a [].
  Qed.

  Definition both_vertical (p : nat * nat) : bool := vertical (b_ (fst p)) && vertical (b_ (snd p)).
  Lemma pair_kinds : (forall p, In p (concat (fst pairs)) -> both_vertical p = true) /\ (forall p, In p (concat (snd pairs)) -> both_vertical p = false).
  Proof.
    unfold pair_groups. destruct (Nat.ltb 1 nB); [|split; intros a []].
    assert (Q : forall l s, (forall a, In a (concat (fst s)) -> both_vertical a = true) /\ (forall a, In a (concat (snd s)) -> both_vertical a = false) ->
      let s' := fold_left (pair_step tol disTol bs ns rs) l s in (forall a, In a (concat (fst s')) -> both_vertical a = true) /\ (forall a, In a (concat (snd s')) -> both_vertical a = false)).
    { induction l as [|[i j] l IH]; intros s [H1 H2]; [split; auto|]. cbn [fold_left]. apply IH. unfold pair_step.
      change (Bore 0 0 0 0 0 0 0) with no_bore.
      assert (U : forall cmp h y, pair_similar tol bs ns rs cmp i j h = Some y -> both_vertical y = both_vertical (i, j)).
      { intros cmp [m n] y. unfold pair_similar. match goal with |- (if ?x then _ else _) = _ -> _ => destruct x end; [intros E; injection E as <-; auto|].
        match goal with |- (if ?x then _ else _) = _ -> _ => destruct x end; [intros E; injection E as <-|discriminate]. unfold both_vertical. cbn [fst snd]. apply andb_comm. }
      destruct (vertical (b_ i) && vertical (b_ j)) eqn:V; cbn [fst snd]; split; auto; apply add_group_all; auto;
        intros h y E; apply U in E; rewrite E; auto. }
    apply Q. split; intros a [].
  Qed.

  (** members of a group *)
  Definition self_rel (h y : nat) : Prop := compare_boreholes tol (b_ y) (b_ h) = true /\ (equal_ratios ns rs = true \/ same_split tol ns rs y h = true).
  Definition pair_rel (cmp : pair -> pair -> bool) (h y : nat * nat) : Prop :=
    cmp (b_ (fst y), b_ (snd y)) (b_ (fst h), b_ (snd h)) = true /\
    (equal_ratios ns rs = true \/ same_split tol ns rs (fst y) (fst h) = true /\ same_split tol ns rs (snd y) (snd h) = true).

  Lemma self_grouped : Forall (grouped self_rel) (fst selfs) /\ Forall (grouped self_rel) (snd selfs).
  Proof.
    unfold self_groups. destruct (Nat.ltb 1 nB).
    - assert (Q : forall l s, Forall (grouped self_rel) (fst s) /\ Forall (grouped self_rel) (snd s) ->
        let s' := fold_left (self_step tol bs ns rs) l s in Forall (grouped self_rel) (fst s') /\ Forall (grouped self_rel) (snd s')).
      { induction l as [|i l IH]; intros s [H1 H2]; [split; auto|]. cbn [fold_left]. apply IH.
        assert (E : forall h y, self_similar tol bs ns rs i h = Some y -> self_rel h y).
        { intros h y. unfold self_similar. destruct (_ && _) eqn:E; [|discriminate]. intros Q; injection Q as <-. apply andb_true_iff in E. destruct E as [E1 E2].
          apply orb_true_iff in E2. split; auto. }
        unfold self_step. destruct (vertical _); cbn [fst snd]; split; auto; apply add_group_grouped; auto. }
      apply Q. split; constructor.
    - split; [|constructor]. constructor; [|constructor]. exists O, []. split; auto. intros y [].
  Qed.

  Lemma pair_grouped : Forall (grouped (pair_rel (compare_vertical tol))) (fst pairs) /\ Forall (grouped (pair_rel (compare_inclined tol disTol))) (snd pairs).
  Proof.
    unfold pair_groups. destruct (Nat.ltb 1 nB); [|split; constructor].
    set (P1 := Forall (grouped (pair_rel (compare_vertical tol)))). set (P2 := Forall (grouped (pair_rel (compare_inclined tol disTol)))).
    assert (Q : forall l s, P1 (fst s) /\ P2 (snd s) -> let s' := fold_left (pair_step tol disTol bs ns rs) l s in P1 (fst s') /\ P2 (snd s')).
    { induction l as [|[i j] l IH]; intros s [H1 H2]; [split; auto|]. cbn [fold_left]. apply IH.
      assert (E : forall cmp h y, pair_similar tol bs ns rs cmp i j h = Some y -> pair_rel cmp h y).
      { intros cmp [m n] y. unfold pair_similar. change (Bore 0 0 0 0 0 0 0) with no_bore.
        match goal with |- (if ?x then _ else _) = _ -> _ => destruct x eqn:E1 end.
        - intros Q; injection Q as <-. apply andb_true_iff in E1. rewrite orb_true_iff, andb_true_iff in E1. exact E1.
        - match goal with |- (if ?x then _ else _) = _ -> _ => destruct x eqn:E2 end; [|discriminate].
          intros Q; injection Q as <-. apply andb_true_iff in E2. rewrite orb_true_iff, andb_true_iff in E2. exact E2. }
      unfold pair_step. destruct (vertical _ && vertical _); cbn [fst snd]; split; auto; apply add_group_grouped; auto. }
    apply Q. split; constructor.
  Qed.
End Groups.
