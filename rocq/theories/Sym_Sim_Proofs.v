(** The similarities solver on a moved field. *)
From Verif Require Import Base LinAlg FLS_Model.
From Verif Require Import Bore_Model Solve_Model Detailed_Model Detailed_Spec Sim_Model.
Local Open Scope R_scope.

(** the members of the groups *)
Definition groups_in {A} (P : A -> Prop) (gs : list (list A)) : Prop := forall g, In g gs -> g <> [] /\ forall x, In x g -> P x.

Lemma add_group_in {A} (P : A -> Prop) (sim : A -> option A) x gs : groups_in P gs -> P x -> (forall h y, sim h = Some y -> P y) ->
  groups_in P (add_group sim x gs).
Proof.
  intros G Px S. induction gs as [|g gs IH]; cbn [add_group].
  - intros g [<-|[]]. split; [discriminate|]. intros y [<-|[]]. auto.
  - assert (G' : groups_in P gs) by (intros g' Hg; apply G; right; auto). specialize (IH G').
    assert (Gg : g <> [] /\ forall x, In x g -> P x) by (apply G; left; auto).
    destruct g as [|h g]. { destruct Gg as [E _]. congruence. }
    destruct (sim h) as [y|] eqn:E.
    + intros g' [<-|Hg]; [|apply G'; auto]. split; [discriminate|]. intros z Hz. apply in_app_iff in Hz as [Hz|[<-|[]]]; [apply Gg; auto|apply (S h); auto].
    + intros g' [<-|Hg]; auto.
Qed.

Lemma add_group_ext {A} (P : A -> Prop) (sim sim' : A -> option A) x gs : groups_in P gs -> (forall h, P h -> sim h = sim' h) ->
  add_group sim x gs = add_group sim' x gs.
Proof.
  intros G E. induction gs as [|g gs IH]; cbn [add_group]; auto. assert (G' : groups_in P gs) by (intros g' Hg; apply G; right; auto).
  destruct g as [|h g]. { rewrite IH; auto. } rewrite (E h) by (apply (G (h :: g)); left; auto). destruct (sim' h); auto. rewrite IH; auto.
Qed.

Lemma add_group_all {A} (sim sim' : A -> option A) x gs : (forall h, sim h = sim' h) -> add_group sim x gs = add_group sim' x gs.
Proof. intros E. induction gs as [|g gs IH]; cbn [add_group]; auto. destruct g as [|h g]. { rewrite IH; auto. } rewrite (E h). destruct (sim' h); auto. rewrite IH; auto. Qed.

Lemma index_pairs_in n i j : In (i, j) (index_pairs n) -> (i < j < n)%nat.
Proof.
  unfold index_pairs. intros H. apply in_flat_map in H as [i' [Hi Hj]]. apply in_seq in Hi. apply in_map_iff in Hj as [j' [E Hj]].
  apply in_seq in Hj. injection E as -> ->. lia.
Qed.

(** unique pairs of an image *)
Section Unique.
  Variables (A : Type) (f : A -> A) (cmp : A -> A -> bool) (ps : list A).
  Hypothesis E : forall x y, In x ps -> In y ps -> cmp (f x) (f y) = cmp x y.

  Lemma find_index_map p U : In p ps -> incl U ps -> find_index (cmp (f p)) (map f U) = find_index (cmp p) U.
  Proof.
    intros Hp. induction U as [|u U IH]; intros HU; cbn [map find_index]; auto. rewrite E; auto; [|apply HU; left; auto].
    rewrite IH; auto. intros x Hx. apply HU. right. auto.
  Qed.

  Lemma unique_pairs_map l U : incl l ps -> incl U ps ->
    unique_pairs cmp (map f l) (map f U) = (map f (fst (unique_pairs cmp l U)), snd (unique_pairs cmp l U)) /\ incl (fst (unique_pairs cmp l U)) ps.
  Proof.
    revert U. induction l as [|p l IH]; intros U Hl HU; cbn [map unique_pairs]. { split; auto. }
    assert (Hp : In p ps) by (apply Hl; left; auto). assert (Hl' : incl l ps) by (intros x Hx; apply Hl; right; auto).
    rewrite find_index_map by auto. destruct (find_index (cmp p) U) as [k|].
    - destruct (IH U Hl' HU) as [I1 I2]. rewrite I1. destruct (unique_pairs cmp l U) as [V ks]. cbn [fst snd] in *. split; auto.
    - assert (HU' : incl (U ++ [p]) ps) by (intros x Hx; apply in_app_iff in Hx as [Hx|[<-|[]]]; auto).
      destruct (IH (U ++ [p]) Hl' HU') as [I1 I2]. rewrite map_app in I1. cbn [map] in I1. rewrite I1. rewrite map_length. destruct (unique_pairs cmp l (U ++ [p])) as [V ks]. cbn [fst snd] in *. split; auto.
  Qed.
End Unique.

Lemma list_prod_map {A B} (f : A -> B) l1 l2 : list_prod (map f l1) (map f l2) = map (fun p => (f (fst p), f (snd p))) (list_prod l1 l2).
Proof. induction l1 as [|a l1 IH]; cbn [map list_prod]; auto. rewrite IH, map_app, !map_map. auto. Qed.

Section Image.
  Variables (mv : bore -> bore) (tol disTol : R) (bs : list bore) (ns : list nat) (rs : list (list R)).
  Variables (kv kv' : R -> pair -> R) (ki ki' : pair -> R).
  Local Notation nB := (length bs).
  Local Notation bs' := (map mv bs).
  Local Notation b_ i := (nth i bs (Bore 0 0 0 0 0 0 0)).
  Local Notation b'_ i := (nth i bs' (Bore 0 0 0 0 0 0 0)).
  Local Notation segs i := (segments (b_ i) (nth i ns 0%nat) (Some (nth i rs []))).
  Local Notation mp := (fun p : pair => (mv (fst p), mv (snd p))).
  Hypothesis NE : (0 < nB)%nat.
  Hypothesis MH : forall b, bH (mv b) = bH b.
  Hypothesis MD : forall b, bD (mv b) = bD b.
  Hypothesis Mr : forall b, br (mv b) = br b.
  Hypothesis Mt : forall b, btilt (mv b) = btilt b.
  Hypothesis MP : forall a b, planar (mv a) (mv b) = planar a b.
  Hypothesis MS : forall b n o, In b bs -> segments (mv b) n o = map mv (segments b n o).
  Hypothesis C1 : forall i j p1 p2, (i < nB)%nat -> (j < nB)%nat -> In p1 (list_prod (segs i) (segs j)) -> In p2 (list_prod (segs i) (segs j)) ->
    compare_inclined tol disTol (mp p1) (mp p2) = compare_inclined tol disTol p1 p2.
  Hypothesis C2 : forall i j m n, (i < nB)%nat -> (j < nB)%nat -> (m < nB)%nat -> (n < nB)%nat -> i <> j -> m <> n ->
    compare_inclined tol disTol (mv (b_ i), mv (b_ j)) (mv (b_ m), mv (b_ n)) = compare_inclined tol disTol (b_ i, b_ j) (b_ m, b_ n).
  Hypothesis KV : forall d p, kv' d (mp p) = kv d p.
  Hypothesis KV0 : forall d, kv' d (Bore 0 0 0 0 0 0 0, Bore 0 0 0 0 0 0 0) = kv d (Bore 0 0 0 0 0 0 0, Bore 0 0 0 0 0 0 0).
  Hypothesis KI : forall i j p, (i < nB)%nat -> (j < nB)%nat -> In p (list_prod (segs i) (segs j)) -> ki' (mp p) = ki p.

  Lemma image_nth i : (i < nB)%nat -> b'_ i = mv (b_ i).
  Proof. intros Hi. rewrite (nth_indep bs' _ (mv (Bore 0 0 0 0 0 0 0))) by (rewrite map_length; auto). apply map_nth. Qed.

  Lemma image_dims i : bH (b'_ i) = bH (b_ i) /\ bD (b'_ i) = bD (b_ i) /\ br (b'_ i) = br (b_ i) /\ btilt (b'_ i) = btilt (b_ i).
  Proof.
    destruct (Nat.lt_ge_cases i nB) as [Hi|Hi]. { rewrite image_nth by auto. rewrite MH, MD, Mr, Mt. auto. }
    rewrite !nth_overflow by (rewrite ?map_length; auto). auto.
  Qed.

  Lemma image_compare i m : compare_boreholes tol (b'_ i) (b'_ m) = compare_boreholes tol (b_ i) (b_ m).
  Proof.
    unfold compare_boreholes. destruct (image_dims i) as [E1 [E2 [E3 E4]]], (image_dims m) as [F1 [F2 [F3 F4]]]. rewrite E1, E2, E3, E4, F1, F2, F3, F4. auto.
  Qed.
  Lemma image_vertical i : vertical (b'_ i) = vertical (b_ i).
  Proof. unfold vertical. destruct (image_dims i) as [E1 [E2 [E3 E4]]]. rewrite E4. auto. Qed.
  Lemma compare_vertical_dims p1 p2 q1 q2 :
    bH (fst p1) = bH (fst q1) -> bH (snd p1) = bH (snd q1) -> bD (fst p1) = bD (fst q1) -> bD (snd p1) = bD (snd q1) ->
    bH (fst p2) = bH (fst q2) -> bH (snd p2) = bH (snd q2) -> bD (fst p2) = bD (fst q2) -> bD (snd p2) = bD (snd q2) ->
    compare_vertical tol p1 p2 = compare_vertical tol q1 q2.
  Proof. intros A1 A2 A3 A4 A5 A6 A7 A8. unfold compare_vertical, compare_real, compare_image, cond_H. rewrite A1, A2, A3, A4, A5, A6, A7, A8. auto. Qed.
  Lemma image_pairs_vertical i j m n : compare_vertical tol (b'_ i, b'_ j) (b'_ m, b'_ n) = compare_vertical tol (b_ i, b_ j) (b_ m, b_ n).
  Proof. apply compare_vertical_dims; cbn [fst snd]; apply image_dims. Qed.

  Lemma image_self_similar i m : self_similar tol bs' ns rs i m = self_similar tol bs ns rs i m.
  Proof. unfold self_similar. rewrite image_compare. auto. Qed.
  Lemma image_self_step s i : self_step tol bs' ns rs s i = self_step tol bs ns rs s i.
  Proof.
    unfold self_step. rewrite image_vertical. destruct (vertical (b_ i)); f_equal; apply add_group_all; intros h; apply image_self_similar.
  Qed.

  Definition below (i : nat) : Prop := (i < nB)%nat.
  Definition apart (ij : nat * nat) : Prop := (fst ij < nB)%nat /\ (snd ij < nB)%nat /\ fst ij <> snd ij.
  Definition state_in {A} (P : A -> Prop) (s : list (list A) * list (list A)) : Prop := groups_in P (fst s) /\ groups_in P (snd s).

  Lemma self_state l s : (forall i, In i l -> below i) -> state_in below s ->
    fold_left (self_step tol bs' ns rs) l s = fold_left (self_step tol bs ns rs) l s /\ state_in below (fold_left (self_step tol bs ns rs) l s).
  Proof.
    revert s. induction l as [|i l IH]; intros s Hl Hs; cbn [fold_left]; auto. rewrite image_self_step. apply IH. { intros k Hk. apply Hl. right. auto. }
    assert (Hi : below i) by (apply Hl; left; auto). destruct Hs as [S1 S2]. unfold self_step. destruct (vertical (b_ i)); split; cbn [fst snd]; auto; apply add_group_in; auto;
    intros h y; unfold self_similar; destruct (_ && _); [|discriminate|..|discriminate]; intros E; injection E as <-; auto.
  Qed.

  Lemma no_groups {A} (P : A -> Prop) : state_in P ([], []).
  Proof. split; intros g []. Qed.

  Lemma image_self_groups : self_groups tol bs' ns rs = self_groups tol bs ns rs /\ state_in below (self_groups tol bs ns rs).
  Proof.
    unfold self_groups. rewrite map_length. destruct (Nat.ltb 1 nB).
    - apply self_state; [|apply no_groups]. intros i Hi. apply in_seq in Hi. unfold below. lia.
    - split; auto. split; intros g; cbn [fst snd]; [|intros []]. intros [<-|[]]. split; [discriminate|]. intros x [<-|[]]. exact NE.
  Qed.

  Lemma image_pair_similar i j mn : apart (i, j) -> apart mn ->
    pair_similar tol bs' ns rs (compare_inclined tol disTol) i j mn = pair_similar tol bs ns rs (compare_inclined tol disTol) i j mn.
  Proof.
    intros [Hi [Hj Hij]] [Hm [Hn Hmn]]. destruct mn as [m n]. cbn [fst snd] in *. unfold pair_similar. rewrite !image_nth by auto. rewrite !C2; auto.
  Qed.
  Lemma pair_similar_apart cmp i j mn y : apart (i, j) -> pair_similar tol bs ns rs cmp i j mn = Some y -> apart y.
  Proof.
    intros [Hi [Hj Hij]]. cbn [fst snd] in *. unfold pair_similar. destruct mn as [m n]. destruct (_ && _); [|destruct (_ && _); [|discriminate]]; intros E; injection E as <-; repeat split; cbn [fst snd]; auto.
  Qed.

  Lemma pair_state l s : (forall ij, In ij l -> apart ij) -> state_in apart s ->
    fold_left (pair_step tol disTol bs' ns rs) l s = fold_left (pair_step tol disTol bs ns rs) l s /\ state_in apart (fold_left (pair_step tol disTol bs ns rs) l s).
  Proof.
    revert s. induction l as [|[i j] l IH]; intros s Hl Hs; cbn [fold_left]; auto. assert (Hi : apart (i, j)) by (apply Hl; left; auto). destruct Hs as [S1 S2].
    replace (pair_step tol disTol bs' ns rs s (i, j)) with (pair_step tol disTol bs ns rs s (i, j)).
    - apply IH. { intros k Hk. apply Hl. right. auto. } unfold pair_step. destruct (_ && _); split; cbn [fst snd]; auto; apply add_group_in; auto; intros h y; apply pair_similar_apart; auto.
    - unfold pair_step. rewrite !image_vertical. destruct (_ && _); f_equal; symmetry.
      + apply add_group_all. intros [m n]. unfold pair_similar. rewrite !image_pairs_vertical. auto.
      + apply (add_group_ext apart); auto. intros h Hh. apply image_pair_similar; auto.
  Qed.

  Lemma image_pair_groups : pair_groups tol disTol bs' ns rs = pair_groups tol disTol bs ns rs /\ state_in apart (pair_groups tol disTol bs ns rs).
  Proof.
    unfold pair_groups. rewrite map_length. destruct (Nat.ltb 1 nB); [|split; auto; apply no_groups].
    apply pair_state; [|apply no_groups]. intros [i j] Hi. apply index_pairs_in in Hi. unfold apart. cbn [fst snd]. lia.
  Qed.

  Lemma image_map_pairs cmp i j : (i < nB)%nat -> (j < nB)%nat ->
    (forall p1 p2, In p1 (list_prod (segs i) (segs j)) -> In p2 (list_prod (segs i) (segs j)) -> cmp (mp p1) (mp p2) = cmp p1 p2) ->
    map_pairs bs' ns rs cmp i j = (map mp (fst (map_pairs bs ns rs cmp i j)), snd (map_pairs bs ns rs cmp i j)) /\
    incl (fst (map_pairs bs ns rs cmp i j)) (list_prod (segs i) (segs j)).
  Proof.
    intros Hi Hj E. unfold map_pairs. rewrite !image_nth by auto. rewrite !MS by (apply nth_In; auto). rewrite list_prod_map.
    change (@nil pair) with (map mp []) at 1. apply (unique_pairs_map _ mp cmp (list_prod (segs i) (segs j))); auto.
    - apply incl_refl.
    - intros x [].
  Qed.

  Lemma mp_vertical p1 p2 : compare_vertical tol (mp p1) (mp p2) = compare_vertical tol p1 p2.
  Proof. apply compare_vertical_dims; cbn [fst snd]; rewrite ?MH, ?MD; auto. Qed.

  (** what is gathered for the groups *)
  Definition image_data (s' s : self_data) : Prop :=
    s_dp s' = map (fun c => (fst c, mp (snd c))) (s_dp s) /\ s_i s' = s_i s /\ s_j s' = s_j s /\ s_k s' = s_k s /\ s_k0 s' = s_k0 s /\
    forall c, In c (s_dp s) -> exists i j, (i < nB)%nat /\ (j < nB)%nat /\ In (snd c) (list_prod (segs i) (segs j)).

  Lemma hd_in {A} (P : A -> Prop) (d : A) gs g : groups_in P gs -> In g gs -> P (hd d g).
  Proof. intros G Hg. destruct (G g Hg) as [N M]. destruct g as [|x g]; [congruence|]. apply M. left. auto. Qed.

  Lemma image_i_segments i j pairs : i_segments bs' ns i j pairs = i_segments bs ns i j pairs.
  Proof. unfold i_segments. rewrite map_length. auto. Qed.
  Lemma image_j_segments i j pairs : j_segments bs' ns i j pairs = j_segments bs ns i j pairs.
  Proof. unfold j_segments. rewrite map_length. auto. Qed.

  Lemma image_self_vertical_step s' s g gs : image_data s' s -> groups_in below gs -> In g gs ->
    image_data (self_vertical_step tol bs' ns rs s' g) (self_vertical_step tol bs ns rs s g).
  Proof.
    intros [D1 [D2 [D3 [D4 [D5 D6]]]]] G Hg. assert (Hi : (hd 0%nat g < nB)%nat) by (apply (hd_in below 0%nat gs); auto).
    unfold self_vertical_step. set (i := hd 0%nat g) in *. destruct (image_map_pairs (compare_vertical tol) i i Hi Hi) as [M1 M2]. { intros p1 p2 _ _. apply mp_vertical. }
    rewrite M1. destruct (map_pairs bs ns rs (compare_vertical tol) i i) as [U k]. cbn [fst snd] in *.
    rewrite D1, D2, D3, D4, D5, image_i_segments, image_j_segments, image_nth by auto. rewrite Mr. unfold image_data. cbn [s_dp s_i s_j s_k s_k0]. repeat split.
    - rewrite map_app. f_equal. rewrite !map_map. auto.
    - intros c Hc. apply in_app_iff in Hc as [Hc|Hc]; auto. apply in_map_iff in Hc as [p [<- Hp]]. exists i, i. cbn [snd]. auto.
  Qed.

  Lemma image_self_vertical : image_data (self_vertical tol bs' ns rs) (self_vertical tol bs ns rs).
  Proof.
    unfold self_vertical. destruct image_self_groups as [E [G _]]. rewrite E.
    assert (F : forall l s' s, (forall g, In g l -> In g (fst (self_groups tol bs ns rs))) -> image_data s' s ->
      image_data (fold_left (self_vertical_step tol bs' ns rs) l s') (fold_left (self_vertical_step tol bs ns rs) l s)).
    { intros l. induction l as [|g l IH]; intros s' s Hl Hs; cbn [fold_left]; auto. apply IH. { intros g' Hg. apply Hl. right. auto. }
      apply (image_self_vertical_step s' s g (fst (self_groups tol bs ns rs))); auto. apply Hl. left. auto. }
    apply F; auto. repeat split; cbn [s_dp]; auto. intros c [].
  Qed.

  Definition inside (ij : nat * nat) : Prop := (fst ij < nB)%nat /\ (snd ij < nB)%nat.
  Lemma image_inclined_step s' s g gs : image_data s' s -> groups_in inside gs -> In g gs ->
    image_data (inclined_step tol disTol bs' ns rs s' g) (inclined_step tol disTol bs ns rs s g).
  Proof.
    intros [D1 [D2 [D3 [D4 [D5 D6]]]]] G Hg. pose proof (hd_in inside (0%nat, 0%nat) gs g G Hg) as [Hi Hj].
    unfold inclined_step. destruct (hd (0%nat, 0%nat) g) as [i j]. cbn [fst snd] in Hi, Hj.
    destruct (image_map_pairs (compare_inclined tol disTol) i j Hi Hj) as [M1 M2]. { intros p1 p2 H1 H2. apply (C1 i j); auto. }
    rewrite M1. destruct (map_pairs bs ns rs (compare_inclined tol disTol) i j) as [U k]. cbn [fst snd] in *.
    rewrite D1, D2, D3, D4, D5, image_i_segments, image_j_segments. unfold image_data. cbn [s_dp s_i s_j s_k s_k0]. repeat split.
    - rewrite map_app. f_equal. rewrite !map_map. auto.
    - intros c Hc. apply in_app_iff in Hc as [Hc|Hc]; auto. apply in_map_iff in Hc as [p [<- Hp]]. exists i, j. cbn [snd]. auto.
  Qed.

  Lemma image_inclined l : groups_in inside l ->
    image_data (fold_left (inclined_step tol disTol bs' ns rs) l (mkself [] [] [] [] 0)) (fold_left (inclined_step tol disTol bs ns rs) l (mkself [] [] [] [] 0)).
  Proof.
    intros G. assert (F : forall l' s' s, (forall g, In g l' -> In g l) -> image_data s' s ->
      image_data (fold_left (inclined_step tol disTol bs' ns rs) l' s') (fold_left (inclined_step tol disTol bs ns rs) l' s)).
    { intros l'. induction l' as [|g l' IH]; intros s' s Hl Hs; cbn [fold_left]; auto. apply IH. { intros g' Hg. apply Hl. right. auto. }
      apply (image_inclined_step s' s g l); auto. apply Hl. left. auto. }
    apply F; auto. repeat split; cbn [s_dp]; auto. intros c [].
  Qed.

  Lemma image_self_inclined : image_data (self_inclined tol disTol bs' ns rs) (self_inclined tol disTol bs ns rs).
  Proof.
    unfold self_inclined. destruct image_self_groups as [E [_ G]]. rewrite E. apply image_inclined. intros g Hg. apply in_map_iff in Hg as [g' [<- Hg]].
    destruct (G g' Hg) as [N M]. split. { destruct g'; [congruence|discriminate]. } intros x Hx. apply in_map_iff in Hx as [n [<- Hn]]. split; cbn [fst snd]; apply M; auto.
  Qed.
  Lemma image_pair_inclined : image_data (pair_inclined tol disTol bs' ns rs) (pair_inclined tol disTol bs ns rs).
  Proof.
    unfold pair_inclined. destruct image_pair_groups as [E [_ G]]. rewrite E. apply image_inclined. intros g Hg. destruct (G g Hg) as [N M]. split; auto.
    intros x Hx. destruct (M x Hx) as [H1 [H2 _]]. split; auto.
  Qed.

  Lemma map_ext_dp (f f' : R * pair -> R) s' s : image_data s' s -> (forall c, In c (s_dp s) -> f' (fst c, mp (snd c)) = f c) -> map f' (s_dp s') = map f (s_dp s).
  Proof. intros [D1 _] E. rewrite D1, map_map. apply map_ext_in. auto. Qed.

  Lemma image_pair_vertical_step o g gs : groups_in apart gs -> In g gs ->
    pair_vertical_step tol disTol bs' ns rs kv' o g = pair_vertical_step tol disTol bs ns rs kv o g.
  Proof.
    intros G Hg. unfold pair_vertical_step. destruct o as [M|]; auto. pose proof (hd_in apart (0%nat, 0%nat) gs g G Hg) as [Hi [Hj _]].
    destruct (G g Hg) as [_ Gg]. destruct (hd (0%nat, 0%nat) g) as [i j]. cbn [fst snd] in Hi, Hj.
    replace (map (fun p => Rmax (planar (b'_ (fst p)) (b'_ (snd p))) (br (b'_ (fst p)))) g) with (map (fun p => Rmax (planar (b_ (fst p)) (b_ (snd p))) (br (b_ (fst p)))) g).
    2: { apply map_ext_in. intros p Hp. destruct (Gg p Hp) as [P1 [P2 _]]. rewrite !image_nth by auto. rewrite MP, Mr. auto. }
    destruct (find_distances _ _ _) as [[ds is]|]; auto. destruct (image_map_pairs (compare_vertical tol) i j Hi Hj) as [M1 M2]. { intros p1 p2 _ _. apply mp_vertical. }
    rewrite M1. destruct (map_pairs bs ns rs (compare_vertical tol) i j) as [U k]. cbn [fst snd] in *. rewrite image_i_segments, image_j_segments, image_compare.
    set (no := (Bore 0 0 0 0 0 0 0, Bore 0 0 0 0 0 0 0)).
    assert (EU : forall d q, kv' d (nth q (map mp U) no) = kv d (nth q U no) /\ bH (fst (nth q (map mp U) no)) = bH (fst (nth q U no)) /\ bH (snd (nth q (map mp U) no)) = bH (snd (nth q U no))).
    { intros d q. destruct (Nat.lt_ge_cases q (length U)) as [Hq|Hq].
      - assert (EN : nth q (map mp U) no = mp (nth q U no)).
        { transitivity (nth q (map mp U) (mp no)). - apply nth_indep. rewrite map_length. auto. - exact (map_nth mp U no q). }
        rewrite EN. cbn [fst snd]. rewrite !MH. auto.
      - rewrite !nth_overflow by (rewrite ?map_length; auto). auto. }
    f_equal. f_equal.
    - f_equal. apply map_ext. intros c. apply EU.
    - apply map_ext. intros c. cbv beta zeta. destruct (EU (nth (fst c) ds 0) (snd c)) as [E1 [E2 E3]]. destruct (_ && _). { exact E1. }
      exact (f_equal2 Rdiv (f_equal2 Rmult E1 E3) E2).
  Qed.

  Lemma image_matrix : sim_matrix tol disTol bs' ns rs kv' ki' = sim_matrix tol disTol bs ns rs kv ki.
  Proof.
    unfold sim_matrix. cbv zeta.
    rewrite (map_ext_dp (fun c => kv (fst c) (snd c)) (fun c => kv' (fst c) (snd c)) _ _ image_self_vertical) by (intros c _; cbn [fst snd]; apply KV).
    rewrite (map_ext_dp (fun c => ki (snd c)) (fun c => ki' (snd c)) _ _ image_self_inclined) by (intros c Hc; cbn [fst snd]; destruct (proj2 (proj2 (proj2 (proj2 (proj2 image_self_inclined)))) c Hc) as [i [j [Hi [Hj Hp]]]]; apply (KI i j); auto).
    rewrite (map_ext_dp (fun c => ki (snd c)) (fun c => ki' (snd c)) _ _ image_pair_inclined) by (intros c Hc; cbn [fst snd]; destruct (proj2 (proj2 (proj2 (proj2 (proj2 image_pair_inclined)))) c Hc) as [i [j [Hi [Hj Hp]]]]; apply (KI i j); auto).
    rewrite (map_ext_dp (fun c => ki (snd c) * bH (snd (snd c)) / bH (fst (snd c))) (fun c => ki' (snd c) * bH (snd (snd c)) / bH (fst (snd c))) _ _ image_pair_inclined)
      by (intros c Hc; cbn [fst snd]; rewrite !MH; destruct (proj2 (proj2 (proj2 (proj2 (proj2 image_pair_inclined)))) c Hc) as [i [j [Hi [Hj Hp]]]]; rewrite (KI i j); auto).
    destruct image_self_vertical as [_ [V1 [V2 [V3 _]]]], image_self_inclined as [_ [I1 [I2 [I3 _]]]], image_pair_inclined as [_ [P1 [P2 [P3 _]]]].
    rewrite V1, V2, V3, I1, I2, I3, P1, P2, P3. destruct (gather _ (s_k (self_vertical _ _ _ _))) as [hv|]; auto. destruct (gather _ (s_k (self_inclined _ _ _ _ _))) as [hi|]; auto.
    destruct image_pair_groups as [E [G _]]. rewrite E.
    assert (F : forall l o, (forall g, In g l -> In g (fst (pair_groups tol disTol bs ns rs))) ->
      fold_left (pair_vertical_step tol disTol bs' ns rs kv') l o = fold_left (pair_vertical_step tol disTol bs ns rs kv) l o).
    { intros l. induction l as [|g l IH]; intros o Hl; cbn [fold_left]; auto. rewrite (image_pair_vertical_step o g (fst (pair_groups tol disTol bs ns rs))); auto.
      - apply IH. intros g' Hg. apply Hl. right. auto. - apply Hl. left. auto. }
    rewrite F by auto. auto.
  Qed.
End Image.
