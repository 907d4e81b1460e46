(** The solver of equivalent boreholes on a moved field. *)
From Verif Require Import Base LinAlg FLS_Model.
From Verif Require Import Bore_Model Solve_Model Detailed_Model Sim_Model Eq_Model GFun_Model Sym_Spec Sym_Geo_Proofs Sym_Sim_Proofs.
Local Open Scope R_scope.
Local Notation no_eb := (EBore 0 0 0 [] [] 0 []).

(** equivalent boreholes of the same dimensions, numbers and distances *)
Definition same_shape (e e' : ebore) : Prop :=
  eH e = eH e' /\ eD e = eD e' /\ er e = er e' /\ etilt e = etilt e' /\ length (ex e) = length (ex e') /\ length (eori e) = length (eori e').

Lemma shape_segments e e' n o : same_shape e e' -> Forall2 same_shape (eb_segments e n o) (eb_segments e' n o).
Proof.
  intros [H1 [H2 [H3 [H4 [H5 H6]]]]]. unfold eb_segments, eb_edges. rewrite H1.
  generalize (combine (removelast (map (fun z => z * eH e') (0 :: cumsum (default_ratios n o)))) (default_ratios n o)). intros l. induction l as [|[z q] l IH]; cbn [map]; constructor; auto.
  unfold same_shape. cbn [eH eD er etilt ex eori]. rewrite H2, H3, H4, !map_length, !combine_length, H5, H6. auto 10.
Qed.
Lemma shape_dims l l' : Forall2 same_shape l l' -> map dims l = map dims l'.
Proof. induction 1 as [|e e' l l' [H1 [H2 [H3 _]]] F IH]; cbn [map]; auto. rewrite IH. unfold dims. rewrite H1, H2, H3. auto. Qed.
Lemma shape_nth l l' i : Forall2 same_shape l l' -> same_shape (nth i l no_eb) (nth i l' no_eb).
Proof.
  intros F. revert i. induction F as [|e e' l l' H F IH]; intros i; destruct i; cbn [nth]; auto; unfold same_shape; auto 10.
Qed.

Section Shape.
  Variables (tol : R) (E E' : list ebore) (n : nat) (r : list R) (dis : list R).
  Hypothesis Sh : Forall2 same_shape E E'.
  Hypothesis Ds : forall i j, (i < length E)%nat -> (j < length E)%nat -> eb_distance (nth i E no_eb) (nth j E no_eb) = eb_distance (nth i E' no_eb) (nth j E' no_eb).

  Lemma shape_length : length E = length E'. Proof. clear Ds. induction Sh as [|e e1 l l1 H F IH]; cbn [length]; auto. Qed.
  Lemma shape_out i j : (length E <= i)%nat \/ (length E <= j)%nat -> pair_distances E i j = pair_distances E' i j.
  Proof.
    intros K. pose proof shape_length as L. unfold pair_distances, eb_distance.
    destruct (Nat.lt_ge_cases j (length E)) as [Hj|Hj].
    - destruct K as [K|K]; [|lia]. rewrite !(nth_overflow E) with (n := i) by auto. rewrite !(nth_overflow E') with (n := i) by lia.
      cbn [ex ey combine map]. assert (i <> j) by lia. rewrite (proj2 (Nat.eqb_neq i j)) by auto.
      assert (Z : forall (A : Type) (l : list A), concat (map (fun _ => @nil R) l) = []) by (intros A l; induction l; cbn; auto).
      assert (Z' : forall (l : list (R * R)), concat (map (fun p : R * R => let '(_, _) := p in @nil R) l) = []) by (intros l; induction l as [|[? ?] l IH]; cbn; auto).
      rewrite !Z'. auto.
    - rewrite (nth_overflow E) with (n := j) by auto. rewrite (nth_overflow E') with (n := j) by lia. cbn [ex ey combine map length seq]. auto.
  Qed.
  Lemma shape_distances i j : pair_distances E i j = pair_distances E' i j.
  Proof.
    destruct (Nat.lt_ge_cases i (length E)) as [Hi|Hi]; [destruct (Nat.lt_ge_cases j (length E)) as [Hj|Hj]|]; [|apply shape_out; auto|apply shape_out; auto].
    unfold pair_distances. rewrite Ds by auto. auto.
  Qed.

  Lemma shape_map_pairs i j : eq_map_pairs tol E n r i j = eq_map_pairs tol E' n r i j.
  Proof.
    unfold eq_map_pairs. rewrite (shape_dims _ _ (shape_segments _ _ n (Some r) (shape_nth _ _ i Sh))), (shape_dims _ _ (shape_segments _ _ n (Some r) (shape_nth _ _ j Sh))). auto.
  Qed.

  Lemma shape_eq_lengths : eq_lengths E n r = eq_lengths E' n r.
  Proof.
    unfold eq_lengths. replace (flat_map (fun e => map (fun s => eH s * INR (count s)) (eb_segments e n (Some r))) E') with
      (flat_map (fun e => map (fun s => eH s * INR (count s)) (eb_segments e n (Some r))) E); auto.
    clear Ds. induction Sh as [|e e' l l' H F IH]; cbn [flat_map]; auto. rewrite IH by auto. f_equal. pose proof (shape_segments _ _ n (Some r) H) as G.
    induction G as [|a a' k k' [H1 [H2 [H3 [H4 [H5 H6]]]]] G IG]; cbn [map]; auto. rewrite IG. unfold count. rewrite H1, H5. auto.
  Qed.

  Lemma shape_Hi : flat_map (fun e => map eH (eb_segments e n (Some r))) E = flat_map (fun e => map eH (eb_segments e n (Some r))) E'.
  Proof.
    clear Ds. induction Sh as [|e e' l l' H F IH]; cbn [flat_map]; auto. rewrite IH by auto. f_equal. pose proof (shape_segments _ _ n (Some r) H) as G.
    induction G as [|a a' k k' [H1 _] G IG]; cbn [map]; auto. rewrite IG, H1. auto.
  Qed.

  Lemma shape_counts : map (fun e => INR (count e)) E = map (fun e => INR (count e)) E'.
  Proof. clear Ds. induction Sh as [|e e' l l' [H1 [H2 [H3 [H4 [H5 H6]]]]] F IH]; cbn [map]; auto. rewrite IH by auto. unfold count. rewrite H5. auto. Qed.
  Lemma shape_total : map (fun e => eH e * INR (count e)) E = map (fun e => eH e * INR (count e)) E'.
  Proof. clear Ds. induction Sh as [|e e' l l' [H1 [H2 [H3 [H4 [H5 H6]]]]] F IH]; cbn [map]; auto. rewrite IH by auto. unfold count. rewrite H1, H5. auto. Qed.

  Variables (ke : list (R * R) -> pair -> R -> R) (kv : R -> pair -> R).

  Lemma shape_pair_block U k o ij : pair_block E n r dis ke U k o ij = pair_block E' n r dis ke U k o ij.
  Proof.
    unfold pair_block. destruct ij as [i j]. destruct o as [M|]; auto. rewrite shape_distances. destruct (weights dis _) as [w|]; auto.
    unfold place. rewrite shape_length, shape_eq_lengths. unfold count. pose proof (shape_nth _ _ j Sh) as [_ [_ [_ [_ [L _]]]]]. rewrite L. auto.
  Qed.

  Lemma fold_ext {A B} (f g : A -> B -> A) l a : (forall a b, f a b = g a b) -> fold_left f l a = fold_left g l a.
  Proof. intros H. revert a. induction l as [|x l IH]; intros a; cbn [fold_left]; auto. rewrite H. auto. Qed.

  Lemma shape_matrix : eq_matrix tol E n r dis ke kv = eq_matrix tol E' n r dis ke kv.
  Proof.
    unfold eq_matrix.
    assert (G1 : eq_self_groups tol E = eq_self_groups tol E').
    { unfold eq_self_groups. rewrite shape_length, (shape_dims _ _ Sh). auto. }
    assert (G2 : eq_pair_groups tol E = eq_pair_groups tol E').
    { unfold eq_pair_groups, eq_index_pairs. rewrite shape_length. destruct (Nat.ltb 1 (length E')); auto. apply fold_ext. intros gs [i j]. cbn [fst snd].
      apply add_group_all. intros [k l]. unfold eq_pair_similar. cbn [fst snd].
      assert (D : forall k, dims (nth k E no_eb) = dims (nth k E' no_eb)). { intros k0. pose proof (shape_nth _ _ k0 Sh) as [H1 [H2 [H3 _]]]. unfold dims. rewrite H1, H2, H3. auto. }
      rewrite !D. auto. }
    rewrite G1, G2.
    rewrite (fold_ext (pair_group tol E n r dis ke) (pair_group tol E' n r dis ke)).
    2: { intros o pairs. unfold pair_group. destruct (hd (O, O) pairs) as [i j]. rewrite shape_map_pairs. destruct (eq_map_pairs tol E' n r i j) as [U k].
         apply fold_ext. intros a b. apply shape_pair_block. }
    destruct (fold_left _ _ _) as [M|]; auto. f_equal. apply fold_ext. intros N group. unfold self_group. rewrite shape_map_pairs.
    destruct (eq_map_pairs tol E' n r _ _) as [U k]. pose proof (shape_nth _ _ (hd O group) Sh) as [_ [_ [H3 _]]]. rewrite H3. apply fold_ext. intros a b. unfold self_block, place. rewrite shape_length. auto.
  Qed.
End Shape.

Section Motion.
  Variable m : motion.
  Local Notation mv := (moved m).

  Lemma eb_distance_of l1 l2 e1 e2 : eb_of_bores l1 = Some e1 -> eb_of_bores l2 = Some e2 ->
    eb_distance e1 e2 = map (fun t => map (fun s => Rmax (planar t s) (er e1)) l1) l2.
  Proof.
    intros E1 E2. unfold eb_of_bores in E1, E2. destruct l1 as [|b1 l1]; [discriminate|]. destruct l2 as [|b2 l2]; [discriminate|].
    injection E1 as <-. injection E2 as <-. unfold eb_distance. cbn [ex ey er].
    change (bx b1 :: map bx l1) with (map bx (b1 :: l1)). change (by_ b1 :: map by_ l1) with (map by_ (b1 :: l1)). change (bx b2 :: map bx l2) with (map bx (b2 :: l2)). change (by_ b2 :: map by_ l2) with (map by_ (b2 :: l2)).
    assert (C : forall l, combine (map bx l) (map by_ l) = map (fun b => (bx b, by_ b)) l) by (intros l; induction l as [|b l IH]; cbn [map combine]; auto; rewrite IH; auto).
    rewrite !C, map_map. apply map_ext. intros t. rewrite map_map. apply map_ext. intros s. reflexivity.
  Qed.

  Lemma eb_moved l : match eb_of_bores l, eb_of_bores (map mv l) with
    | Some e, Some e' => same_shape e e'
    | None, None => True
    | _, _ => False
    end.
  Proof. destruct l as [|b l]; cbn [eb_of_bores map]; auto. unfold same_shape. cbn [eH eD er etilt ex eori length]. rewrite !map_length. auto 10. Qed.

  Lemma mv_steady_data bs : steady_data (map mv bs) = steady_data bs.
  Proof.
    unfold steady_data. rewrite map_map. apply map_ext. intros r. rewrite map_map. f_equal. apply map_ext. intros e. rewrite mv_planar. auto.
  Qed.

  Lemma mv_nth_dims bs i : let b := nth i (map mv bs) (Bore 0 0 0 0 0 0 0) in let a := nth i bs (Bore 0 0 0 0 0 0 0) in bH b = bH a /\ bD b = bD a /\ br b = br a.
  Proof.
    cbv zeta. destruct (Nat.lt_ge_cases i (length bs)) as [Hi|Hi].
    - rewrite (nth_indep (map mv bs) _ (mv (Bore 0 0 0 0 0 0 0))) by (rewrite map_length; auto). rewrite map_nth. auto.
    - rewrite !nth_overflow by (rewrite ?map_length; auto). auto.
  Qed.

  Lemma mv_unique tol bs : unique_boreholes tol (map mv bs) = unique_boreholes tol bs.
  Proof.
    unfold unique_boreholes. rewrite map_length. apply fold_ext. intros gs i. apply add_group_all. intros k. unfold eq_compare.
    destruct (mv_nth_dims bs i) as [A1 [A2 A3]], (mv_nth_dims bs k) as [B1 [B2 B3]]. rewrite A1, A2, A3, B1, B2, B3. auto.
  Qed.

  Lemma mv_clusters link k tol bs : clusters link k tol (map mv bs) = clusters link k tol bs.
  Proof. unfold clusters. rewrite map_length, mv_unique, mv_steady_data. auto. Qed.

  Lemma mv_members bs labels i : members (map mv bs) labels i = map mv (members bs labels i).
  Proof.
    unfold members. revert labels. induction bs as [|b bs IH]; intros [|x labels]; cbn [map combine filter snd]; auto.
    destruct (Nat.eqb x i); cbn [map fst]; rewrite IH; auto.
  Qed.

  (** the equivalent boreholes *)
  Lemma some_shapes (L : list (list bore)) : match all_some (map eb_of_bores L), all_some (map eb_of_bores (map (map mv) L)) with
    | Some E, Some E' => Forall2 same_shape E E' /\ (forall i j, (i < length E)%nat -> (j < length E)%nat -> eb_distance (nth i E no_eb) (nth j E no_eb) = eb_distance (nth i E' no_eb) (nth j E' no_eb))
    | None, None => True
    | _, _ => False
    end.
  Proof.
    assert (F : forall L, match all_some (map eb_of_bores L), all_some (map eb_of_bores (map (map mv) L)) with
      | Some E, Some E' => Forall2 same_shape E E' /\ length E = length L /\
          forall i, (i < length E)%nat -> eb_of_bores (nth i L []) = Some (nth i E no_eb) /\ eb_of_bores (map mv (nth i L [])) = Some (nth i E' no_eb)
      | None, None => True
      | _, _ => False
      end).
    { clear L. intros L. induction L as [|l L IH]; cbn [map all_some]. { repeat split; auto; cbn [length] in *; lia. }
      pose proof (eb_moved l) as K. destruct (eb_of_bores l) as [e|] eqn:E1, (eb_of_bores (map mv l)) as [e'|] eqn:E2; try contradiction; auto.
      destruct (all_some (map eb_of_bores L)) as [E|], (all_some (map eb_of_bores (map (map mv) L))) as [E'|]; cbn [option_map]; auto.
      destruct IH as [I1 [I2 I3]]. split; [constructor; auto|]. split; [cbn [length]; auto|]. intros i Hi. destruct i as [|i]; cbn [nth length] in *; auto. apply I3. lia. }
    specialize (F L). destruct (all_some (map eb_of_bores L)) as [E|], (all_some (map eb_of_bores (map (map mv) L))) as [E'|]; auto.
    destruct F as [F1 [F2 F3]]. split; auto. intros i j Hi Hj. destruct (F3 i Hi) as [A1 A2], (F3 j Hj) as [B1 B2].
    rewrite (eb_distance_of _ _ _ _ A1 B1), (eb_distance_of _ _ _ _ A2 B2). rewrite map_map. apply map_ext. intros t. rewrite map_map. apply map_ext. intros s.
    rewrite mv_planar. pose proof (shape_nth _ _ i F1) as [_ [_ [H3 _]]]. rewrite H3. auto.
  Qed.

  Lemma mv_equivalent_boreholes link k tol bs :
    match equivalent_boreholes link k tol bs, equivalent_boreholes link k tol (map mv bs) with
    | Some E, Some E' => Forall2 same_shape E E' /\ (forall i j, (i < length E)%nat -> (j < length E)%nat -> eb_distance (nth i E no_eb) (nth j E no_eb) = eb_distance (nth i E' no_eb) (nth j E' no_eb))
    | None, None => True
    | _, _ => False
    end.
  Proof.
    unfold equivalent_boreholes. rewrite mv_clusters. destruct (clusters link k tol bs) as [labels nEq].
    pose proof (some_shapes (map (members bs labels) (seq 0 nEq))) as K. rewrite !map_map in K.
    rewrite (map_ext (fun i => eb_of_bores (members (map mv bs) labels i)) (fun i => eb_of_bores (map mv (members bs labels i)))) by (intros i; rewrite mv_members; auto). exact K.
  Qed.

  Lemma mv_field_distances disTol bs : field_distances disTol (map mv bs) = field_distances disTol bs.
  Proof.
    unfold field_distances. rewrite map_length. pose proof (eb_moved bs) as K. destruct (eb_of_bores bs) as [e|] eqn:E1, (eb_of_bores (map mv bs)) as [e'|] eqn:E2; try contradiction; auto.
    unfold unique_distance. rewrite (eb_distance_of _ _ _ _ E1 E1), (eb_distance_of _ _ _ _ E2 E2). destruct K as [_ [_ [K _]]]. rewrite <- K.
    replace (map (fun t => map (fun s => Rmax (planar t s) (er e)) (map mv bs)) (map mv bs)) with (map (fun t => map (fun s => Rmax (planar t s) (er e)) bs) bs); auto.
    rewrite map_map. apply map_ext. intros t. rewrite map_map. apply map_ext. intros s. rewrite mv_planar. auto.
  Qed.

  Lemma mv_equivalent link k tol disTol alpha bs n r :
    match equivalent link k tol disTol alpha bs n r, equivalent link k tol disTol alpha (map mv bs) n r with
    | Some (E, H, h), Some (E', H', h') => Forall2 same_shape E E' /\ H = H' /\ forall t, h t = h' t
    | None, None => True
    | _, _ => False
    end.
  Proof.
    unfold equivalent. rewrite mv_field_distances. pose proof (mv_equivalent_boreholes link k tol bs) as K.
    destruct (equivalent_boreholes link k tol bs) as [E|], (equivalent_boreholes link k tol (map mv bs)) as [E'|]; try contradiction; auto.
    destruct (field_distances disTol bs) as [dis|]; auto. destruct K as [K1 K2]. split; auto. split. { apply shape_eq_lengths; auto. } intros t. apply shape_matrix; auto.
  Qed.
End Motion.
