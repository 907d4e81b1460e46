(* Proofs about the connectivity of networks. *)
From Coq Require Import Reals Lra Lia List ZArith Bool FinFun.
From Verif Require Import Base LinAlg Net_Model Net_Spec.
Import ListNotations.

(* ------------------------------------------------------------------ *)
(* Depth of a borehole below the field inlet                           *)

Inductive depth (c : list Z) : nat -> nat -> nat -> Prop :=
| depth_O i : nth_error c i = Some (-1)%Z -> depth c i i O
| depth_S i j r d : nth_error c i = Some (Z.of_nat j) -> depth c j r d -> depth c i r (S d).

Lemma root_depth c i r : root c i r -> exists d, depth c i r d.
Proof.
  induction 1 as [i H|i j r H _ [d IH]]; [exists O|exists (S d)]; econstructor; eauto.
Qed.

Lemma depth_root c i r d : depth c i r d -> root c i r.
Proof. induction 1; econstructor; eauto. Qed.

Lemma depth_fun c i r r' d d' : depth c i r d -> depth c i r' d' -> r = r' /\ d = d'.
Proof.
  intro H; revert r' d'; induction H as [i H|i j r d H _ IH]; intros r' d' H'.
  - inversion H'; subst; auto. rewrite H in H0. inversion H0. lia.
  - inversion H'; subst.
    + rewrite H in H0. inversion H0. lia.
    + rewrite H in H0. inversion H0. assert (j = j0) by lia. subst j0.
      destruct (IH _ _ H1); auto.
Qed.

Lemma root_fun c i r r' : root c i r -> root c i r' -> r = r'.
Proof.
  intros H1 H2. destruct (root_depth _ _ _ H1) as [d D1]. destruct (root_depth _ _ _ H2) as [d' D2].
  destruct (depth_fun c i r r' d d' D1 D2); auto.
Qed.

Lemma nth_error_lt {A} (l : list A) i a : nth_error l i = Some a -> (i < length l)%nat.
Proof. intro H. apply nth_error_Some. congruence. Qed.

Lemma nth_error_nthZ (c : list Z) i z : nth_error c i = Some z -> nth i c 0%Z = z.
Proof. intro H. apply nth_error_nth. auto. Qed.

Lemma nthZ_nth_error (c : list Z) i : (i < length c)%nat -> nth_error c i = Some (nth i c 0%Z).
Proof. intro H. apply nth_error_nth'. auto. Qed.

Lemma root_head c i r : root c i r -> nth_error c r = Some (-1)%Z.
Proof. induction 1; auto. Qed.

Lemma depth_path c i r d : depth c i r d ->
  exists p, length p = S d /\ NoDup p /\ forall x, In x p -> (x < length c)%nat
            /\ exists e r', depth c x r' e /\ (e <= d)%nat.
Proof.
  induction 1 as [i H|i j r d H D [p [Hl [Hn Hp]]]].
  - exists [i]. split; [auto|split].
    + constructor; [intros []|constructor].
    + intros x [<-|[]]. split; [eapply nth_error_lt; eauto|]. exists O, i. split; [constructor; auto|lia].
  - exists (i :: p). split; [simpl; lia|split].
    + constructor; auto. intro Hi. destruct (Hp i Hi) as [_ [e [r' [De Le]]]].
      assert (Di : depth c i r (S d)) by (econstructor; eauto).
      destruct (depth_fun _ _ _ _ _ _ De Di). lia.
    + intros x [<-|Hx].
      * split; [eapply nth_error_lt; eauto|]. exists (S d), r. split; [econstructor; eauto|lia].
      * destruct (Hp x Hx) as [A [e [r' [B C]]]]. split; auto. exists e, r'. split; auto.
Qed.

Lemma depth_bound c i r d : depth c i r d -> (d < length c)%nat.
Proof.
  intro D. destruct (depth_path _ _ _ _ D) as [p [Hl [Hn Hp]]].
  assert (L : (length p <= length (seq 0 (length c)))%nat).
  { apply NoDup_incl_length; auto. intros x Hx. apply in_seq. destruct (Hp x Hx). lia. }
  rewrite seq_length in L. lia.
Qed.

(* ------------------------------------------------------------------ *)
(* The loops                                                           *)

Lemma py_get_nat c j : (j < length c)%nat -> py_get c (Z.of_nat j) = nth_error c j.
Proof.
  intro H. unfold py_get, py_index.
  destruct (Z.leb_spec 0 (Z.of_nat j)); [|lia]. destruct (Z.ltb_spec (Z.of_nat j) (Z.of_nat (length c))); [|lia].
  simpl. rewrite Nat2Z.id. symmetry. apply nthZ_nth_error. auto.
Qed.

Lemma walk_depth c i r d f : depth c i r d -> (d <= f)%nat -> walk f c (nth i c 0%Z) = true.
Proof.
  intro D; revert f; induction D as [i H|i j r d H D IH]; intros f Hf.
  - rewrite (nth_error_nthZ _ _ _ H). destruct f; reflexivity.
  - rewrite (nth_error_nthZ _ _ _ H). destruct f as [|f]; [lia|]. cbn [walk].
    destruct (Z.eqb (Z.of_nat j) (-1)) eqn:E; auto.
    assert (Hj : (j < length c)%nat).
    { inversion D; subst; eapply nth_error_lt; eauto. }
    rewrite py_get_nat by auto. rewrite nthZ_nth_error by auto. apply IH. lia.
Qed.

Lemma path_depth c i r d f : depth c i r d -> (d <= f)%nat ->
  exists p, path_from f c (nth i c 0%Z) = Some p /\ last (Z.of_nat i :: p) 0%Z = Z.of_nat r.
Proof.
  intro D; revert f; induction D as [i H|i j r d H D IH]; intros f Hf.
  - rewrite (nth_error_nthZ _ _ _ H). exists []. destruct f; split; reflexivity.
  - rewrite (nth_error_nthZ _ _ _ H). destruct f as [|f]; [lia|]. cbn [path_from].
    destruct (Z.eqb_spec (Z.of_nat j) (-1)); [lia|].
    assert (Hj : (j < length c)%nat).
    { inversion D; subst; eapply nth_error_lt; eauto. }
    rewrite py_get_nat by auto. rewrite nthZ_nth_error by auto.
    destruct (IH f) as [p [-> Hp]]; [lia|]. exists (Z.of_nat j :: p). split; auto.
Qed.

Lemma walk_root c f z :
  (forall i y, nth_error c i = Some y -> y = (-1)%Z \/ (0 <= y < Z.of_nat (length c))%Z) ->
  z = (-1)%Z \/ (0 <= z < Z.of_nat (length c))%Z ->
  walk f c z = true -> z = (-1)%Z \/ exists j r, z = Z.of_nat j /\ root c j r.
Proof.
  intros Hc. revert z; induction f as [|f IH]; intros z Hz H.
  - cbn [walk] in H. destruct (Z.eqb_spec z (-1)); auto. discriminate.
  - cbn [walk] in H. destruct (Z.eqb_spec z (-1)); auto. right.
    destruct Hz as [Hz|Hz]; [lia|].
    assert (Ez : z = Z.of_nat (Z.to_nat z)) by lia.
    assert (Hj : (Z.to_nat z < length c)%nat) by lia.
    rewrite Ez, py_get_nat in H by auto.
    exists (Z.to_nat z).
    assert (E := nthZ_nth_error c (Z.to_nat z) Hj). rewrite E in H.
    destruct (IH _ (Hc _ _ E) H) as [Em|[j [r [Ej Hr]]]].
    + exists (Z.to_nat z). split; auto. constructor. rewrite E, Em. auto.
    + exists r. split; auto. apply root_up with j; auto. rewrite E, Ej. auto.
Qed.

Lemma fold_max_le l z m : (fold_left Z.max l z <= m)%Z <-> (z <= m)%Z /\ forall y, In y l -> (y <= m)%Z.
Proof.
  revert z; induction l as [|a l IH]; intro z; simpl.
  - split; [intro; split; auto; intros y []|tauto].
  - rewrite IH. split.
    + intros [H1 H2]. split; [lia|]. intros y [<-|Hy]; [lia|auto].
    + intros [H1 H2]. split; [|auto]. assert (a <= m)%Z by auto. lia.
Qed.

Lemma count_le1 c z : (count c z <= 1)%nat <->
  forall i j, nth_error c i = Some z -> nth_error c j = Some z -> i = j.
Proof.
  unfold count. induction c as [|a c IH].
  - simpl. split; [|lia]. intros _ [|i] j H; discriminate.
  - cbn [filter]. destruct (Z.eqb_spec z a) as [->|Ne].
    + cbn [length]. split.
      * intros L [|i] [|j] Hi Hj; auto; exfalso.
        -- simpl in Hj. assert (In a (filter (Z.eqb a) c)) by (apply filter_In; split; [eapply nth_error_In; eauto|apply Z.eqb_refl]).
           destruct (filter (Z.eqb a) c); [contradiction|simpl in L; lia].
        -- simpl in Hi. assert (In a (filter (Z.eqb a) c)) by (apply filter_In; split; [eapply nth_error_In; eauto|apply Z.eqb_refl]).
           destruct (filter (Z.eqb a) c); [contradiction|simpl in L; lia].
        -- simpl in Hi. assert (In a (filter (Z.eqb a) c)) by (apply filter_In; split; [eapply nth_error_In; eauto|apply Z.eqb_refl]).
           destruct (filter (Z.eqb a) c); [contradiction|simpl in L; lia].
      * intros U. destruct (filter (Z.eqb a) c) as [|b l] eqn:E; [simpl; lia|].
        assert (In b (filter (Z.eqb a) c)) by (rewrite E; left; auto).
        apply filter_In in H. destruct H as [Hb Eb]. apply Z.eqb_eq in Eb. subst b.
        apply In_nth_error in Hb. destruct Hb as [j Hj].
        assert (0 = S j)%nat by (apply U; auto). lia.
    + rewrite IH. split.
      * intros U [|i] [|j] Hi Hj; simpl in *; try congruence; try (f_equal; apply U; auto); auto.
      * intros U i j Hi Hj. assert (S i = S j) by (apply U; auto). lia.
Qed.

Lemma count_inlets c : count c (-1)%Z = length (inlets c).
Proof.
  unfold count, inlets.
  assert (G : forall pre, length (filter (Z.eqb (-1)) c)
     = length (filter (fun i => Z.eqb (nth i (pre ++ c) 0%Z) (-1)) (seq (length pre) (length c)))).
  { induction c as [|a c IH]; intro pre; auto. cbn [length seq filter].
    rewrite app_nth2, Nat.sub_diag by lia. cbn [nth].
    specialize (IH (pre ++ [a])). rewrite <- app_assoc in IH. cbn [app] in IH.
    rewrite app_length in IH. simpl in IH. replace (length pre + 1)%nat with (S (length pre)) in IH by lia.
    rewrite (Z.eqb_sym a). destruct (Z.eqb (-1) a); simpl; rewrite IH; auto. }
  apply (G []).
Qed.

Lemma filter_compl {A} (f : A -> bool) l : (length (filter f l) + length (filter (fun x => negb (f x)) l) = length l)%nat.
Proof. induction l as [|a l IH]; simpl; auto. destruct (f a); simpl; lia. Qed.

Lemma NoDup_nth_errorZ (c : list Z) (P : Z -> bool) :
  (forall i j z, nth_error c i = Some z -> nth_error c j = Some z -> P z = true -> i = j) ->
  NoDup (filter P c).
Proof.
  induction c as [|a c IH]; intro U; simpl; [constructor|].
  assert (IHU : NoDup (filter P c)).
  { apply IH. intros i j z Hi Hj Hz. assert (S i = S j) by (apply (U (S i) (S j) z); auto). lia. }
  destruct (P a) eqn:E; auto. constructor; auto. intro H. apply filter_In in H. destruct H as [H _].
  apply In_nth_error in H. destruct H as [j Hj].
  assert (0 = S j)%nat by (apply (U O (S j) a); auto). lia.
Qed.

Lemma existsb_Z c i : existsb (Z.eqb (Z.of_nat i)) c = true <-> exists j, nth_error c j = Some (Z.of_nat i).
Proof.
  rewrite existsb_exists. split.
  - intros [z [Hz E]]. apply Z.eqb_eq in E. subst. apply In_nth_error. auto.
  - intros [j Hj]. exists (Z.of_nat i). split; [eapply nth_error_In; eauto|apply Z.eqb_refl].
Qed.

Definition fed_by_bore (z : Z) : bool := negb (Z.eqb (-1) z).
Definition feeders (c : list Z) : list nat :=
  filter (fun i => existsb (Z.eqb (Z.of_nat i)) c) (seq 0 (length c)).

Lemma feeders_outlets c : (length (feeders c) + length (outlets c) = length c)%nat.
Proof.
  unfold feeders, outlets.
  rewrite (filter_compl (fun i => existsb (Z.eqb (Z.of_nat i)) c)). apply seq_length.
Qed.

Lemma fed_inlets c : (count c (-1) + length (filter fed_by_bore c) = length c)%nat.
Proof. unfold count, fed_by_bore. apply filter_compl. Qed.

Lemma feeders_incl c : incl (map Z.of_nat (feeders c)) (filter fed_by_bore c).
Proof.
  intros z H. apply in_map_iff in H. destruct H as [i [<- Hi]].
  unfold feeders in Hi. apply filter_In in Hi. destruct Hi as [_ E]. apply existsb_Z in E.
  destruct E as [j Hj]. apply filter_In. split; [eapply nth_error_In; eauto|].
  unfold fed_by_bore. destruct (Z.eqb_spec (-1) (Z.of_nat i)); auto. lia.
Qed.

Lemma feeders_NoDup c : NoDup (map Z.of_nat (feeders c)).
Proof.
  apply Injective_map_NoDup; [intros a b; lia|]. apply NoDup_filter. apply seq_NoDup.
Qed.

(* As many inlets as outlets: no entry below -1. *)
Lemma balanced_range n c : length c = n ->
  (forall i j z, nth_error c i = Some z -> nth_error c j = Some z -> z <> (-1)%Z -> i = j) ->
  count c (-1)%Z = length (outlets c) ->
  forall i z, nth_error c i = Some z -> z = (-1)%Z \/ (0 <= z < Z.of_nat n)%Z.
Proof.
  intros Hn U Hc i z Hz.
  destruct (Z.eq_dec z (-1)) as [->|Ne]; auto. right.
  assert (L1 := feeders_outlets c). assert (L2 := fed_inlets c).
  assert (I : incl (filter fed_by_bore c) (map Z.of_nat (feeders c))).
  { apply NoDup_length_incl; [apply feeders_NoDup| |apply feeders_incl].
    rewrite map_length. lia. }
  assert (Hin : In z (filter fed_by_bore c)).
  { apply filter_In. split; [eapply nth_error_In; eauto|]. unfold fed_by_bore.
    destruct (Z.eqb_spec (-1) z); auto. }
  apply I in Hin. apply in_map_iff in Hin. destruct Hin as [k [<- Hk]].
  unfold feeders in Hk. apply filter_In in Hk. destruct Hk as [Hk _]. apply in_seq in Hk. lia.
Qed.

Lemma verify_spec n c : verify_bore_connectivity n c = true <->
  length c = n /\ (0 < n)%nat
  /\ (forall i z, nth_error c i = Some z -> (z < Z.of_nat n)%Z)
  /\ (forall i j z, nth_error c i = Some z -> nth_error c j = Some z -> z <> (-1)%Z -> i = j)
  /\ (forall i, (i < n)%nat -> walk n c (nth i c 0%Z) = true).
Proof.
  unfold verify_bore_connectivity. rewrite !andb_true_iff, Nat.eqb_eq, forallb_forall.
  assert (E : (forall x, In x c -> negb (negb (x =? -1)%Z && (1 <? count c x)%nat) && walk n c x = true)
     <-> (forall i j z, nth_error c i = Some z -> nth_error c j = Some z -> z <> (-1)%Z -> i = j)
         /\ (forall i, (i < length c)%nat -> walk n c (nth i c 0%Z) = true)).
  { split.
    - intro H. split.
      + intros i j z Hi Hj Hz. assert (Hin := nth_error_In _ _ Hi). specialize (H z Hin).
        apply andb_true_iff in H. destruct H as [H _].
        destruct (Z.eqb_spec z (-1)); [congruence|]. simpl in H. apply negb_true_iff in H.
        apply Nat.ltb_ge in H. apply (proj1 (count_le1 c z)); auto.
      + intros i Hi. assert (Hin := nth_In c 0%Z Hi). specialize (H _ Hin).
        apply andb_true_iff in H. tauto.
    - intros [U W] x Hx. apply In_nth_error in Hx. destruct Hx as [i Hi].
      apply andb_true_iff. split.
      + destruct (Z.eqb_spec x (-1)); auto. simpl. apply negb_true_iff. apply Nat.ltb_ge.
        apply count_le1. intros a b Ha Hb. eapply U; eauto.
      + rewrite <- (nth_error_nthZ _ _ _ Hi). apply W. eapply nth_error_lt; eauto. }
  rewrite E. clear E.
  destruct c as [|z l].
  - simpl. split; [intros [[_ H] _]; discriminate|]. intros [H1 [H2 _]]. lia.
  - cbn [zmax]. rewrite negb_true_iff, Z.leb_gt.
    assert (M : (fold_left Z.max l z < Z.of_nat n)%Z <-> forall i y, nth_error (z :: l) i = Some y -> (y < Z.of_nat n)%Z).
    { assert (A := fold_max_le l z (Z.of_nat n - 1)). split.
      - intros H i y Hy. apply nth_error_In in Hy. destruct A as [A _].
        destruct A as [A1 A2]; [lia|]. destruct Hy as [<-|Hy]; [lia|]. specialize (A2 y Hy). lia.
      - intro H. destruct A as [_ A]. assert (fold_left Z.max l z <= Z.of_nat n - 1)%Z; [|lia].
        apply A. split; [specialize (H O z eq_refl); lia|].
        intros y Hy. apply In_nth_error in Hy. destruct Hy as [i Hi]. specialize (H (S i) y Hi). lia. }
    rewrite M. split.
    + intros [[H1 H2] [H3 H4]]. rewrite <- H1 in *. split; auto. split; [simpl; lia|].
      split; auto. 
    + intros [H1 [_ [H2 [H3 H4]]]]. rewrite <- H1 in *. auto.
Qed.

Lemma index_of_some l z k : index_of l z = Some k -> (k < length l)%nat /\ Z.of_nat (nth k l O) = z.
Proof.
  revert k; induction l as [|a l IH]; intros k H; simpl in H; [discriminate|].
  destruct (Z.eqb_spec (Z.of_nat a) z).
  - inversion H; subst. simpl. split; [lia|auto].
  - destruct (index_of l z) as [k'|] eqn:E; [|discriminate]. inversion H; subst.
    destruct (IH k' eq_refl). simpl. split; [lia|auto].
Qed.

Lemma index_of_in l i : In i l -> exists k, index_of l (Z.of_nat i) = Some k.
Proof.
  induction l as [|a l IH]; intros H; [destruct H|]. simpl.
  destruct (Z.eqb_spec (Z.of_nat a) (Z.of_nat i)); [eauto|].
  destruct H as [->|H]; [congruence|]. destruct (IH H) as [k ->]. eauto.
Qed.

Lemma index_of_none l i : index_of l (Z.of_nat i) = None <-> ~ In i l.
Proof.
  split.
  - intros H Hi. apply index_of_in in Hi. destruct Hi as [k Hk]. congruence.
  - intro H. destruct (index_of l (Z.of_nat i)) as [k|] eqn:E; auto.
    apply index_of_some in E. destruct E as [E1 E2]. exfalso. apply H.
    assert (nth k l O = i) by lia. subst i. apply nth_In. auto.
Qed.

Lemma index_of_nth l k : NoDup l -> (k < length l)%nat -> index_of l (Z.of_nat (nth k l O)) = Some k.
Proof.
  intros N Hk. destruct (index_of_in l (nth k l O)) as [k' E]; [apply nth_In; auto|].
  rewrite E. f_equal. apply index_of_some in E. destruct E as [E1 E2].
  apply (proj1 (NoDup_nth l O) N); auto. lia.
Qed.

Lemma all_some_map {A B} (f : A -> option B) l :
  (forall a, In a l -> exists b, f a = Some b) ->
  exists r, all_some (map f l) = Some r /\ length r = length l
     /\ forall i d d', (i < length l)%nat -> f (nth i l d) = Some (nth i r d').
Proof.
  induction l as [|a l IH]; intro H.
  - exists []. simpl. split; [auto|split; [auto|intros; lia]].
  - destruct IH as [r [E [L P]]]; [intros; apply H; right; auto|].
    destruct (H a (or_introl eq_refl)) as [b Hb].
    exists (b :: r). cbn [map all_some]. rewrite Hb, E. split; [auto|split; [simpl; lia|]].
    intros [|i] d d' Hi; simpl; auto. apply P. simpl in Hi. lia.
Qed.

Lemma inlets_in c i : In i (inlets c) <-> nth_error c i = Some (-1)%Z.
Proof.
  unfold inlets. rewrite filter_In, in_seq, Z.eqb_eq. split.
  - intros [H1 H2]. rewrite nthZ_nth_error by lia. congruence.
  - intro H. split; [apply nth_error_lt in H; lia|apply nth_error_nthZ; auto].
Qed.

Lemma inlets_NoDup c : NoDup (inlets c).
Proof. apply NoDup_filter, seq_NoDup. Qed.

Lemma outlets_in c i : In i (outlets c) <-> (i < length c)%nat /\ forall j, nth_error c j <> Some (Z.of_nat i).
Proof.
  unfold outlets. rewrite filter_In, in_seq, negb_true_iff. split.
  - intros [H1 H2]. split; [lia|]. intros j Hj. assert (existsb (Z.eqb (Z.of_nat i)) c = true) by (apply existsb_Z; eauto). congruence.
  - intros [H1 H2]. split; [lia|]. destruct (existsb _ c) eqn:E; auto.
    apply existsb_Z in E. destruct E as [j Hj]. exfalso. apply (H2 j Hj).
Qed.

Lemma outlets_NoDup c : NoDup (outlets c).
Proof. apply NoDup_filter, seq_NoDup. Qed.

Lemma circuits_spec n c : chains n c ->
  exists k, circuits c = Some k /\ length k = n
    /\ forall i, (i < n)%nat -> (nth i k O < length (inlets c))%nat /\ root c i (nth (nth i k O) (inlets c) O).
Proof.
  intros [Hl [H0 [Hr [U R]]]].
  unfold circuits.
  destruct (all_some_map (fun i => match path_to_inlet c i with
      | Some p => index_of (inlets c) (last p 0%Z) | None => None end) (seq 0 (length c))) as [k [E [L P]]].
  - intros i Hi. apply in_seq in Hi. destruct (R i) as [r Hri]; [lia|].
    destruct (root_depth _ _ _ Hri) as [d D].
    destruct (path_depth c i r d (length c) D) as [p [Ep Lp]].
    { assert (B := depth_bound _ _ _ _ D). lia. }
    unfold path_to_inlet. rewrite Ep. rewrite Lp.
    apply index_of_in. apply inlets_in. eapply root_head; eauto.
  - exists k. split; auto. rewrite seq_length in *. split; [lia|].
    intros i Hi. specialize (P i O O). rewrite seq_nth in P by lia. simpl in P.
    specialize (P ltac:(lia)).
    destruct (R i) as [r Hri]; [lia|].
    destruct (root_depth _ _ _ Hri) as [d D].
    destruct (path_depth c i r d (length c) D) as [p [Ep Lp]].
    { assert (B := depth_bound _ _ _ _ D). lia. }
    unfold path_to_inlet in P. rewrite Ep, Lp in P.
    apply index_of_some in P. destruct P as [P1 P2]. split; auto.
    assert (Q : nth (nth i k O) (inlets c) O = r) by lia. rewrite Q. auto.
Qed.

Lemma chains_balanced n c : chains n c -> count c (-1)%Z = length (outlets c).
Proof.
  intros [Hl [H0 [Hr [U R]]]].
  assert (L1 := feeders_outlets c). assert (L2 := fed_inlets c).
  assert (length (filter fed_by_bore c) = length (feeders c)); [|lia].
  apply Nat.le_antisymm.
  - rewrite <- (map_length Z.of_nat (feeders c)). apply NoDup_incl_length.
    + apply NoDup_nth_errorZ. intros i j z Hi Hj Hz. apply (U i j z); auto.
      unfold fed_by_bore in Hz. apply negb_true_iff in Hz. apply Z.eqb_neq in Hz. auto.
    + intros z Hz. apply filter_In in Hz. destruct Hz as [Hz Ez].
      unfold fed_by_bore in Ez. apply negb_true_iff in Ez. apply Z.eqb_neq in Ez.
      apply In_nth_error in Hz. destruct Hz as [j Hj].
      destruct (Hr _ _ Hj) as [->|Hz]; [congruence|].
      apply in_map_iff. exists (Z.to_nat z). split; [lia|]. unfold feeders. apply filter_In. split.
      * apply in_seq. lia.
      * apply existsb_Z. exists j. rewrite Hj. f_equal. lia.
  - rewrite <- (map_length Z.of_nat (feeders c)). apply NoDup_incl_length; [apply feeders_NoDup|apply feeders_incl].
Qed.

Lemma chains_verify n c : chains n c -> verify_bore_connectivity n c = true.
Proof.
  intros [Hl [H0 [Hr [U R]]]]. apply verify_spec. split; auto. split; auto. split.
  - intros i z Hz. destruct (Hr _ _ Hz); lia.
  - split; auto. intros i Hi. destruct (R i Hi) as [r Hri]. destruct (root_depth _ _ _ Hri) as [d D].
    apply (walk_depth c i r d); auto. assert (B := depth_bound _ _ _ _ D). lia.
Qed.

Lemma build_accepts n c : chains n c -> exists N, build_net n (Some c) = Some N.
Proof.
  intro C. unfold build_net. rewrite (chains_verify n c C).
  destruct (circuits_spec n c C) as [k [-> _]].
  rewrite (chains_balanced n c C), Nat.eqb_refl. eauto.
Qed.

Lemma verify_chains n c : verify_bore_connectivity n c = true ->
  count c (-1)%Z = length (outlets c) -> chains n c.
Proof.
  intros V B. apply verify_spec in V. destruct V as [Hl [H0 [Hr [U W]]]].
  assert (Rg := balanced_range n c Hl U B).
  unfold chains. split; auto. split; auto. split; auto. split; auto.
  intros i Hi. assert (E := nthZ_nth_error c i). rewrite Hl in E. specialize (E Hi).
  rewrite <- Hl in Rg.
  destruct (walk_root c n (nth i c 0%Z) Rg (Rg _ _ E) (W i Hi)) as [Em|[j [r [Ej Hr']]]].
  - exists i. constructor. rewrite E, Em. auto.
  - exists r. apply root_up with j; auto. rewrite E, Ej. auto.
Qed.

Lemma build_rejects n c N : build_net n (Some c) = Some N -> chains n c.
Proof.
  unfold build_net. destruct (verify_bore_connectivity n c) eqn:V; [|discriminate].
  destruct (circuits c); [|discriminate].
  destruct (Nat.eqb_spec (count c (-1)%Z) (length (outlets c))); [|discriminate].
  intros _. apply verify_chains; auto.
Qed.

Lemma build_iff n c : (exists N, build_net n (Some c) = Some N) <-> chains n c.
Proof. split; [intros [N H]; eapply build_rejects; eauto|apply build_accepts]. Qed.

Lemma default_chains n : (0 < n)%nat -> chains n (repeat (-1)%Z n).
Proof.
  intro H. assert (E : forall i z, nth_error (repeat (-1)%Z n) i = Some z -> z = (-1)%Z).
  { intros i z Hz. apply nth_error_In in Hz. apply repeat_spec in Hz. auto. }
  split; [apply repeat_length|]. split; auto. split; [|split].
  - intros i z Hz. left. eauto.
  - intros i j z Hi _ Hz. exfalso. apply Hz. eauto.
  - intros i Hi. exists i. constructor.
    assert (G := nthZ_nth_error (repeat (-1)%Z n) i). rewrite repeat_length in G.
    rewrite G by auto. f_equal. apply (E i). auto.
Qed.

(* ------------------------------------------------------------------ *)
(* The object built                                                    *)

Lemma build_some n conn N : build_net n conn = Some N ->
  exists c, chains n c /\ n_c N = c /\ n_in N = inlets c /\ n_out N = outlets c
    /\ length (n_circ N) = n
    /\ (forall i, (i < n)%nat -> (nth i (n_circ N) O < length (inlets c))%nat
                  /\ root c i (nth (nth i (n_circ N) O) (inlets c) O))
    /\ c = match conn with Some c => c | None => repeat (-1)%Z n end.
Proof.
  intro H. set (c := match conn with Some c => c | None => repeat (-1)%Z n end).
  assert (H' : build_net n (Some c) = Some N).
  { unfold c. unfold build_net in *. destruct conn; auto. }
  exists c. assert (C := build_rejects _ _ _ H'). split; auto.
  unfold build_net in H'. rewrite (chains_verify n c C) in H'.
  destruct (circuits_spec n c C) as [k [Ek [Lk Pk]]]. rewrite Ek in H'.
  rewrite (chains_balanced n c C), Nat.eqb_refl in H'. inversion H'; subst N; simpl.
  repeat split; auto; apply Pk; auto.
Qed.
