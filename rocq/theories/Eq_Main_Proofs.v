(** The response factors of equivalent boreholes and those of the boreholes. *)
From Verif Require Import Base TimeGrid_Spec LinAlg FLS_Model FLS_Sol_Proofs FLS_Line_Proofs.
From Verif Require Import Bore_Model Bore_Spec UniqueDist_Proofs Net_Model Solve_Model Solve_Spec Solve_Sol_Proofs Detailed_Model Detailed_Spec Detailed_Proofs Detailed_Sol_Proofs
  Sim_Model Sim_Spec Sim_Cells_Proofs Sim_Exact_Proofs Eq_Model Eq_Spec Eq_Group_Proofs Eq_Cluster_Proofs Eq_Dist_Proofs Eq_Field_Proofs Eq_Block_Proofs.
From Coq Require Import Permutation.

Local Notation no_eb := (EBore 0 0 0 [] [] 0 []).

Lemma bore_seg_nth b n r a : btilt b = 0 -> (a < length r)%nat ->
  let s := nth a (segments b n (Some r)) no_bore in
  bH s = nth a r 0 * bH b /\ bD s = bD b + nth a (0 :: cumsum r) 0 * bH b.
Proof.
  intros T Ha s. unfold s, segments, segment_edges. cbn [default_ratios].
  assert (Lc : length (cumsum r) = length r) by (unfold cumsum; apply Eq_Block_Proofs.cumsum_from_length).
  assert (Lm : length (removelast (map (fun z => z * bH b) (0 :: cumsum r))) = length r).
  { rewrite removelast_firstn_len, firstn_length, map_length. cbn [length]. lia. }
  rewrite (nth_map _ _ _ (0, 0)) by (rewrite combine_length; lia). rewrite combine_nth by auto. cbn [mk_bore bH bD].
  rewrite removelast_firstn_len, nth_firstn by (rewrite map_length; cbn [length]; lia). rewrite (nth_map _ _ _ 0) by (cbn [length]; lia).
  rewrite T, cos_0. split; ring.
Qed.

Lemma Rsum_filter {A} (F : A -> R) (p : A -> bool) l : Rsum (map F (filter p l)) = Rsum (map (fun a => if p a then F a else 0) l).
Proof. induction l as [|x l IH]; auto. cbn [filter map Rsum]. destruct (p x); cbn [map Rsum]; rewrite IH; ring. Qed.

Lemma Rsum_index (F : nat -> R) ks : Rsum (map F ks) = Rsum (map (fun a => F (nth a ks O)) (seq 0 (length ks))).
Proof. rewrite Rsum_seq. symmetry. apply (sumn_list O F ks). Qed.

Section Main.
  Variables (tol disTol u M : R) (bs : list bore) (ls : list nat) (E : list ebore) (n : nat) (r : list R) (alpha t : R).
  Local Notation nB := (length bs).
  Local Notation nE := (length E).
  Local Notation b_ k := (nth k bs no_bore).
  Local Notation e_ i := (nth i E no_eb).
  Local Notation ks i := (owners ls nB i).
  Local Notation ns := (repeat n nB).
  Local Notation rs := (repeat r nB).
  Hypothesis Ga : gathers bs ls E.
  Hypothesis Sd : forall p q, (p < nB)%nat -> (q < nB)%nat -> nth p ls O = nth q ls O -> same_dims (b_ p) (b_ q).
  Hypothesis Vf : vertical_field bs.
  Hypothesis Lr : length r = n.
  Hypothesis Gr : good_ratios [r].
  Hypothesis Og : on_grid tol u M bs ns rs.
  Hypothesis Rd : radii_apart tol bs.
  Hypothesis Lev : level bs.
  Hypothesis Nb : (0 < nB)%nat.
  Hypothesis Hd : 0 < disTol.
  Hypothesis Sp : spaced disTol bs.
  Hypothesis Ha : 0 < alpha.
  Hypothesis Ht : 0 < t.

  Definition sg (k a : nat) : bore := nth a (segments (b_ k) n (Some r)) no_bore.

  Lemma in_owner i k : In k (ks i) <-> (k < nB)%nat /\ nth k ls O = i.
  Proof. unfold owners. rewrite filter_In, in_seq, Nat.eqb_eq. split; intros [A B]; split; auto; lia. Qed.
  Lemma owner_nth i a : (a < length (ks i))%nat -> (nth a (ks i) O < nB)%nat /\ nth (nth a (ks i) O) ls O = i.
  Proof. intros H. apply in_owner, nth_In; auto. Qed.
  Lemma owner_nodup i : NoDup (ks i).
  Proof. apply NoDup_filter, seq_NoDup. Qed.

  Lemma e_props i : (i < nE)%nat -> ks i <> [] /\ ex (e_ i) = map (fun k => bx (b_ k)) (ks i) /\ ey (e_ i) = map (fun k => by_ (b_ k)) (ks i) /\ length (eori (e_ i)) = length (ks i) /\
    etilt (e_ i) = 0 /\ forall k, In k (ks i) -> eH (e_ i) = bH (b_ k) /\ eD (e_ i) = bD (b_ k) /\ er (e_ i) = br (b_ k).
  Proof.
    intros Hi. destruct Ga as [_ [_ G]]. destruct (G i Hi) as [A [B [C [D [F1 [F2 [F3 F4]]]]]]]. fold (ks i) in *.
    assert (Ih : In (hd O (ks i)) (ks i)) by (destruct (ks i); [congruence|left; auto]). apply in_owner in Ih. destruct Ih as [I1 I2].
    split; auto. split; auto. split; auto. split; [rewrite D, map_length; auto|]. split.
    - rewrite F4. apply (proj1 Vf). apply nth_In; auto.
    - intros k Ik. apply in_owner in Ik. destruct Ik as [K1 K2]. destruct (Sd k (hd O (ks i)) K1 I1 ltac:(congruence)) as [S1 [S2 S3]]. repeat split; congruence.
  Qed.
  Lemma e_count i : (i < nE)%nat -> length (ex (e_ i)) = length (ks i).
  Proof. intros Hi. destruct (e_props i Hi) as [_ [-> _]]. apply map_length. Qed.
  Lemma e_head i : (i < nE)%nat -> exists k, In k (ks i).
  Proof. intros Hi. destruct (e_props i Hi) as [N _]. destruct (ks i) as [|k l]; [congruence|]. exists k. left; auto. Qed.

  (** sums over the distances *)
  Lemma distance_sum f i j : (i < nE)%nat -> (j < nE)%nat ->
    Rsum (map f (pair_distances E i j)) = Rsum (map (fun y => Rsum (map (fun x => if Nat.eqb x y then 0 else f (planar (b_ x) (b_ y))) (ks i))) (ks j)).
  Proof.
    intros Hi Hj. destruct (e_props i Hi) as [_ [Xi [Yi [_ [_ Di]]]]]. destruct (e_props j Hj) as [_ [Xj [Yj _]]].
    rewrite pair_distances_are by (rewrite ?Xi, ?Yi, ?Xj, ?Yj, !map_length; auto). unfold distances_between.
    rewrite Xi, Yi, Xj, Yj, !map_length. rewrite concat_map, map_map, Rsum_concat, map_map. rewrite (Rsum_index _ (ks j)). apply Rsum_ext_in. intros b Ib. apply in_seq in Ib.
    rewrite map_map, (Rsum_filter _ _ (seq 0 (length (ks i)))), (Rsum_index _ (ks i)). apply Rsum_ext_in. intros a Ia. apply in_seq in Ia.
    destruct (owner_nth i a ltac:(lia)) as [A1 A2]. destruct (owner_nth j b ltac:(lia)) as [B1 B2]. set (x := nth a (ks i) O) in *. set (y := nth b (ks j) O) in *.
    assert (Eqv : Nat.eqb i j && Nat.eqb a b = Nat.eqb x y).
    { destruct (Nat.eqb_spec x y) as [Q|Q].
      - assert (Eij : i = j) by congruence. rewrite Eij, Nat.eqb_refl. cbn [andb]. apply Nat.eqb_eq. unfold x, y in Q. rewrite Eij in Q, Ia. apply (proj1 (NoDup_nth (ks j) O) (owner_nodup j)); auto; lia.
      - destruct (Nat.eqb_spec i j) as [->|]; auto. destruct (Nat.eqb_spec a b) as [->|]; auto. unfold x, y in Q. congruence. }
    rewrite Eqv. destruct (Nat.eqb_spec x y) as [|Q]; auto. cbn [negb]. rewrite !(nth_map _ _ _ O) by lia. fold x y.
    assert (Ir : In x (ks i)) by (apply nth_In; lia). destruct (Di x Ir) as [_ [_ ->]]. f_equal.
    change (sqrt ((bx (b_ y) - bx (b_ x)) ^ 2 + (by_ (b_ y) - by_ (b_ x)) ^ 2)) with (planar (b_ y) (b_ x)). rewrite (planar_sym (b_ x)). apply Rmax_left.
    rewrite planar_sym. apply (proj2 Vf); auto.
  Qed.

  Lemma distance_sym i j f : (i < nE)%nat -> (j < nE)%nat -> Rsum (map f (pair_distances E i j)) = Rsum (map f (pair_distances E j i)).
  Proof.
    intros Hi Hj. rewrite !distance_sum by auto. rewrite (Rsum_swap_list (fun y x => if Nat.eqb x y then 0 else f (planar (b_ x) (b_ y)))).
    apply Rsum_ext_in. intros x _. apply Rsum_ext_in. intros y _. rewrite Nat.eqb_sym, planar_sym. auto.
  Qed.

  Lemma distance_empty i j : nB = 1%nat -> (i < nE)%nat -> (j < nE)%nat -> pair_distances E i j = [].
  Proof.
    intros One Hi Hj. destruct (pair_distances E i j) as [|d l] eqn:Q; auto. exfalso.
    pose proof (distance_sum (fun _ => 1) i j Hi Hj) as S. rewrite Q in S. 
    assert (P : 0 < Rsum (map (fun _ : R => 1) (d :: l))). { cbn [map Rsum]. assert (0 <= Rsum (map (fun _ : R => 1) l)); [|lra]. apply Rsum_nonneg. intros x I. apply in_map_iff in I. destruct I as [? [<- _]]. lra. }
    rewrite S in P. rewrite (Rsum_ext_in _ (fun _ => 0)) in P.
    - assert (Z : forall l : list nat, Rsum (map (fun _ => 0) l) = 0) by (induction l0; cbn [map Rsum]; lra). rewrite Z in P. lra.
    - intros y Iy. rewrite (Rsum_ext_in _ (fun _ => 0)).
      + assert (Z : forall l : list nat, Rsum (map (fun _ => 0) l) = 0) by (induction l0; cbn [map Rsum]; lra). apply Z.
      + intros x Ix. apply in_owner in Ix, Iy. assert (x = y) by lia. subst. rewrite Nat.eqb_refl. auto.
  Qed.

  (** segments *)
  Lemma es_sg i a k : (i < nE)%nat -> (a < n)%nat -> In k (ks i) -> bH (es E n r i a) = bH (sg k a) /\ bD (es E n r i a) = bD (sg k a).
  Proof.
    intros Hi Hx Ik. destruct (e_props i Hi) as [_ [X [_ [O [T D]]]]]. destruct (D k Ik) as [D1 [D2 _]].
    destruct (eb_seg_nth (e_ i) n r a T ltac:(rewrite O, X, map_length; auto) ltac:(lia)) as [Q1 [Q2 _]]. unfold es, dims. cbn [bH bD]. rewrite Q1, Q2, D1, D2.
    apply in_owner in Ik. destruct (proj1 Vf (b_ k) (nth_In bs no_bore (proj1 Ik))) as [Tk _].
    destruct (bore_seg_nth (b_ k) n r a Tk ltac:(lia)) as [Q3 Q4]. unfold sg. rewrite Q3, Q4. auto.
  Qed.

  Lemma segmented_all : segmented bs ns rs.
  Proof. split; [apply repeat_length|]. split; [apply repeat_length|]. intros b Hb. rewrite (nth_indep _ [] r), (nth_indep _ O n), !nth_repeat by (rewrite repeat_length; auto). auto. Qed.
  Lemma good_all : good_ratios rs.
  Proof. intros x Ix. apply repeat_spec in Ix. subst. apply Gr. left; auto. Qed.
  Lemma first_all m k : (k <= m)%nat -> first (repeat n m) k = (n * k)%nat.
  Proof.
    unfold first. revert m. induction k as [|k IH]; intros [|m] H; try lia; [cbn; lia|cbn; lia|]. cbn [repeat firstn]. change (list_sum (n :: ?l)) with (n + list_sum l)%nat. rewrite IH by lia. nia.
  Qed.
  Lemma sum_all m : list_sum (repeat n m) = (n * m)%nat.
  Proof. induction m as [|m IH]; [cbn; lia|]. cbn [repeat]. change (list_sum (n :: ?l)) with (n + list_sum l)%nat. rewrite IH. nia. Qed.
  Lemma seg_at k a : (k < nB)%nat -> (a < n)%nat -> nth (n * k + a) (borehole_segments bs ns rs) no_bore = sg k a.
  Proof.
    intros Hk Hx. destruct (segments_all bs ns rs segmented_all) as [_ S]. specialize (S k a Hk).
    rewrite (nth_indep (repeat r nB) [] r), (nth_indep (repeat n nB) O n), !nth_repeat in S by (rewrite repeat_length; auto). rewrite first_all in S by lia. apply S; auto.
  Qed.
  Lemma sg_in k a : (k < nB)%nat -> (a < n)%nat -> In (sg k a) (borehole_segments bs ns rs).
  Proof.
    intros Hk Hx. rewrite <- seg_at by auto. apply nth_In. rewrite (proj1 (segments_all bs ns rs segmented_all)), sum_all. nia.
  Qed.
  Lemma sg_place k a : (k < nB)%nat -> (a < n)%nat -> Detailed_Sol_Proofs.place (sg k a) (b_ k).
  Proof.
    intros Hk Hx. rewrite <- seg_at by auto. apply (seg_place bs ns rs segmented_all Vf); auto. unfold owns. rewrite first_all by lia.
    rewrite (nth_indep (repeat n nB) O n), nth_repeat by (rewrite repeat_length; auto). lia.
  Qed.

  (** the hypotheses of the previous section *)
  Lemma e_sized i : (i < nE)%nat -> sized u M (dims (e_ i)).
  Proof.
    intros Hi. destruct (e_head i Hi) as [k Ik]. destruct (e_props i Hi) as [_ [_ [_ [_ [_ D]]]]]. destruct (D k Ik) as [D1 [D2 _]]. apply in_owner in Ik. destruct Ik as [K1 _].
    pose proof (nth_In bs no_bore K1) as I. destruct (proj1 Vf _ I) as [_ [V2 [V3 _]]]. destruct Og as [_ [_ [_ G]]]. specialize (G (b_ k) (in_or_app _ _ _ (or_introl I))).
    unfold sized, dims. cbn [bH bD]. rewrite D1, D2. tauto.
  Qed.
  Lemma es_sized i a : (i < nE)%nat -> (a < n)%nat -> sized u M (es E n r i a).
  Proof.
    intros Hi Hx. destruct (e_head i Hi) as [k Ik]. destruct (es_sg i a k Hi Hx Ik) as [E1 E2]. apply in_owner in Ik. destruct Ik as [K1 _].
    pose proof (sg_in k a K1 Hx) as I. destruct (seg_props bs ns rs Vf good_all _ I) as [_ [V2 [V3 _]]]. destruct Og as [_ [_ [_ G]]]. specialize (G (sg k a) (in_or_app _ _ _ (or_intror I))).
    unfold sized. rewrite E1, E2. tauto.
  Qed.
  Lemma e_level i j : (i < nE)%nat -> (j < nE)%nat -> eH (e_ i) = eH (e_ j) -> eD (e_ i) = eD (e_ j).
  Proof.
    intros Hi Hj Q. destruct (e_head i Hi) as [k Ik], (e_head j Hj) as [l Il]. destruct (e_props i Hi) as [_ [_ [_ [_ [_ D]]]]]. destruct (e_props j Hj) as [_ [_ [_ [_ [_ F]]]]].
    destruct (D k Ik) as [D1 [D2 _]]. destruct (F l Il) as [F1 [F2 _]]. rewrite D2, F2. apply in_owner in Ik, Il. apply Lev; [apply nth_In; tauto|apply nth_In; tauto|congruence].
  Qed.
  Lemma e_radii i j : (i < nE)%nat -> (j < nE)%nat -> Rabs (er (e_ i) - er (e_ j)) < tol * er (e_ i) -> er (e_ i) = er (e_ j).
  Proof.
    intros Hi Hj Q. destruct (e_head i Hi) as [k Ik], (e_head j Hj) as [l Il]. destruct (e_props i Hi) as [_ [_ [_ [_ [_ D]]]]]. destruct (e_props j Hj) as [_ [_ [_ [_ [_ F]]]]].
    destruct (D k Ik) as [_ [_ D3]]. destruct (F l Il) as [_ [_ F3]]. rewrite D3, F3 in *. apply in_owner in Ik, Il. apply Rd; [apply nth_In; tauto|apply nth_In; tauto|auto].
  Qed.
  Lemma e_wf i : (i < nE)%nat -> length (ey (e_ i)) = length (ex (e_ i)) /\ length (eori (e_ i)) = length (ex (e_ i)) /\ (0 < length (ex (e_ i)))%nat /\ etilt (e_ i) = 0 /\ 0 < er (e_ i).
  Proof.
    intros Hi. destruct (e_head i Hi) as [k Ik]. destruct (e_props i Hi) as [N [X [Y [O [T D]]]]]. destruct (D k Ik) as [_ [_ D3]]. rewrite X, Y, O, !map_length, D3.
    repeat split; auto; [destruct (ks i); [congruence|cbn; lia]|]. apply in_owner in Ik. apply (proj1 Vf). apply nth_In; tauto.
  Qed.
  Lemma e_some : (0 < nE)%nat.
  Proof. destruct Ga as [_ [L _]]. specialize (L O Nb). lia. Qed.

  (** the closest of the distances *)
  Lemma near_field dis : field_distances disTol bs = Some dis -> increasing dis /\ (forall x, In x dis -> 0 < x) /\
    (dis <> [] \/ forall i j, (i < nE)%nat -> (j < nE)%nat -> pair_distances E i j = []) /\
    forall a b, (a < nB)%nat -> (b < nB)%nat -> a <> b -> let d := planar (b_ a) (b_ b) in
      0 < near dis d /\ Rabs (d - near dis d) < disTol * d /\ (distances_apart disTol bs -> near dis d = d).
  Proof.
    intros Ed. assert (R0 : 0 < br (b_ 0)) by (apply (proj1 Vf), nth_In; auto).
    destruct (field_main disTol bs Hd Nb R0 Sp) as [dis' [Ed' [Si [Po Cl]]]]. rewrite Ed in Ed'. injection Ed' as <-. pose proof (increasing_of bs Nb dis Si) as Inc. split; auto. split; auto. split.
    - destruct (Nat.eq_dec nB 1) as [One|N]; [right; intros; apply distance_empty; auto|]. left. intros ->. destruct (Cl O 1%nat) as [k [Hk _]]; try lia. cbn in Hk. lia.
    - intros a b Aa Ab N d. destruct (Cl a b Aa Ab N) as [k [Hk [Ck Xk]]]. fold d in Ck, Xk.
      assert (Nd : dis <> []) by (intros ->; cbn in Hk; lia). destruct (closest_spec dis d Nd Inc) as [C1 C2]. specialize (C2 k Hk). unfold near.
      split; [apply Po, nth_In; auto|]. split; [lra|]. intros Ap. specialize (Xk Ap). rewrite Xk in C2. rewrite Rminus_eq_0, Rabs_R0 in C2.
      pose proof (Rabs_pos (d - nth (closest dis d) dis 0)). destruct (Req_dec (d - nth (closest dis d) dis 0) 0) as [Z|Z]; [lra|]. apply Rabs_pos_lt in Z. lra.
  Qed.

  (** ** the matrix *)
  Lemma matrix_main dis : field_distances disTol bs = Some dis ->
    exists m, eq_matrix tol E n r dis (kernel_e alpha t) (kernel_v alpha t) = Some m /\
      forall i j a b, (i < nE)%nat -> (j < nE)%nat -> (a < n)%nat -> (b < n)%nat ->
        m (n * j + b)%nat (n * i + a)%nat = block_mean ls nB i j (fun x y => kernel_v alpha t (if Nat.eqb x y then br (b_ x) else near dis (planar (b_ x) (b_ y))) (sg x a, sg y b)).
  Proof.
    intros Ed. destruct (near_field dis Ed) as [Inc [Po [Nd Cl]]]. destruct Og as [G1 [G2 [G3 _]]].
    destruct (eq_matrix_main tol u M E n r dis alpha t G1 G2 G3 Ha Ht e_wf Lr e_sized es_sized e_level e_radii Po Inc Nd (fun i j f => distance_sym i j f) e_some) as [m [Em Vm]].
    exists m. split; auto. intros i j a b Hi Hj Hx Hy. rewrite Vm by auto. unfold off, offsum. rewrite distance_sum, e_count by auto. unfold block_mean.
    assert (Kv : forall d x y, In x (ks i) -> In y (ks j) -> kernel_v alpha t d (es E n r i a, es E n r j b) = kernel_v alpha t d (sg x a, sg y b)).
    { intros d x y Ix Iy. unfold kernel_v. cbn [fst snd]. destruct (es_sg i a x Hi Hx Ix) as [-> ->]. destruct (es_sg j b y Hj Hy Iy) as [-> ->]. auto. }
    assert (Pj : 0 < INR (length (ks j))). { apply lt_0_INR. destruct (e_props j Hj) as [N _]. destruct (ks j); [congruence|cbn; lia]. }
    set (off2 y := Rsum (map (fun x => if Nat.eqb x y then 0 else kernel_v alpha t (near dis (planar (b_ x) (b_ y))) (es E n r i a, es E n r j b)) (ks i))).
    set (sp := if Nat.eqb i j then self_part E n r alpha t i a b else 0).
    assert (Row : forall y, In y (ks j) -> Rsum (map (fun x => kernel_v alpha t (if Nat.eqb x y then br (b_ x) else near dis (planar (b_ x) (b_ y))) (sg x a, sg y b)) (ks i)) = off2 y + sp).
    { intros y Iy. unfold off2, sp. rewrite (Rsum_ext_in _ (fun x => (if Nat.eqb x y then 0 else kernel_v alpha t (near dis (planar (b_ x) (b_ y))) (es E n r i a, es E n r j b))
        + (if Nat.eqb x y then kernel_v alpha t (er (e_ i)) (es E n r i a, es E n r j b) else 0))).
      2:{ intros x Ix. destruct (Nat.eqb_spec x y) as [->|N]; [|rewrite <- Kv by auto; ring]. rewrite <- (Kv _ y y) by auto. destruct (e_props i Hi) as [_ [_ [_ [_ [_ D]]]]]. destruct (D y Ix) as [_ [_ ->]]. ring. }
      assert (Pl : forall f g l, Rsum (map (fun x : nat => f x + g x) l) = Rsum (map f l) + Rsum (map g l)) by (intros f g l; induction l as [|z l IH]; cbn [map Rsum]; [ring|rewrite IH; ring]).
      rewrite Pl. f_equal. apply in_owner in Iy. destruct Iy as [Y1 Y2].
      assert (One : forall l c, NoDup l -> Rsum (map (fun x => if Nat.eqb x y then c else 0) l) = if in_dec Nat.eq_dec y l then c else 0).
      { intros l c. induction l as [|z l IH]; intros Q; [reflexivity|]. inversion Q as [|? ? Q1 Q2]; subst. cbn [map Rsum]. rewrite IH by auto.
        destruct (Nat.eqb_spec z y) as [->|N]; destruct (in_dec Nat.eq_dec y l) as [P|P]; destruct (in_dec Nat.eq_dec y (_ :: l)) as [P'|P']; try contradiction; try ring;
          try (destruct P'; left; auto; fail); try (destruct P'; right; auto; fail); try (destruct P' as [P'|P']; congruence || contradiction). }
      rewrite One by apply owner_nodup. destruct (Nat.eqb_spec i j) as [->|N].
      - destruct (in_dec Nat.eq_dec y (ks j)) as [P|P]; [reflexivity|]. destruct P. apply in_owner. auto.
      - destruct (in_dec Nat.eq_dec y (ks i)) as [P|P]; [|auto]. apply in_owner in P. destruct P; congruence. }
    rewrite (Rsum_ext_in _ _ (ks j) Row).
    assert (Pl : forall (f : nat -> R) c l, Rsum (map (fun x : nat => f x + c) l) = Rsum (map f l) + INR (length l) * c).
    { intros f c l; induction l as [|z l IH]; cbn [map length]; [cbn; ring|]. rewrite S_INR. cbn [Rsum]. rewrite IH; ring. }
    rewrite Pl. unfold off2. fold sp. field. lra.
  Qed.

  Lemma kernel_response x y a b : (x < nB)%nat -> (y < nB)%nat -> (a < n)%nat -> (b < n)%nat ->
    kernel_v alpha t (if Nat.eqb x y then br (b_ x) else planar (b_ x) (b_ y)) (sg x a, sg y b) = response alpha t (sg x a) (sg y b).
  Proof.
    intros Hx Hy Aa Bb. unfold response. rewrite (place_distance _ _ _ _ (sg_place x a Hx Aa) (sg_place y b Hy Bb)). unfold kernel_v. cbn [fst snd]. f_equal.
    destruct (Nat.eqb_spec x y) as [->|N].
    - unfold planar. replace ((bx (b_ y) - bx (b_ y)) ^ 2 + (by_ (b_ y) - by_ (b_ y)) ^ 2) with 0 by ring. rewrite sqrt_0. symmetry. apply Rmax_right. left. apply (proj1 Vf), nth_In; auto.
    - symmetry. apply Rmax_left. apply (proj2 Vf); auto.
  Qed.

  Lemma detailed_at uw x y a b : (x < nB)%nat -> (y < nB)%nat -> (a < n)%nat -> (b < n)%nat ->
    detailed_matrix (line_kernel alpha t uw) bs ns rs (n * y + b)%nat (n * x + a)%nat = response alpha t (sg x a) (sg y b).
  Proof.
    intros Hx Hy Aa Bb. rewrite (matrix_response bs ns rs segmented_all Vf good_all) by (rewrite sum_all; nia). unfold bore_segments. rewrite !seg_at by auto. auto.
  Qed.

  Lemma block_ext i j f g : (forall x y, In x (ks i) -> In y (ks j) -> f x y = g x y) -> block_mean ls nB i j f = block_mean ls nB i j g.
  Proof. intros H. unfold block_mean. f_equal. apply Rsum_ext_in. intros y Iy. apply Rsum_ext_in. intros x Ix. auto. Qed.
  Lemma block_le i j f g : (i < nE)%nat -> (j < nE)%nat -> (forall x y, In x (ks i) -> In y (ks j) -> f x y <= g x y) -> block_mean ls nB i j f <= block_mean ls nB i j g.
  Proof.
    intros Hi Hj H. assert (L : forall (f g : nat -> R) l, (forall x, In x l -> f x <= g x) -> Rsum (map f l) <= Rsum (map g l)).
    { intros f0 g0 l. induction l as [|z l IH]; intros Q; cbn [map Rsum]; [lra|]. pose proof (Q z (or_introl eq_refl)). specialize (IH (fun x I => Q x (or_intror I))). lra. }
    unfold block_mean. apply Rmult_le_compat_r.
    - left. apply Rinv_0_lt_compat, lt_0_INR. destruct (e_props j Hj) as [N _]. destruct (ks j); [congruence|cbn; lia].
    - apply L. intros y Iy. apply L. intros x Ix. auto.
  Qed.

  Lemma matrix_exact dis uw : field_distances disTol bs = Some dis -> distances_apart disTol bs ->
    exists m, eq_matrix tol E n r dis (kernel_e alpha t) (kernel_v alpha t) = Some m /\
      forall i j a b, (i < nE)%nat -> (j < nE)%nat -> (a < n)%nat -> (b < n)%nat ->
        m (n * j + b)%nat (n * i + a)%nat = block_mean ls nB i j (fun x y => detailed_matrix (line_kernel alpha t uw) bs ns rs (n * y + b)%nat (n * x + a)%nat).
  Proof.
    intros Ed Ap. destruct (matrix_main dis Ed) as [m [Em Vm]]. exists m. split; auto. intros i j a b Hi Hj Hx Hy. rewrite Vm by auto. apply block_ext. intros x y Ix Iy.
    apply in_owner in Ix, Iy. destruct Ix as [X _], Iy as [Y _]. rewrite detailed_at, <- kernel_response by auto. f_equal. destruct (Nat.eqb_spec x y) as [|N]; auto.
    destruct (near_field dis Ed) as [_ [_ [_ Cl]]]. apply (Cl x y X Y N); auto.
  Qed.

  (** with any distances *)
  Lemma matrix_bracket dis : field_distances disTol bs = Some dis -> disTol < 1 ->
    exists m, eq_matrix tol E n r dis (kernel_e alpha t) (kernel_v alpha t) = Some m /\
      forall i j a b, (i < nE)%nat -> (j < nE)%nat -> (a < n)%nat -> (b < n)%nat ->
        let sol c x y := fls t alpha (if Nat.eqb x y then br (b_ x) else c * planar (b_ x) (b_ y)) (bH (sg x a)) (bD (sg x a)) (bH (sg y b)) (bD (sg y b)) true true in
        block_mean ls nB i j (sol (1 + disTol)) <= m (n * j + b)%nat (n * i + a)%nat <= block_mean ls nB i j (sol (1 - disTol)).
  Proof.
    intros Ed L1. destruct (matrix_main dis Ed) as [m [Em Vm]]. exists m. split; auto. intros i j a b Hi Hj Hx Hy sol. rewrite Vm by auto.
    assert (K : forall x y, In x (ks i) -> In y (ks j) ->
      sol (1 + disTol) x y <= kernel_v alpha t (if Nat.eqb x y then br (b_ x) else near dis (planar (b_ x) (b_ y))) (sg x a, sg y b) <= sol (1 - disTol) x y).
    { intros x y Ix Iy. apply in_owner in Ix, Iy. destruct Ix as [X _], Iy as [Y _]. unfold sol, kernel_v. cbn [fst snd]. destruct (Nat.eqb_spec x y) as [|N]; [lra|].
      destruct (near_field dis Ed) as [_ [_ [_ Cl]]]. destruct (Cl x y X Y N) as [P [Q _]]. set (d := planar (b_ x) (b_ y)) in *. set (d' := near dis d) in *.
      destruct (seg_props bs ns rs Vf good_all _ (sg_in x a X Hx)) as [_ [V2 [V3 _]]]. destruct (seg_props bs ns rs Vf good_all _ (sg_in y b Y Hy)) as [_ [W2 [W3 _]]].
      assert (Pd : 0 < d) by (apply Rlt_le_trans with (br (b_ x)); [apply (proj1 Vf), nth_In; auto|apply (proj2 Vf); auto]).
      apply Rabs_def2 in Q. split; left; apply fls_decr; auto; try lra. nra. }
    split; apply block_le; auto; intros x y Ix Iy; apply (K x y Ix Iy).
  Qed.
End Main.
