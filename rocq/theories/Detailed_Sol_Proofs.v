(** The response matrix and the g-function of a field of vertical boreholes. *)
From Verif Require Import Base LinAlg FLS_Model FLS_Spec FLS_Sol_Proofs FLS_Line_Proofs.
From Verif Require Import Bore_Model Net_Model Solve_Model Solve_Spec Solve_Sol_Proofs Detailed_Model Detailed_Spec Detailed_Proofs.

Lemma cos0 x : x = 0 -> cos x = 1. Proof. intros ->. apply cos_0. Qed.
Lemma sin0 x : x = 0 -> sin x = 0. Proof. intros ->. apply sin_0. Qed.

(** segments of a vertical borehole *)
Lemma cut_vertical b r : btilt b = 0 -> forall z,
  Forall2 (fun s c => bD s = fst c /\ bH s = snd c /\ br s = br b /\ bx s = bx b /\ by_ s = by_ b /\ btilt s = 0)
    (map (fun p => let '(z, ratio) := p in
         mk_bore (ratio * bH b) (bD b + z * cos (btilt b)) (br b) (bx b + z * sin (btilt b) * cos (bori b)) (by_ b + z * sin (btilt b) * sin (bori b)) (btilt b) (bori b))
       (combine (removelast (map (fun z => z * bH b) (z :: cumsum_from z r))) r))
    (split_at (bD b + z * bH b) (map (fun x => x * bH b) r)).
Proof.
  intros Ht. induction r as [|x r IH]; intros z.
  - cbn [combine map split_at]. rewrite combine_nil. constructor.
  - change (removelast (map (fun z0 => z0 * bH b) (z :: cumsum_from z (x :: r)))) with (z * bH b :: removelast (map (fun z0 => z0 * bH b) ((z + x) :: cumsum_from (z + x) r))).
    cbn [combine map split_at]. constructor.
    + cbn [mk_bore bD bH br bx by_ btilt fst snd]. rewrite (cos0 _ Ht), (sin0 _ Ht). repeat split; auto; ring.
    + replace (bD b + z * bH b + x * bH b) with (bD b + (z + x) * bH b) by ring. apply IH.
Qed.

Lemma segments_vertical b n r : btilt b = 0 ->
  Forall2 (fun s c => bD s = fst c /\ bH s = snd c /\ br s = br b /\ bx s = bx b /\ by_ s = by_ b /\ btilt s = 0)
    (segments b n (Some r)) (split_at (bD b) (map (fun x => x * bH b) r)).
Proof.
  intros Ht. pose proof (cut_vertical b r Ht 0) as F. rewrite Rmult_0_l, Rplus_0_r in F. exact F.
Qed.

Lemma Forall2_sum {A B} (P : A -> B -> Prop) l l' f g : Forall2 P l l' -> (forall a b, P a b -> f a = g b) -> Rsum (map f l) = Rsum (map g l').
Proof. intros F E. induction F as [|a b l l' Pab F IH]; auto. cbn. rewrite IH, (E a b); auto. Qed.

Lemma Forall2_left {A B} (P : A -> B -> Prop) l l' a : Forall2 P l l' -> In a l -> exists b, In b l' /\ P a b.
Proof. intros F. induction F as [|x y l l' Pxy F IH]; intros []; [subst; exists y; split; auto; left; auto|]. destruct (IH H) as [b [I Q]]. exists b. split; auto. right; auto. Qed.

Lemma split_positive D hs c : In c (split_at D hs) -> In (snd c) hs.
Proof. revert D. induction hs as [|h hs IH]; intros D; cbn; [tauto|]. intros [<-|I]; [left; auto|]. right. eapply IH; eauto. Qed.

Lemma split_depth D hs c : (forall h, In h hs -> 0 < h) -> In c (split_at D hs) -> D <= fst c.
Proof.
  revert D. induction hs as [|h hs IH]; intros D P; cbn; [tauto|]. intros [<-|I]; cbn; [lra|].
  specialize (IH (D + h) (fun x Hx => P x (or_intror Hx)) I). pose proof (P h (or_introl eq_refl)). lra.
Qed.

Lemma Rsum_scaled r h : Rsum (map (fun x => x * h) r) = Rsum r * h.
Proof. induction r; cbn; [ring|]. rewrite IHr. ring. Qed.

Definition place (e r : bore) : Prop := br e = br r /\ bx e = bx r /\ by_ e = by_ r.
Lemma place_distance e r e' r' : place e e' -> place r r' -> Rmax (planar e r) (br e) = Rmax (planar e' r') (br e').
Proof. intros [E1 [E2 E3]] [R1 [R2 R3]]. unfold planar. rewrite E1, E2, E3, R2, R3. auto. Qed.

Section Sums.
  Variables (alpha t : R).
  Hypothesis Ha : 0 < alpha.
  Hypothesis Ht : 0 < t.

  Lemma distance_pos e r : 0 < br e -> Rmax (planar e r) (br e) <> 0.
  Proof. intros P. pose proof (Rmax_r (planar e r) (br e)). lra. Qed.

  Lemma sum_emitter b n rt r : btilt b = 0 -> 0 < br b -> Rsum rt = 1 ->
    Rsum (map (fun e => response alpha t e r) (segments b n (Some rt))) = response alpha t b r.
  Proof.
    intros Hb Hr Hs. rewrite (Forall2_sum _ _ _ _ (fun c => fls t alpha (Rmax (planar b r) (br b)) (snd c) (fst c) (bH r) (bD r) true true) (segments_vertical b n rt Hb)).
    - rewrite <- split_emitter by (auto; apply distance_pos; auto). unfold response. f_equal. rewrite Rsum_scaled, Hs. ring.
    - intros s c [E1 [E2 [E3 [E4 [E5 E6]]]]]. unfold response. rewrite E1, E2. f_equal. apply place_distance; repeat split; auto.
  Qed.

  Lemma sum_receiver b n rt e : btilt b = 0 -> 0 < bH b -> 0 < br e -> Rsum rt = 1 -> (forall x, In x rt -> 0 < x) ->
    Rsum (map (fun r => bH r * response alpha t e r) (segments b n (Some rt))) = bH b * response alpha t e b.
  Proof.
    intros Hb HH Hr Hs Hp. rewrite (Forall2_sum _ _ _ _ (fun c => snd c * fls t alpha (Rmax (planar e b) (br e)) (bH e) (bD e) (snd c) (fst c) true true) (segments_vertical b n rt Hb)).
    - rewrite <- split_receiver; auto.
      + rewrite Rsum_scaled, Hs. rewrite Rmult_1_l. reflexivity.
      + apply distance_pos; auto.
      + rewrite Rsum_scaled, Hs. lra.
      + intros h Hh. apply in_map_iff in Hh. destruct Hh as [x [<- Hx]]. pose proof (Hp x Hx). nra.
    - intros s c [E1 [E2 [E3 [E4 [E5 E6]]]]]. unfold response. rewrite E1, E2. f_equal. f_equal. apply place_distance; repeat split; auto.
  Qed.

  Lemma sum_length b n rt : btilt b = 0 -> Rsum rt = 1 -> Rsum (map bH (segments b n (Some rt))) = bH b.
  Proof.
    intros Hb Hs. rewrite (Forall2_sum _ _ _ _ snd (segments_vertical b n rt Hb)).
    - assert (Q : forall hs D, Rsum (map snd (split_at D hs)) = Rsum hs) by (induction hs; intros; cbn; auto; rewrite IHhs; auto).
      rewrite Q, Rsum_scaled, Hs. ring.
    - intros s c E. apply E.
  Qed.

  Lemma sum_segments (f g : bore -> R) bs ns rs : length ns = length bs -> length rs = length bs ->
    (forall b n rt, In b bs -> In rt rs -> Rsum (map f (segments b n (Some rt))) = g b) ->
    Rsum (map f (borehole_segments bs ns rs)) = Rsum (map g bs).
  Proof.
    revert ns rs. induction bs as [|b bs IH]; intros ns rs L1 L2 E; auto. destruct ns as [|n ns]; [discriminate|]. destruct rs as [|r rs]; [discriminate|].
    cbn [borehole_segments map]. rewrite map_app, Rsum_app. cbn [map]. rewrite (E b n r) by (left; auto).
    rewrite (IH ns rs); [reflexivity|simpl in L1; lia|simpl in L2; lia|]. intros b' n' r' Hb Hr. apply E; right; auto.
  Qed.

  Lemma Rsum_ext_in {A} (f g : A -> R) l : (forall x, In x l -> f x = g x) -> Rsum (map f l) = Rsum (map g l).
  Proof. intros E. f_equal. apply map_ext_in. auto. Qed.

  Lemma Rsum_swap_list {A B} (f : A -> B -> R) l l' : Rsum (map (fun a => Rsum (map (f a) l')) l) = Rsum (map (fun b => Rsum (map (fun a => f a b) l)) l').
  Proof.
    induction l as [|a l IH]; cbn.
    - induction l' as [|b l' IH']; cbn; auto. rewrite <- IH'. ring.
    - rewrite IH. clear IH. induction l' as [|b l' IH']; cbn; [ring|]. rewrite <- IH'. ring.
  Qed.

  (** sums over all the pairs of segments are sums over all the pairs of boreholes *)
  Lemma sum_pairs bs ns rs : length ns = length bs -> length rs = length bs ->
    (forall b, In b bs -> btilt b = 0 /\ 0 < bH b /\ 0 <= bD b /\ 0 < br b) -> good_ratios rs ->
    Rsum (map (fun r => bH r * Rsum (map (fun e => response alpha t e r) (borehole_segments bs ns rs))) (borehole_segments bs ns rs))
    = Rsum (map (fun r => bH r * Rsum (map (fun e => response alpha t e r) bs)) bs).
  Proof.
    intros L1 L2 V G.
    rewrite (Rsum_ext_in _ (fun r => Rsum (map (fun e => bH r * response alpha t e r) bs))).
    2:{ intros r _. rewrite (sum_segments _ (fun e => response alpha t e r)); auto.
        - clear. induction bs; cbn; [ring|]. rewrite <- IHbs. ring.
        - intros b n rt Hb Hr. apply sum_emitter; apply V || apply G; auto. }
    rewrite (Rsum_swap_list (fun r e => bH r * response alpha t e r)).
    rewrite (Rsum_ext_in _ (fun e => Rsum (map (fun r => bH r * response alpha t e r) bs))).
    2:{ intros e He. apply sum_segments; auto. intros b n rt Hb Hr. destruct (V b Hb) as [V1 [V2 [V3 V4]]]. destruct (V e He) as [W1 [W2 [W3 W4]]].
        destruct (G rt Hr) as [G1 G2]. apply sum_receiver; auto. }
    rewrite <- (Rsum_swap_list (fun r e => bH r * response alpha t e r)).
    apply Rsum_ext_in. intros r _. clear. induction bs; cbn; [ring|]. rewrite IHbs. ring.
  Qed.
End Sums.

Lemma in_segments bs ns rs s : In s (borehole_segments bs ns rs) -> exists b n r, In b bs /\ In r rs /\ In s (segments b n (Some r)).
Proof.
  revert ns rs. induction bs as [|b bs IH]; intros [|n ns] [|r rs] I; try destruct I. cbn [borehole_segments] in I. apply in_app_iff in I. destruct I as [I|I].
  - exists b, n, r. split; [left; auto|]. split; [left; auto|auto].
  - destruct (IH _ _ I) as [b' [n' [r' [Q1 [Q2 Q3]]]]]. exists b', n', r'. split; [right; auto|]. split; [right; auto|auto].
Qed.

Section Field.
  Variables (bs : list bore) (ns : list nat) (rs : list (list R)).
  Hypothesis W : segmented bs ns rs.
  Hypothesis V : vertical_field bs.
  Hypothesis G : good_ratios rs.
  Local Notation seg k := (nth k (bore_segments bs ns rs) no_bore).

  Lemma seg_props s : In s (borehole_segments bs ns rs) -> btilt s = 0 /\ 0 < bH s /\ 0 <= bD s /\ 0 < br s.
  Proof.
    intros I. destruct (in_segments _ _ _ _ I) as [b [n [r [Hb [Hr Hs]]]]]. destruct (proj1 V b Hb) as [V1 [V2 [V3 V4]]]. destruct (G r Hr) as [G1 G2].
    destruct (Forall2_left _ _ _ s (segments_vertical b n r V1) Hs) as [c [Hc [E1 [E2 [E3 [E4 [E5 E6]]]]]]].
    assert (P : forall h, In h (map (fun x => x * bH b) r) -> 0 < h). { intros h Hh. apply in_map_iff in Hh. destruct Hh as [x [<- Hx]]. pose proof (G2 x Hx). nra. }
    rewrite E1, E2, E3. split; auto. split; [apply P; eapply split_positive; eauto|]. split; auto.
    pose proof (split_depth _ _ _ P Hc). lra.
  Qed.

  Lemma seg_in k : (k < list_sum ns)%nat -> In (seg k) (borehole_segments bs ns rs).
  Proof. intros Hk. apply nth_In. rewrite (proj1 (segments_all bs ns rs W)). auto. Qed.

  Lemma all_vertical : forallb vertical (borehole_segments bs ns rs) = true /\ forallb vertical bs = true.
  Proof.
    assert (Q : forall b, btilt b = 0 -> vertical b = true).
    { intros b E. unfold vertical, tilted. rewrite E, Rabs_R0. destruct (Rltb (/ 10 ^ 6) 0) eqn:X; auto. apply Rltb_true in X.
      pose proof (Rinv_0_lt_compat (10 ^ 6) ltac:(lra)). lra. }
    split; apply forallb_forall; intros b Hb; apply Q; [apply (seg_props b Hb)|apply (proj1 V b Hb)].
  Qed.

  Lemma block_true a : block_vertical bs ns rs a = true.
  Proof.
    destruct all_vertical as [A _]. rewrite forallb_forall in A. unfold block_vertical. apply andb_true_iff.
    split; apply forallb_forall; intros b Hb; apply A; unfold bore_segments in Hb.
    - rewrite <- (firstn_skipn (first ns (S a)) (borehole_segments bs ns rs)). apply in_or_app. right; auto.
    - unfold slice in Hb. apply (in_or_app) with (l := firstn (first ns a) (borehole_segments bs ns rs)) (m := skipn (first ns a) (borehole_segments bs ns rs)) in Hb || idtac.
      assert (I : In b (skipn (first ns a) (borehole_segments bs ns rs))).
      { rewrite <- (firstn_skipn (first ns (S a) - first ns a) (skipn (first ns a) (borehole_segments bs ns rs))). apply in_or_app. left; auto. }
      rewrite <- (firstn_skipn (first ns a) (borehole_segments bs ns rs)). apply in_or_app. right; auto.
  Qed.

  Lemma seg_place b k : (b < length bs)%nat -> owns ns b k -> place (seg k) (nth b bs no_bore).
  Proof.
    intros Hb [O1 O2]. destruct W as [L1 [L2 L3]]. destruct (segments_all bs ns rs W) as [_ N].
    specialize (N b (k - first ns b)%nat Hb ltac:(lia)). replace (first ns b + (k - first ns b))%nat with k in N by lia. unfold bore_segments. rewrite N.
    assert (I : In (nth b bs no_bore) bs) by (apply nth_In; auto). destruct (proj1 V _ I) as [V1 _].
    assert (Is : In (nth (k - first ns b) (segments (nth b bs no_bore) (nth b ns O) (Some (nth b rs []))) no_bore) (segments (nth b bs no_bore) (nth b ns O) (Some (nth b rs [])))).
    { apply nth_In. rewrite segments_length, L3 by auto. lia. }
    destruct (Forall2_left _ _ _ _ (segments_vertical _ _ _ V1) Is) as [c [_ [E1 [E2 [E3 [E4 [E5 E6]]]]]]]. repeat split; auto.
  Qed.

  Lemma planar_sym a b : planar a b = planar b a.
  Proof. unfold planar. f_equal. ring. Qed.

  Lemma matrix_response alpha t uw r c : (r < list_sum ns)%nat -> (c < list_sum ns)%nat ->
    detailed_matrix (line_kernel alpha t uw) bs ns rs r c = response alpha t (seg c) (seg r).
  Proof.
    intros Hr Hc. destruct W as [L1 [L2 L3]]. destruct (owner_exists ns r Hr) as [a [Ha Oa]]. destruct (owner_exists ns c Hc) as [b [Hb Ob]].
    rewrite L1 in Ha, Hb. destruct (seg_props _ (seg_in r Hr)) as [Sr1 [Sr2 [Sr3 Sr4]]]. destruct (seg_props _ (seg_in c Hc)) as [Sc1 [Sc2 [Sc3 Sc4]]].
    pose proof (seg_place a r Ha Oa) as Pa. pose proof (seg_place b c Hb Ob) as Pb.
    destruct (Nat.lt_trichotomy a b) as [L|[->|L]].
    - destruct (matrix_upper (line_kernel alpha t uw) bs ns rs W a b r c L Hb Oa Ob) as [M _]. rewrite M, block_true. reflexivity.
    - rewrite (matrix_self (line_kernel alpha t uw) bs ns rs W b r c Hb Oa Ob). rewrite (proj2 all_vertical). reflexivity.
    - destruct (matrix_upper (line_kernel alpha t uw) bs ns rs W b a c r L Ha Ob Oa) as [_ M]. rewrite M, block_true. cbn [line_kernel]. unfold response.
      assert (D : Rmax (planar (seg r) (seg c)) (br (seg r)) = Rmax (planar (seg c) (seg r)) (br (seg c))).
      { rewrite (place_distance _ _ _ _ Pa Pb), (place_distance _ _ _ _ Pb Pa). pose proof (proj2 V a b Ha Hb ltac:(lia)) as Q1. pose proof (proj2 V b a Hb Ha ltac:(lia)) as Q2.
        rewrite !Rmax_left by auto. apply planar_sym. }
      rewrite D. set (d := Rmax (planar (seg c) (seg r)) (br (seg c))).
      pose proof (recip_transient t alpha d (bH (seg r)) (bD (seg r)) (bH (seg c)) (bD (seg c)) true true ltac:(lra) ltac:(lra)) as RT.
      apply (Rmult_eq_reg_l (bH (seg r))); [|lra]. rewrite <- RT. field. lra.
  Qed.

  Lemma sumn_list {A} (d : A) (f : A -> R) l : sumn (length l) (fun i => f (nth i l d)) = Rsum (map f l).
  Proof.
    induction l as [|x l IH]; auto. cbn [length]. rewrite sumn_S_l. cbn [nth map]. rewrite IH. reflexivity.
  Qed.

  Lemma uhtr_field alpha uw time k : 0 < alpha -> positive time -> (k < length time)%nat ->
    nth k (fst (solve_uhtr (n_sources bs ns rs) (segment_length bs ns rs) (detailed_trf alpha uw bs ns rs) time 0)) 0 = field_mean alpha (nth k time 0) bs.
  Proof.
    intros Ha P Hk. pose proof (uhtr_values (n_sources bs ns rs) (segment_length bs ns rs) (detailed_trf alpha uw bs ns rs) time k P Hk) as U.
    destruct (solve_uhtr (n_sources bs ns rs) (segment_length bs ns rs) (detailed_trf alpha uw bs ns rs) time 0) as [g T]. destruct U as [UT UG]. cbn [fst]. rewrite UG.
    destruct W as [L1 [L2 L3]]. destruct (segments_all bs ns rs W) as [LS _]. set (t := nth k time 0). assert (Ht : 0 < t) by (apply P, nth_In; auto).
    unfold field_mean. f_equal.
    - rewrite <- (sum_pairs alpha t Ha Ht bs ns rs L1 L2 (proj1 V) G).
      rewrite <- (sumn_list no_bore (fun r => bH r * Rsum (map (fun e => response alpha t e r) (borehole_segments bs ns rs)))).
      apply sumn_ext. intros i Hi. change (n_sources bs ns rs) with (length (borehole_segments bs ns rs)) in Hi. rewrite LS in Hi. unfold segment_length. unfold bore_segments. f_equal. rewrite UT.
      rewrite <- (sumn_list no_bore (fun e => response alpha t e _)). apply sumn_ext. intros j Hj. unfold detailed_trf. fold t.
      change (n_sources bs ns rs) with (length (borehole_segments bs ns rs)) in Hj. rewrite LS in Hj. apply matrix_response; auto.
    - unfold segment_length, n_sources, bore_segments. change (Bore 0 0 0 0 0 0 0) with no_bore. rewrite (sumn_list no_bore bH).
      apply (sum_segments bH bH); auto. intros b n rt Hb Hr. apply sum_length; [apply (proj1 V b Hb)|apply (G rt Hr)].
  Qed.
End Field.

(** the mean response of a field *)
Lemma field_length bs : bs <> [] -> (forall b, In b bs -> 0 < bH b) -> 0 < Rsum (map bH bs).
Proof.
  destruct bs as [|b bs]; [congruence|]. intros _ P. cbn. pose proof (P b (or_introl eq_refl)).
  assert (0 <= Rsum (map bH bs)); [|lra]. assert (Q : forall x, In x bs -> 0 < bH x) by (intros; apply P; right; auto). clear -Q.
  induction bs as [|c bs IH]; cbn; [lra|]. pose proof (Q c (or_introl eq_refl)). specialize (IH (fun x Hx => Q x (or_intror Hx))). lra.
Qed.

Lemma Rsum_lt {A} (f g : A -> R) l : l <> [] -> (forall x, In x l -> f x < g x) -> Rsum (map f l) < Rsum (map g l).
Proof.
  destruct l as [|a l]; [congruence|]. intros _ E. cbn. pose proof (E a (or_introl eq_refl)).
  assert (Rsum (map f l) <= Rsum (map g l)); [|lra]. assert (Q : forall x, In x l -> f x < g x) by (intros; apply E; right; auto). clear -Q.
  induction l as [|c l IH]; cbn; [lra|]. pose proof (Q c (or_introl eq_refl)). specialize (IH (fun x Hx => Q x (or_intror Hx))). lra.
Qed.

Lemma field_mean_pos alpha t bs : 0 < alpha -> 0 < t -> bs <> [] -> (forall b, In b bs -> btilt b = 0 /\ 0 < bH b /\ 0 <= bD b /\ 0 < br b) -> 0 < field_mean alpha t bs.
Proof.
  intros Ha Ht N V. unfold field_mean. apply Rdiv_lt_0_compat; [|apply field_length; auto; intros b Hb; apply (V b Hb)].
  replace 0 with (Rsum (map (fun _ : bore => 0) bs)) by (clear; induction bs; cbn; auto; rewrite IHbs; ring).
  apply Rsum_lt; auto. intros r Hr. destruct (V r Hr) as [V1 [V2 [V3 V4]]]. apply Rmult_lt_0_compat; auto.
  replace 0 with (Rsum (map (fun _ : bore => 0) bs)) by (clear; induction bs; cbn; auto; rewrite IHbs; ring).
  apply Rsum_lt; auto. intros e He. destruct (V e He) as [W1 [W2 [W3 W4]]]. unfold response. apply fls_pos; auto. apply distance_pos; auto.
Qed.

Lemma field_mean_incr alpha t1 t2 bs : 0 < alpha -> 0 < t1 -> t1 < t2 -> bs <> [] -> (forall b, In b bs -> btilt b = 0 /\ 0 < bH b /\ 0 <= bD b /\ 0 < br b) ->
  field_mean alpha t1 bs < field_mean alpha t2 bs.
Proof.
  intros Ha Ht Ht2 N V. unfold field_mean. apply Rmult_lt_compat_r; [apply Rinv_0_lt_compat, field_length; auto; intros b Hb; apply (V b Hb)|].
  apply Rsum_lt; auto. intros r Hr. destruct (V r Hr) as [V1 [V2 [V3 V4]]]. apply Rmult_lt_compat_l; auto.
  apply Rsum_lt; auto. intros e He. destruct (V e He) as [W1 [W2 [W3 W4]]]. unfold response. apply fls_incr; auto. apply distance_pos; auto.
Qed.
