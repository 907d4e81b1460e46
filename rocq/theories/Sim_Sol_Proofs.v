(** The response matrix of the similarities solver for vertical boreholes. *)
From Verif Require Import Base LinAlg FLS_Model FLS_Spec FLS_Sol_Proofs.
From Verif Require Import Bore_Model Solve_Model Detailed_Model Detailed_Spec Detailed_Proofs Detailed_Sol_Proofs.
From Verif Require Import Sim_Model Sim_Spec Sim_Dist_Proofs Sim_Group_Proofs Sim_Cells_Proofs Sim_Matrix_Proofs Sim_Exact_Proofs.

Lemma Forall2_nth {A B} (P : A -> B -> Prop) l l' k da db : Forall2 P l l' -> (k < length l)%nat -> P (nth k l da) (nth k l' db).
Proof. intros F. revert k. induction F as [|a b l l' H F IH]; intros k Hk; [cbn in Hk; lia|]. destruct k as [|k]; cbn [nth]; auto. apply IH. cbn in Hk. lia. Qed.

Section Vertical.
  Variables (alpha t tol disTol u M : R) (bs : list bore) (ns : list nat) (rs : list (list R)) (ki : pair -> R).
  Hypothesis W : segmented bs ns rs.
  Hypothesis V : vertical_field bs.
  Hypothesis G : good_ratios rs.
  Hypothesis Gr : on_grid tol u M bs ns rs.
  Hypothesis Ra : radii_apart tol bs.
  Hypothesis Rt : ratios_apart tol rs.
  Hypothesis Hd : 0 < disTol.
  Hypothesis Ne : (0 < length bs)%nat.
  Local Notation nB := (length bs).
  Local Notation b_ i := (nth i bs no_bore).
  Local Notation n_ i := (nth i ns 0%nat).
  Local Notation r_ i := (nth i rs []).
  Local Notation sg := (sg bs ns rs).
  Local Notation seg k := (nth k (borehole_segments bs ns rs) no_bore).
  Local Notation kv := (kernel_v alpha t).
  Local Notation sized := (sized u M).

  Lemma b_in i : (i < nB)%nat -> In (b_ i) bs. Proof. apply nth_In. Qed.
  Lemma sized_b i : (i < nB)%nat -> sized (b_ i).
  Proof.
    intros Hi. destruct Gr as [_ [_ [_ Q]]]. destruct (Q (b_ i)) as [Q1 [Q2 [Q3 Q4]]]; [apply in_or_app; left; apply b_in; auto|].
    destruct (proj1 V _ (b_in i Hi)) as [_ [V2 [V3 _]]]. repeat split; auto.
  Qed.
  Lemma sg_seg i a : (i < nB)%nat -> (a < n_ i)%nat -> seg (first ns i + a) = sg i a /\ (first ns i + a < list_sum ns)%nat /\ owns ns i (first ns i + a).
  Proof.
    intros Hi Ha. destruct (segments_all bs ns rs W) as [L N]. split; [apply N; auto|]. destruct W as [L1 _]. pose proof (first_le ns i ltac:(lia)). split; [lia|].
    unfold owns. lia.
  Qed.
  Lemma sized_sg i a : (i < nB)%nat -> (a < n_ i)%nat -> sized (sg i a).
  Proof.
    intros Hi Ha. destruct (sg_seg i a Hi Ha) as [<- [Hs _]]. destruct (segments_all bs ns rs W) as [L _].
    assert (I : In (seg (first ns i + a)) (borehole_segments bs ns rs)) by (apply nth_In; rewrite L; auto).
    destruct Gr as [_ [_ [_ Q]]]. destruct (Q _ (in_or_app bs _ _ (or_intror I))) as [Q1 [Q2 [Q3 Q4]]].
    destruct (seg_props bs ns rs V G _ I) as [_ [V2 [V3 _]]]. repeat split; auto.
  Qed.
  Lemma r_in i : (i < nB)%nat -> In (r_ i) rs. Proof. intros Hi. apply nth_In. destruct W as [_ [L _]]. lia. Qed.
  Lemma n_pos i : (i < nB)%nat -> (0 < n_ i)%nat.
  Proof.
    intros Hi. destruct W as [_ [_ L]]. rewrite <- L by auto. destruct (G _ (r_in i Hi)) as [S _]. destruct (r_ i); [cbn in S; lra|cbn; lia].
  Qed.

  Lemma close_ratios rtol i m : (i < nB)%nat -> (m < nB)%nat -> n_ i = n_ m -> rtol <= Rmax tol (/ 10 ^ 5) -> allclose rtol (r_ i) (r_ m) = true -> r_ i = r_ m.
  Proof.
    intros Hi Hm En Hr H. destruct W as [_ [_ L]]. assert (EL : length (r_ i) = length (r_ m)) by (rewrite !L by auto; auto).
    apply (proj1 Rt); auto using r_in. intros k Hk. pose proof (allclose_spec _ _ _ H EL k Hk) as Q. pose proof (Rabs_pos (nth k (r_ m) 0)). nra.
  Qed.
  Lemma same_ratios i m : (i < nB)%nat -> (m < nB)%nat -> equal_ratios ns rs = true \/ same_split tol ns rs i m = true -> n_ i = n_ m /\ r_ i = r_ m.
  Proof.
    intros Hi Hm [E|E].
    - unfold equal_ratios in E. apply andb_true_iff in E. rewrite !forallb_forall in E. destruct E as [E1 E2]. destruct W as [L1 [L2 _]].
      assert (N : forall k, (k < nB)%nat -> n_ k = n_ 0) by (intros k Hk; apply Nat.eqb_eq, E1, nth_In; lia).
      assert (R : forall k, (k < nB)%nat -> r_ k = r_ 0).
      { intros k Hk. apply (close_ratios (/ 10 ^ 5)); auto; [apply Rmax_r|]. apply E2, r_in; auto. }
      rewrite (N i), (N m), (R i), (R m) by auto. auto.
    - unfold same_split in E. apply andb_true_iff in E. destruct E as [E1 E2]. apply Nat.eqb_eq in E1. split; auto.
      apply (close_ratios tol); auto. apply Rmax_l.
  Qed.

  Lemma same_dims i m : (i < nB)%nat -> (m < nB)%nat -> bH (b_ i) = bH (b_ m) -> bD (b_ i) = bD (b_ m) -> n_ i = n_ m -> r_ i = r_ m ->
    forall k, (k < n_ i)%nat -> bH (sg i k) = bH (sg m k) /\ bD (sg i k) = bD (sg m k).
  Proof.
    intros Hi Hm EH ED En Er k Hk. destruct W as [_ [_ L]].
    assert (Q : forall j, (j < nB)%nat -> (k < n_ j)%nat -> let c := nth k (split_at (bD (b_ j)) (map (fun x => x * bH (b_ j)) (r_ j))) (0, 0) in bD (sg j k) = fst c /\ bH (sg j k) = snd c).
    { intros j Hj Hkj. destruct (proj1 V _ (b_in j Hj)) as [V1 _].
      destruct (Forall2_nth _ _ _ k no_bore (0, 0) (segments_vertical (b_ j) (n_ j) (r_ j) V1)) as [Q1 [Q2 _]]; [rewrite segments_length, L; auto|]. split; auto. }
    destruct (Q i Hi Hk) as [I1 I2]. destruct (Q m Hm ltac:(lia)) as [M1 M2]. rewrite I1, I2, M1, M2, EH, ED, Er. auto.
  Qed.

  Lemma kv_dims d e r e' r' : bH e = bH e' -> bD e = bD e' -> bH r = bH r' -> bD r = bD r' -> kv d (e, r) = kv d (e', r').
  Proof. intros E1 E2 E3 E4. unfold kernel_v. cbn [fst snd]. rewrite E1, E2, E3, E4. auto. Qed.

  Lemma similar_value i j U kp d a b : (i < nB)%nat -> (j < nB)%nat -> map_pairs bs ns rs (compare_vertical tol) i j = (U, kp) -> (a < n_ i)%nat -> (b < n_ j)%nat ->
    let p := nth (nth (a * n_ j + b) kp O) U no_pair in
    (nth (a * n_ j + b) kp O < length U)%nat /\ sized (fst p) /\ sized (snd p) /\ (exists a' b', (a' < n_ i)%nat /\ (b' < n_ j)%nat /\ p = (sg i a', sg j b')) /\
    kv d p = kv d (sg i a, sg j b) /\ bH (fst p) = bH (sg i a) /\ bH (snd p) = bH (sg j b).
  Proof.
    intros Hi Hj E Ha Hb p. destruct (map_pairs_spec bs ns rs W _ _ _ _ _ Hi Hj E) as [Lk [IU [Sp _]]]. destruct (Sp a b Ha Hb) as [Hk Q]. fold p in Q.
    assert (Ip : In p U) by (apply nth_In; auto). destruct (IU p Ip) as [a' [b' [Ha' [Hb' Ep]]]].
    assert (S1 : sized (fst p)) by (rewrite Ep; apply sized_sg; auto). assert (S2 : sized (snd p)) by (rewrite Ep; apply sized_sg; auto).
    split; auto. split; auto. split; auto. split; [exists a', b'; auto|]. destruct Q as [->|Q]; auto.
    destruct Gr as [G1 [G2 [G3 _]]].
    destruct (kernel_similar tol u M G1 G2 G3 alpha t d (sg i a, sg j b) p (sized_sg i a Hi Ha) (sized_sg j b Hj Hb) S1 S2 Q) as [K [E1 E2]]. auto.
  Qed.

  (** what an entry has to be: the solution of the same pair of segments of the first
      pair of boreholes of the group *)
  Definition src (r c : nat) (v : R) : Prop :=
    exists g p i j a b d, In g (fst (pair_groups tol disTol bs ns rs)) /\ In p g /\ hd (O, O) g = (i, j) /\ (a < n_ i)%nat /\ (b < n_ j)%nat /\
      class_mean disTol (field_distance bs) (planar (b_ (fst p)) (b_ (snd p))) d /\
      ((r = (first ns (snd p) + b)%nat /\ c = (first ns (fst p) + a)%nat /\ v = kv d (sg i a, sg j b)) \/
       (r = (first ns (fst p) + a)%nat /\ c = (first ns (snd p) + b)%nat /\ v = kv d (sg j b, sg i a))).
  Definition entry (r c : nat) (v : R) : Prop :=
    forall a b, (a < nB)%nat -> (b < nB)%nat -> owns ns a r -> owns ns b c ->
      (a = b -> v = kv (br (b_ a)) (seg c, seg r)) /\ (a <> b -> src r c v).

  Lemma entry_self n a b v : (n < nB)%nat -> (a < n_ n)%nat -> (b < n_ n)%nat -> v = kv (br (b_ n)) (sg n a, sg n b) ->
    entry (first ns n + b) (first ns n + a) v.
  Proof.
    intros Hn Ha Hb ->. destruct (sg_seg n a Hn Ha) as [E1 [_ O1]]. destruct (sg_seg n b Hn Hb) as [E2 [_ O2]]. destruct W as [L1 _].
    intros a' b' Ha' Hb' Oa Ob. assert (a' = n) by (apply (owner_unique ns a' n (first ns n + b)); auto; lia). assert (b' = n) by (apply (owner_unique ns b' n (first ns n + a)); auto; lia). subst.
    rewrite E1, E2. split; auto. intros []; auto.
  Qed.
  Lemma entry_src i j a b v : (i < nB)%nat -> (j < nB)%nat -> i <> j -> (a < n_ i)%nat -> (b < n_ j)%nat -> src (first ns j + b) (first ns i + a) v ->
    entry (first ns j + b) (first ns i + a) v.
  Proof.
    intros Hi Hj Nij Ha Hb Hs. destruct (sg_seg i a Hi Ha) as [_ [_ O1]]. destruct (sg_seg j b Hj Hb) as [_ [_ O2]]. destruct W as [L1 _].
    intros a' b' Ha' Hb' Oa Ob. assert (a' = j) by (apply (owner_unique ns a' j (first ns j + b)); auto; lia). assert (b' = i) by (apply (owner_unique ns b' i (first ns i + a)); auto; lia). subst.
    split; [intros E; congruence|auto].
  Qed.

  (** same-borehole interactions *)
  Definition self_inv (done : list (list nat)) (s : self_data) : Prop :=
    balanced s /\ s_k0 s = length (s_dp s) /\
    (forall r c k, In ((r, c), k) (cells s) -> (k < length (s_dp s))%nat /\ entry r c (kv (fst (nth k (s_dp s) (0, no_pair))) (snd (nth k (s_dp s) (0, no_pair))))) /\
    (forall n a b, In n (concat done) -> (a < n_ n)%nat -> (b < n_ n)%nat -> exists k, In ((first ns n + b, first ns n + a)%nat, k) (cells s)).

  Lemma self_inv_step done s group : self_inv done s -> grouped (self_rel tol bs ns rs) group -> (forall n, In n group -> (n < nB)%nat) ->
    self_inv (done ++ [group]) (self_vertical_step tol bs ns rs s group).
  Proof.
    intros [B [K0 [Ce Cov]]] [h [tl [-> Rel]]] Rg. assert (Hh : (h < nB)%nat) by (apply Rg; left; auto).
    unfold self_vertical_step. cbn [hd]. destruct (map_pairs bs ns rs (compare_vertical tol) h h) as [U kp] eqn:E.
    destruct (map_pairs_spec bs ns rs W _ _ _ _ _ Hh Hh E) as [Lk [IU [Sp Mx]]]. set (ps := map (fun n => (n, n)) (h :: tl)).
    change (Bore 0 0 0 0 0 0 0) with no_bore. change (mkself _ _ _ _ _) with (gen_step bs ns s (br (b_ h)) U kp h h (list_max kp + 1) ps).
    rewrite Mx by (apply n_pos; auto). set (s' := gen_step bs ns s (br (b_ h)) U kp h h (length U) ps).
    assert (Rp : forall p, In p ps -> (fst p < nB)%nat /\ (snd p < nB)%nat) by (intros p Hp; apply in_map_iff in Hp; destruct Hp as [n [<- Hn]]; cbn; auto).
    destruct (gen_step_cells bs ns s (br (b_ h)) U kp h h (length U) ps B Lk Rp) as [B' C']. fold s' in B', C'.
    assert (Ld : length (s_dp s') = (length (s_dp s) + length U)%nat) by (cbn [s' gen_step s_dp]; rewrite app_length, map_length; auto).
    assert (Dn : forall n, In n (h :: tl) -> n_ n = n_ h /\ br (b_ n) = br (b_ h) /\ forall k, (k < n_ h)%nat -> bH (sg h k) = bH (sg n k) /\ bD (sg h k) = bD (sg n k)).
    { intros n [<-|Hn]; auto. assert (Hr : (n < nB)%nat) by (apply Rg; right; auto). destruct (Rel n Hn) as [Cb Sr]. destruct Gr as [G1 [G2 [G3 _]]].
      destruct (proj1 V _ (b_in n Hr)) as [_ [_ [_ V4]]].
      destruct (compare_b_exact tol u M G1 G2 G3 (b_ n) (b_ h) (sized_b n Hr) (sized_b h Hh) V4 Cb) as [E1 [E2 E3]]. destruct (same_ratios n h Hr Hh Sr) as [S1 S2].
      split; auto. split; [apply Ra; auto using b_in|]. apply same_dims; auto. }
    assert (Np : forall q, (q < length ps)%nat -> exists n, In n (h :: tl) /\ nth q ps (O, O) = (n, n)).
    { intros q Hq. unfold ps in *. rewrite map_length in Hq. exists (nth q (h :: tl) O). split; [apply nth_In; auto|]. rewrite (nth_map _ _ _ O) by auto. auto. }
    split; auto. split; [|split].
    - cbn [s' gen_step s_k0]. rewrite Ld. lia.
    - intros r c k Hk. apply C' in Hk. destruct Hk as [Hk|[q [a [b [Hq [Ha [Hb [-> [-> ->]]]]]]]]].
      + destruct (Ce r c k Hk) as [L1 Q]. split; [lia|]. cbn [s' gen_step s_dp]. rewrite app_nth1 by auto. auto.
      + destruct (similar_value h h U kp (br (b_ h)) a b Hh Hh E Ha Hb) as [Lk2 [_ [_ [_ [Kv _]]]]]. split; [lia|].
        cbn [s' gen_step s_dp]. rewrite app_nth2 by lia. replace (nth (a * n_ h + b) kp O + s_k0 s - length (s_dp s))%nat with (nth (a * n_ h + b) kp O) by lia.
        rewrite (nth_map _ _ _ no_pair) by auto. cbn [fst snd]. destruct (Np q Hq) as [n [Hn ->]]. cbn [fst snd]. destruct (Dn n Hn) as [D1 [D2 D3]].
        apply (entry_self n a b); auto; try lia. rewrite Kv, D2. apply kv_dims; apply D3; auto.
    - intros n a b Hn Ha Hb. rewrite concat_app in Hn. apply in_app_or in Hn. destruct Hn as [Hn|Hn].
      + destruct (Cov n a b Hn Ha Hb) as [k Hk]. exists k. apply C'. auto.
      + cbn [concat] in Hn. rewrite app_nil_r in Hn. destruct (Dn n Hn) as [D1 _]. destruct (In_nth _ _ O Hn) as [q [Hq Eq]].
        exists (nth (a * n_ h + b) kp O + s_k0 s)%nat. apply C'. right. exists q, a, b. unfold ps. rewrite map_length. rewrite (nth_map _ _ _ O) by auto. rewrite Eq. cbn [fst snd].
        rewrite <- D1. auto 10.
  Qed.

  Lemma self_inv_all groups : Forall (grouped (self_rel tol bs ns rs)) groups -> (forall n, In n (concat groups) -> (n < nB)%nat) ->
    self_inv groups (fold_left (self_vertical_step tol bs ns rs) groups (mkself [] [] [] [] 0)).
  Proof.
    intros F Rg. assert (Q : forall l done s, Forall (grouped (self_rel tol bs ns rs)) l -> (forall n, In n (concat l) -> (n < nB)%nat) -> self_inv done s ->
      self_inv (done ++ l) (fold_left (self_vertical_step tol bs ns rs) l s)).
    { induction l as [|g l IH]; intros done s F' R' I; [rewrite app_nil_r; auto|]. inversion F'; subst. cbn [fold_left].
      replace (done ++ g :: l) with ((done ++ [g]) ++ l) by (rewrite <- app_assoc; auto). apply IH; auto.
      - intros n Hn. apply R'. cbn [concat]. apply in_or_app; auto.
      - apply self_inv_step; auto. intros n Hn. apply R'. cbn [concat]. apply in_or_app; auto. }
    apply (Q groups []); auto. split; [split; auto|]. split; auto. split; [intros r c k []|intros n a b []].
  Qed.

  (** pairs of boreholes *)
  Definition pair_inv (done : list (nat * nat)) (m : Mx) : Prop :=
    (forall n r c, (n < nB)%nat -> owns ns n r -> owns ns n c -> entry r c (m r c)) /\
    (forall i j r c, In (i, j) done -> owns ns i r -> owns ns j c -> entry r c (m r c) /\ entry c r (m c r)).

  Lemma uniform_lengths i j a b : (i < nB)%nat -> (j < nB)%nat -> bH (b_ j) = bH (b_ i) -> n_ i = n_ j -> uniform_ratios (r_ i) = true -> uniform_ratios (r_ j) = true ->
    (a < n_ i)%nat -> (b < n_ j)%nat -> bH (sg i a) = bH (sg j b).
  Proof.
    intros Hi Hj EH En U1 U2 Ha Hb. destruct W as [_ [_ L]].
    assert (Un : forall k, (k < nB)%nat -> uniform_ratios (r_ k) = true -> forall m, (m < n_ k)%nat -> nth m (r_ k) 0 = / INR (n_ k)).
    { intros k Hk Hu. assert (Eq : forall m, (m < length (r_ k))%nat -> nth m (r_ k) 0 = nth 0 (r_ k) 0).
      { apply (proj2 Rt); [apply r_in; auto|]. intros m Hm. unfold uniform_ratios in Hu.
        pose proof (allclose_spec _ _ _ Hu ltac:(rewrite repeat_length; auto) m Hm) as Q.
        assert (Hr : forall (x : R) n k, (k < n)%nat -> nth k (repeat x n) 0 = x) by (induction n; intros [|q] Hq; cbn; auto; try lia; apply IHn; lia).
        rewrite Hr in Q by auto. destruct (r_ k) as [|x l]; [cbn in Hm; lia|]. cbn [hd] in Q. cbn [nth]. exact Q. }
      intros m Hm. assert (Ev : Rsum (r_ k) = INR (n_ k) * nth 0 (r_ k) 0).
      { rewrite <- (L k Hk). clear - Eq. set (x := nth 0 (r_ k) 0) in *. clearbody x. induction (r_ k) as [|y l IH]; [cbn; ring|].
        change (length (y :: l)) with (S (length l)). rewrite S_INR. cbn [Rsum fold_right]. fold (Rsum l). rewrite IH by (intros m Hm; apply (Eq (S m)); cbn; lia).
        pose proof (Eq O ltac:(cbn; lia)) as E0. cbn [nth] in E0. rewrite E0. ring. }
      destruct (G _ (r_in k Hk)) as [S1 _]. rewrite S1 in Ev. rewrite Eq by (rewrite L; auto).
      assert (0 < INR (n_ k)) by (apply lt_0_INR, n_pos; auto). apply (Rmult_eq_reg_l (INR (n_ k))); [|lra]. rewrite <- Ev, Rinv_r by lra. auto. }
    assert (Q : forall k m, (k < nB)%nat -> (m < n_ k)%nat -> bH (sg k m) = nth m (r_ k) 0 * bH (b_ k)).
    { intros k m Hk Hm. destruct (proj1 V _ (b_in k Hk)) as [V1 _].
      destruct (Forall2_nth _ _ _ m no_bore (0, 0) (segments_vertical (b_ k) (n_ k) (r_ k) V1)) as [_ [Q2 _]]; [rewrite segments_length, L; auto|].
      change (bH (sg k m) = snd (nth m (split_at (bD (b_ k)) (map (fun x => x * bH (b_ k)) (r_ k))) (0, 0))) in Q2. rewrite Q2.
      assert (Sa : forall l D n, (n < length l)%nat -> snd (nth n (split_at D l) (0, 0)) = nth n l 0).
      { induction l as [|x l IH]; intros D n Hn; [cbn in Hn; lia|]. destruct n as [|n]; cbn; auto. apply IH. cbn in Hn. lia. }
      rewrite Sa by (rewrite map_length, L; auto). rewrite (nth_map _ _ _ 0) by (rewrite L; auto). auto. }
    rewrite (Q i a), (Q j b) by auto. rewrite (Un i Hi U1 a), (Un j Hj U2 b) by auto. rewrite En, EH. auto.
  Qed.

  Lemma pair_step_inv done m ps : pair_inv done m -> In ps (fst (pair_groups tol disTol bs ns rs)) -> grouped (pair_rel tol bs ns rs (compare_vertical tol)) ps ->
    (forall p, In p ps -> (fst p < nB)%nat /\ (snd p < nB)%nat /\ fst p <> snd p) ->
    exists m', pair_vertical_step tol disTol bs ns rs kv (Some m) ps = Some m' /\ pair_inv (done ++ ps) m'.
  Proof.
    intros [I1 I2] Ig [[i j] [tl [-> Rel]]] Rg. set (ps := (i, j) :: tl) in *. destruct (Rg (i, j) (or_introl eq_refl)) as [Hi [Hj Nij]]. cbn [fst snd] in Hi, Hj, Nij.
    unfold pair_vertical_step. change (hd (O, O) ps) with (i, j). cbv iota beta. change (Bore 0 0 0 0 0 0 0) with no_bore.
    set (ds := map (fun p => Rmax (planar (b_ (fst p)) (b_ (snd p))) (br (b_ (fst p)))) ps).
    assert (Dpl : forall p, In p ps -> Rmax (planar (b_ (fst p)) (b_ (snd p))) (br (b_ (fst p))) = planar (b_ (fst p)) (b_ (snd p))).
    { intros p Hp. destruct (Rg p Hp) as [R1 [R2 R3]]. apply Rmax_left. apply (proj2 V); auto. }
    assert (Pos : forall x, In x ds -> 0 < x).
    { intros x Hx. unfold ds in Hx. apply in_map_iff in Hx. destruct Hx as [p [<- Hp]]. destruct (Rg p Hp) as [R1 _].
      eapply Rlt_le_trans; [|apply Rmax_r]. apply (proj1 V _ (b_in _ R1)). }
    destruct (find_distances_classes disTol ds Hd Pos) as [dist [ind [Ef [Li Cl]]]].
    assert (Ef' : find_distances (length ps) disTol ds = Some (dist, ind)) by (rewrite <- Ef; unfold ds at 2; rewrite map_length; reflexivity). rewrite Ef'.
    assert (Lds : length ds = length ps) by (unfold ds; apply map_length). rewrite Lds in Li, Cl.
    destruct (map_pairs bs ns rs (compare_vertical tol) i j) as [U kp] eqn:E.
    destruct (map_pairs_spec bs ns rs W _ _ _ _ _ Hi Hj E) as [Lk [IU [Sp _]]].
    set (is := i_segments bs ns i j ps). set (js := j_segments bs ns i j ps). set (lk := combine (l_segments kp ind) (k_segments kp ps)).
    fold no_pair. set (h := fun c : nat * nat => kv (nth (fst c) dist 0) (nth (snd c) U no_pair)).
    set (hT := fun c : nat * nat => if compare_boreholes tol (b_ j) (b_ i) && Nat.eqb (n_ i) (n_ j) && uniform_ratios (r_ i) && uniform_ratios (r_ j) then h c
       else h c * bH (snd (nth (snd c) U no_pair)) / bH (fst (nth (snd c) U no_pair))).
    assert (Llk : length lk = (length ps * (n_ i * n_ j))%nat) by (unfold lk; rewrite combine_length, l_segments_length, k_segments_length, Li, Lk; lia).
    assert (Nlk : forall q a b, (q < length ps)%nat -> (a < n_ i)%nat -> (b < n_ j)%nat -> nth (q * (n_ i * n_ j) + (a * n_ j + b)) lk (O, O) = (nth q ind O, nth (a * n_ j + b) kp O)).
    { intros q a b Hq Ha Hb. assert (Hm : (a * n_ j + b < n_ i * n_ j)%nat) by nia. unfold lk. rewrite combine_nth by (rewrite l_segments_length, k_segments_length; lia).
      rewrite <- Lk. rewrite l_segments_nth, k_segments_nth by lia. auto. }
    assert (Rp : forall p, In p ps -> (fst p < nB)%nat /\ (snd p < nB)%nat) by (intros p Hp; destruct (Rg p Hp) as [? [? _]]; auto).
    assert (Dn : forall p, In p ps -> n_ (fst p) = n_ i /\ n_ (snd p) = n_ j).
    { intros p [<-|Hp]; [cbn; auto 10|]. destruct (Rg p (or_intror Hp)) as [R1 [R2 R3]]. destruct (Rel p Hp) as [Cv Sr]. cbn [fst snd] in Cv, Sr.
      destruct (same_ratios (fst p) i R1 Hi) as [S1 S2]; [tauto|]. destruct (same_ratios (snd p) j R2 Hj) as [S3 S4]; [tauto|]. auto. }
    (* the values *)
    assert (Pd : forall q, (q < length ps)%nat -> class_mean disTol (field_distance bs) (planar (b_ (fst (nth q ps (O, O)))) (b_ (snd (nth q ps (O, O))))) (nth (nth q ind O) dist 0)).
    { intros q Hq. assert (Hp : In (nth q ps (O, O)) ps) by (apply nth_In; auto). destruct (Rg _ Hp) as [R1 [R2 R3]].
      destruct (Cl q Hq) as [_ Cm]. unfold ds in Cm at 2. rewrite (nth_map _ _ _ (O, O)) in Cm by auto. rewrite Dpl in Cm by auto. eapply class_mean_incl; [|exact Cm].
      intros z Hz. unfold ds in Hz. apply in_map_iff in Hz. destruct Hz as [p [<- Hz]]. destruct (Rg p Hz) as [T1 [T2 T3]]. rewrite Dpl by auto. exists (fst p), (snd p). auto. }
    assert (Val : forall q a b, (q < length ps)%nat -> (a < n_ i)%nat -> (b < n_ j)%nat -> let p := nth q ps (O, O) in
      entry (first ns (snd p) + b) (first ns (fst p) + a) (h (nth q ind O, nth (a * n_ j + b) kp O)) /\
      entry (first ns (fst p) + a) (first ns (snd p) + b) (hT (nth q ind O, nth (a * n_ j + b) kp O))).
    { intros q a b Hq Ha Hb p. assert (Hp : In p ps) by (apply nth_In; auto). destruct (Rg p Hp) as [R1 [R2 R3]]. destruct (Dn p Hp) as [D1 D2].
      destruct (similar_value i j U kp (nth (nth q ind O) dist 0) a b Hi Hj E Ha Hb) as [_ [S1 [S2 [[a' [b' [Ha' [Hb' Ep]]]] [Kv [K1 K2]]]]]].
      set (pr := nth (nth (a * n_ j + b) kp O) U no_pair) in *. specialize (Pd q Hq). fold p in Pd. split.
      - apply entry_src; auto; try lia. exists ps, p, i, j, a, b, (nth (nth q ind O) dist 0). do 6 (split; [auto; fail|]). left. unfold h. cbn [fst snd]. fold pr. rewrite Kv. auto.
      - apply entry_src; auto; try lia. exists ps, p, i, j, a, b, (nth (nth q ind O) dist 0). do 6 (split; [auto; fail|]). right. split; auto. split; auto. unfold hT. cbn [fst snd]. fold pr.
        assert (HE : h (nth q ind O, nth (a * n_ j + b) kp O) * bH (snd pr) / bH (fst pr) = kv (nth (nth q ind O) dist 0) (sg j b, sg i a)).
        { unfold h. cbn [fst snd]. fold pr. rewrite Kv, K1, K2. exact (kernel_transposed u M alpha t (nth (nth q ind O) dist 0) (sg i a, sg j b) (sized_sg i a Hi Ha) (sized_sg j b Hj Hb)). }
        destruct (compare_boreholes tol (b_ j) (b_ i) && Nat.eqb (n_ i) (n_ j) && uniform_ratios (r_ i) && uniform_ratios (r_ j)) eqn:Eu; [|exact HE].
        rewrite !andb_true_iff in Eu. destruct Eu as [[[Eb En] U1] U2]. apply Nat.eqb_eq in En. destruct Gr as [G1 [G2 [G3 _]]].
        destruct (compare_b_exact tol u M G1 G2 G3 (b_ j) (b_ i) (sized_b j Hj) (sized_b i Hi) ltac:(apply (proj1 V _ (b_in j Hj))) Eb) as [EH _].
        rewrite <- HE. rewrite Ep. cbn [fst snd]. rewrite (uniform_lengths i j a' b' Hi Hj EH En U1 U2 Ha' Hb'). field.
        destruct (sized_sg j b' Hj Hb'). lra. }
    eexists. split; [reflexivity|].
    assert (C1 : forall r c v, In ((r, c), v) (combine (combine js is) (map h lk)) -> entry r c v).
    { intros r c v Hv. apply (block_cells bs ns (map h lk) 0 i j ps r c v) in Hv; [|rewrite map_length; auto|auto]. destruct Hv as [q [a [b [Hq [Ha [Hb [-> [-> ->]]]]]]]].
      rewrite (nth_map _ _ _ (O, O)) by (rewrite Llk; assert (a * n_ j + b < n_ i * n_ j)%nat by nia; nia). rewrite Nlk by auto. apply Val; auto. }
    assert (C2 : forall r c v, In ((r, c), v) (combine (combine is js) (map hT lk)) -> entry r c v).
    { intros r c v Hv. apply combine_swap in Hv. apply (block_cells bs ns (map hT lk) 0 i j ps c r v) in Hv; [|rewrite map_length; auto|auto]. destruct Hv as [q [a [b [Hq [Ha [Hb [-> [-> ->]]]]]]]].
      rewrite (nth_map _ _ _ (O, O)) by (rewrite Llk; assert (a * n_ j + b < n_ i * n_ j)%nat by nia; nia). rewrite Nlk by auto. apply Val; auto. }
    assert (Both : forall r c, entry r c (m r c) \/ (exists v, In ((r, c), v) (combine (combine js is) (map h lk))) \/ (exists v, In ((r, c), v) (combine (combine is js) (map hT lk))) ->
      entry r c (assign (assign m js is (map h lk)) is js (map hT lk) r c)).
    { intros r c Hc. apply assign_pred; auto. destruct Hc as [Hc|[Hc|Hc]]; auto; right; apply assign_pred; auto. }
    split.
    - intros n r c Hn Or Oc. apply Both. left. eauto.
    - intros i' j' r c Hin Or Oc. apply in_app_or in Hin. destruct Hin as [Hin|Hin].
      + destruct (I2 i' j' r c Hin Or Oc). split; apply Both; auto.
      + destruct (In_nth _ _ (O, O) Hin) as [q [Hq Eq]]. destruct (Dn _ Hin) as [D1 D2]. cbn [fst snd] in D1, D2. unfold owns in Or, Oc.
        assert (X : forall (f : nat * nat -> R), exists v, In ((c, r), v) (combine (combine js is) (map f lk))).
        { intros f. eexists. apply (block_cells bs ns (map f lk) 0 i j ps c r); [rewrite map_length; auto|auto|].
          exists q, (r - first ns i')%nat, (c - first ns j')%nat. rewrite Eq. cbn [fst snd]. repeat split; try lia. }
        split; apply Both; right; [right|left]; [|apply X]. destruct (X hT) as [v Hv]. exists v. apply combine_swap. auto.
  Qed.

  Lemma pair_steps groups : incl groups (fst (pair_groups tol disTol bs ns rs)) -> Forall (grouped (pair_rel tol bs ns rs (compare_vertical tol))) groups ->
    (forall p, In p (concat groups) -> (fst p < nB)%nat /\ (snd p < nB)%nat /\ fst p <> snd p) -> forall done m, pair_inv done m ->
    exists m', fold_left (pair_vertical_step tol disTol bs ns rs kv) groups (Some m) = Some m' /\ pair_inv (done ++ concat groups) m'.
  Proof.
    intros Inc F Rg. induction groups as [|g groups IH]; intros done m I; [exists m; rewrite app_nil_r; auto|]. inversion F; subst. cbn [fold_left concat] in *.
    destruct (pair_step_inv done m g I) as [m1 [E1 J1]]; auto. { apply Inc. left; auto. } { intros p Hp. apply Rg. apply in_or_app; auto. }
    rewrite E1. rewrite app_assoc. apply IH; auto. { intros x Hx. apply Inc. right; auto. } intros p Hp. apply Rg. apply in_or_app; auto.
  Qed.

  Lemma all_up i : (i < nB)%nat -> vertical (b_ i) = true.
  Proof. intros Hi. destruct (all_vertical bs ns rs V G) as [_ A]. rewrite forallb_forall in A. apply A, b_in; auto. Qed.

  Lemma no_inclined : snd (self_groups tol bs ns rs) = [] /\ snd (pair_groups tol disTol bs ns rs) = [].
  Proof.
    split.
    - destruct (Nat.ltb 1 nB) eqn:L.
      + apply Nat.ltb_lt in L. destruct (snd (self_groups tol bs ns rs)) as [|g gs] eqn:E; auto. exfalso.
        pose proof (proj2 (self_grouped tol bs ns rs)) as F. rewrite E in F. inversion F as [|? ? [h [tl [-> _]]] _]; subst.
        pose proof (proj2 (self_kinds tol bs ns rs L) h) as K. rewrite E in K. specialize (K (or_introl eq_refl)).
        destruct (selfs_once tol bs ns rs Ne) as [_ O]. rewrite all_up in K; [discriminate|]. apply O. rewrite E. apply in_or_app. right. left. auto.
      + unfold self_groups. rewrite L. auto.
    - destruct (snd (pair_groups tol disTol bs ns rs)) as [|g gs] eqn:E; auto. exfalso.
      pose proof (proj2 (pair_grouped tol disTol bs ns rs)) as F. rewrite E in F. inversion F as [|? ? [[a b] [tl [-> _]]] _]; subst.
      pose proof (proj2 (pair_kinds tol disTol bs ns rs) (a, b)) as K. rewrite E in K. specialize (K (or_introl eq_refl)). unfold both_vertical in K. cbn [fst snd] in K.
      destruct (pairs_once tol disTol bs ns rs) as [_ [O _]]. destruct (O a b) as [O1 [O2 _]]. { rewrite E. apply in_or_app. right. left. auto. }
      rewrite !all_up in K by auto. discriminate.
  Qed.

  Lemma sim_vertical : exists m, sim_matrix tol disTol bs ns rs kv ki = Some m /\
    forall r c, (r < list_sum ns)%nat -> (c < list_sum ns)%nat -> entry r c (m r c).
  Proof.
    destruct no_inclined as [N1 N2]. unfold sim_matrix, self_inclined, pair_inclined. rewrite N1, N2. cbn [map fold_left s_dp s_i s_j s_k].
    destruct (selfs_once tol bs ns rs Ne) as [_ So]. rewrite N1 in So. cbn [concat] in So. rewrite app_nil_r in So.
    pose proof (self_inv_all (fst (self_groups tol bs ns rs)) (proj1 (self_grouped tol bs ns rs)) (fun n Hn => proj1 (So n) Hn)) as [B [K0 [Ce Cov]]].
    fold (self_vertical tol bs ns rs) in *. set (sv := self_vertical tol bs ns rs) in *.
    set (hv := map (fun c : R * pair => kv (fst c) (snd c)) (s_dp sv)).
    assert (Hk : forall k, In k (s_k sv) -> (k < length hv)%nat).
    { intros k Hk. unfold hv. rewrite map_length. destruct (In_nth _ _ O Hk) as [p [Hp Ep]]. destruct B as [B1 B2].
      apply (Ce (nth p (s_j sv) O) (nth p (s_i sv) O) k). unfold cells. rewrite <- Ep. rewrite <- combine_nth by lia. rewrite <- combine_nth by (rewrite combine_length; lia).
      apply nth_In. rewrite !combine_length. lia. }
    rewrite (gather_some hv (s_k sv) Hk). cbn [gather forallb map]. set (m0 := assign (fun _ _ : nat => 0) (s_j sv) (s_i sv) (map (fun i => nth i hv 0) (s_k sv))).
    change (assign m0 [] [] []) with m0.
    assert (I0 : pair_inv [] m0).
    { split; [|intros i j r c []]. intros n r c Hn Or Oc. unfold m0. apply assign_pred.
      - intros v Hv. apply combine_map_r in Hv. destruct Hv as [k [Hc ->]]. destruct (Ce r c k Hc) as [Lk Q]. unfold hv. rewrite (nth_map _ _ _ (0, no_pair)) by auto. exact Q.
      - left. unfold owns in Or, Oc. destruct (Cov n (c - first ns n)%nat (r - first ns n)%nat) as [k Hc]; [apply So; auto|lia|lia|].
        replace (first ns n + (r - first ns n))%nat with r in Hc by lia. replace (first ns n + (c - first ns n))%nat with c in Hc by lia.
        eexists. apply combine_map_r. exists k. split; [exact Hc|reflexivity]. }
    destruct (pairs_once tol disTol bs ns rs) as [_ [P1 P2]]. rewrite N2 in P1, P2. cbn [concat] in P1, P2. rewrite app_nil_r in P1, P2.
    destruct (pair_steps (fst (pair_groups tol disTol bs ns rs)) (incl_refl _) (proj1 (pair_grouped tol disTol bs ns rs))) with (done := @nil (nat * nat)) (m := m0) as [m1 [E1 [J1 J2]]]; auto.
    { intros [a b] Hp. destruct (P1 a b Hp) as [Q1 [Q2 [Q3 _]]]. auto. }
    rewrite E1. exists m1. split; [reflexivity|]. intros r c Hr Hc. destruct W as [L1 _].
    destruct (owner_exists ns r Hr) as [a [Ha Oa]]. destruct (owner_exists ns c Hc) as [b [Hb Ob]]. rewrite L1 in Ha, Hb.
    destruct (Nat.eq_dec a b) as [->|Nab]; [apply (J1 b); auto|]. cbn [app] in J2. destruct (P2 a b Ha Hb Nab) as [Q|Q].
    - apply (J2 a b r c Q Oa Ob).
    - apply (J2 b a c r Q Ob Oa).
  Qed.

  (** boreholes of the same length at the same depth: the solution of the very pair *)
  Lemma src_level r c v a b : level bs -> src r c v -> (a < nB)%nat -> (b < nB)%nat -> owns ns a r -> owns ns b c -> a <> b ->
    exists d, class_mean disTol (field_distance bs) (planar (b_ a) (b_ b)) d /\ v = kv d (seg c, seg r).
  Proof.
    intros Lv [g [p [i [j [x [y [d [Ig [Ip [Eh [Hx [Hy [Cm Q]]]]]]]]]]]]] Ha Hb Oa Ob Nab. exists d.
    destruct (pairs_once tol disTol bs ns rs) as [_ [P1 _]].
    assert (Rg : forall q, In q g -> (fst q < nB)%nat /\ (snd q < nB)%nat /\ fst q <> snd q).
    { intros [q1 q2] Hq. destruct (P1 q1 q2) as [T1 [T2 [T3 _]]]; auto. apply in_or_app. left. apply in_concat. exists g. auto. }
    pose proof (proj1 (pair_grouped tol disTol bs ns rs)) as Fg. rewrite Forall_forall in Fg. destruct (Fg g Ig) as [h [tl [-> Rel]]]. cbn [hd] in Eh. subst h.
    destruct (Rg (i, j) (or_introl eq_refl)) as [Hi [Hj _]]. cbn [fst snd] in Hi, Hj. destruct (Rg p Ip) as [R1 [R2 R3]].
    assert (Dn : n_ (fst p) = n_ i /\ n_ (snd p) = n_ j /\ (forall k, (k < n_ i)%nat -> bH (sg i k) = bH (sg (fst p) k) /\ bD (sg i k) = bD (sg (fst p) k))
                                      /\ (forall k, (k < n_ j)%nat -> bH (sg j k) = bH (sg (snd p) k) /\ bD (sg j k) = bD (sg (snd p) k))).
    { destruct Ip as [<-|Hp]; [cbn; auto 10|]. destruct (Rel p Hp) as [Cv Sr]. cbn [fst snd] in Cv, Sr. destruct Gr as [G1 [G2 [G3 _]]].
      destruct (compare_v_exact tol u M G1 G2 G3 (b_ (fst p), b_ (snd p)) (b_ i, b_ j) (sized_b _ R1) (sized_b _ R2) (sized_b i Hi) (sized_b j Hj) Cv) as [E1 [E2 E3]]. cbn [fst snd] in E1, E2, E3.
      assert (ED : bD (b_ (fst p)) = bD (b_ i) /\ bD (b_ (snd p)) = bD (b_ j)).
      { split; apply Lv; auto using b_in. }
      destruct (same_ratios (fst p) i R1 Hi) as [S1 S2]; [tauto|]. destruct (same_ratios (snd p) j R2 Hj) as [S3 S4]; [tauto|].
      split; auto. split; auto. split; apply same_dims; auto; apply ED || (symmetry; apply ED). }
    destruct Dn as [D1 [D2 [D3 D4]]]. destruct (D3 x Hx) as [X1 X2]. destruct (D4 y Hy) as [Y1 Y2]. destruct W as [L1 _].
    destruct (sg_seg (fst p) x R1 ltac:(lia)) as [E1 [_ O1]]. destruct (sg_seg (snd p) y R2 ltac:(lia)) as [E2 [_ O2]].
    destruct Q as [[-> [-> ->]]|[-> [-> ->]]]; rewrite E1, E2.
    - assert (a = snd p) by (apply (owner_unique ns a (snd p) (first ns (snd p) + y)); auto; lia). assert (b = fst p) by (apply (owner_unique ns b (fst p) (first ns (fst p) + x)); auto; lia). subst.
      split; [rewrite planar_sym; auto|]. apply kv_dims; auto.
    - assert (a = fst p) by (apply (owner_unique ns a (fst p) (first ns (fst p) + x)); auto; lia). assert (b = snd p) by (apply (owner_unique ns b (snd p) (first ns (snd p) + y)); auto; lia). subst.
      split; auto. apply kv_dims; auto.
  Qed.

  Lemma sim_level : level bs -> exists m, sim_matrix tol disTol bs ns rs kv ki = Some m /\
    forall r c a b, (a < nB)%nat -> (b < nB)%nat -> owns ns a r -> owns ns b c ->
      exists d, (a = b -> d = br (b_ a)) /\ (a <> b -> class_mean disTol (field_distance bs) (planar (b_ a) (b_ b)) d) /\ m r c = kv d (seg c, seg r).
  Proof.
    intros Lv. destruct sim_vertical as [m [E Q]]. exists m. split; auto. intros r c a b Ha Hb Oa Ob. destruct W as [L1 _].
    pose proof (first_le ns a ltac:(lia)). pose proof (first_le ns b ltac:(lia)). unfold owns in Oa, Ob.
    destruct (Q r c ltac:(lia) ltac:(lia) a b Ha Hb) as [Q1 Q2]; [unfold owns; lia|unfold owns; lia|]. destruct (Nat.eq_dec a b) as [Eab|Nab].
    - exists (br (b_ a)). split; auto. split; [congruence|auto].
    - destruct (src_level r c (m r c) a b Lv (Q2 Nab) Ha Hb Oa Ob Nab) as [d [D1 D2]]. exists d. split; [congruence|auto].
  Qed.
End Vertical.
