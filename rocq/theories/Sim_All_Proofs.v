(** Every entry of the response matrix of the similarities solver is written, whatever
    the inclination of the boreholes. *)
From Verif Require Import Base LinAlg FLS_Model.
From Verif Require Import Bore_Model Solve_Model Detailed_Model Detailed_Spec Detailed_Proofs.
From Verif Require Import Sim_Model Sim_Spec Sim_Dist_Proofs Sim_Group_Proofs Sim_Cells_Proofs Sim_Matrix_Proofs.

Lemma fd_loop_length tol d isort : forall f j0 j1 nDis ind ds ind', fd_loop f tol d isort j0 j1 nDis ind = Some (ds, ind') -> length ind' = length ind.
Proof.
  assert (Q : forall who v (ind : list nat), length (fold_left (fun a i => upd a i v) who ind) = length ind).
  { induction who as [|w who IH]; intros v ind; cbn [fold_left]; auto. rewrite IH. apply upd_length. }
  induction f as [|f IH]; intros j0 j1 nDis ind ds ind'; cbn [fd_loop]; destruct (_ && _); try discriminate; try (intros E; injection E as _ <-; auto; fail).
  set (j1' := argmax_bool _). destruct (fd_loop f tol d isort j1' j1' _ _) as [[ds1 r]|] eqn:E; [|discriminate]. intros E'. injection E' as _ <-.
  rewrite (IH _ _ _ _ _ _ E). apply Q.
Qed.
Lemma find_distances_length fuel tol all ds ind : find_distances fuel tol all = Some (ds, ind) -> length ind = length all.
Proof. unfold find_distances. intros E. rewrite (fd_loop_length _ _ _ _ _ _ _ _ _ _ E). apply repeat_length. Qed.

Section All.
  Variables (tol disTol : R) (bs : list bore) (ns : list nat) (rs : list (list R)) (kv : R -> pair -> R) (ki : pair -> R).
  Hypothesis W : segmented bs ns rs.
  Hypothesis Ne : (0 < length bs)%nat.
  Local Notation nB := (length bs).
  Local Notation b_ i := (nth i bs no_bore).
  Local Notation n_ i := (nth i ns 0%nat).
  Local Notation r_ i := (nth i rs []).
  Local Notation sg := (sg bs ns rs).

  Lemma rel_n i m : (i < nB)%nat -> (m < nB)%nat -> equal_ratios ns rs = true \/ same_split tol ns rs i m = true -> n_ i = n_ m.
  Proof.
    intros Hi Hm [E|E].
    - unfold equal_ratios in E. apply andb_true_iff in E. rewrite !forallb_forall in E. destruct E as [E1 _]. destruct W as [L1 _].
      assert (N : forall k, (k < nB)%nat -> n_ k = n_ 0) by (intros k Hk; apply Nat.eqb_eq, E1, nth_In; lia). rewrite (N i), (N m) by auto. auto.
    - unfold same_split in E. apply andb_true_iff in E. apply Nat.eqb_eq, E.
  Qed.

  (** groups of pairs with a head of the same numbers of segments *)
  Definition even (g : list (nat * nat)) : Prop :=
    exists i j t, g = (i, j) :: t /\ forall p, In p g -> (fst p < nB)%nat /\ (snd p < nB)%nat /\ n_ (fst p) = n_ i /\ n_ (snd p) = n_ j.

  Lemma self_even g : grouped (self_rel tol bs ns rs) g -> (forall n, In n g -> (n < nB)%nat) -> even (map (fun n => (n, n)) g).
  Proof.
    intros [h [t [-> Rel]]] Rg. exists h, h, (map (fun n => (n, n)) t). split; auto. intros p Hp. apply in_map_iff in Hp. destruct Hp as [n [<- Hn]]. cbn [fst snd].
    assert (n_ n = n_ h). { destruct Hn as [<-|Hn]; auto. destruct (Rel n Hn) as [_ Q]. apply rel_n; auto; apply Rg; cbn; auto. }
    auto.
  Qed.
  Lemma pair_even cmp g : grouped (pair_rel tol bs ns rs cmp) g -> (forall p, In p g -> (fst p < nB)%nat /\ (snd p < nB)%nat) -> even g.
  Proof.
    intros [[i j] [t [-> Rel]]] Rg. exists i, j, t. split; auto. intros p Hp. destruct (Rg p Hp) as [R1 R2]. split; auto. split; auto.
    destruct Hp as [<-|Hp]; auto. destruct (Rel p Hp) as [_ Q]. cbn [fst snd] in Q. destruct (Rg (i, j) (or_introl eq_refl)) as [I J]. cbn [fst snd] in I, J.
    split; apply rel_n; auto; tauto.
  Qed.

  Definition seg_pair (p : pair) : Prop := exists i j a b, (i < nB)%nat /\ (j < nB)%nat /\ (a < n_ i)%nat /\ (b < n_ j)%nat /\ p = (sg i a, sg j b).
  Definition covers (done : list (nat * nat)) (s : self_data) : Prop :=
    balanced s /\ Forall (fun c => seg_pair (snd c)) (s_dp s) /\
    forall p a b, In p done -> (a < n_ (fst p))%nat -> (b < n_ (snd p))%nat -> exists k, In ((first ns (snd p) + b, first ns (fst p) + a)%nat, k) (cells s).
  Definition in_range (s : self_data) : Prop := s_k0 s = length (s_dp s) /\ forall k, In k (s_k s) -> (k < length (s_dp s))%nat.

  Lemma step_covers done s dis off g cmp : covers done s -> even g ->
    let (i, j) := hd (O, O) g in let (U, kp) := map_pairs bs ns rs cmp i j in
    let s' := gen_step bs ns s dis U kp i j off g in covers (done ++ g) s' /\ (off = length U -> in_range s -> in_range s').
  Proof.
    intros [B [F C]] [i [j [t [Eg Rg]]]]. replace (hd (O, O) g) with (i, j) by (rewrite Eg; auto). cbv iota beta. destruct (map_pairs bs ns rs cmp i j) as [U kp] eqn:E.
    destruct (Rg (i, j)) as [Hi [Hj _]]; [rewrite Eg; left; auto|]. cbn [fst snd] in Hi, Hj.
    destruct (map_pairs_spec bs ns rs W _ _ _ _ _ Hi Hj E) as [Lk [IU [Sp _]]]. intros s'.
    destruct (gen_step_cells bs ns s dis U kp i j off g B Lk) as [B' C']. { intros p Hp. destruct (Rg p Hp) as [? [? _]]; auto. } fold s' in B', C'.
    split; [split; [auto|split]|].
    - cbn [s' gen_step s_dp]. apply Forall_app. split; auto. apply Forall_forall. intros c Hc. apply in_map_iff in Hc. destruct Hc as [p [<- Hp]]. cbn [snd].
      destruct (IU p Hp) as [a [b [Ha [Hb ->]]]]. exists i, j, a, b. auto.
    - intros p a b Hp Ha Hb. apply in_app_or in Hp. destruct Hp as [Hp|Hp].
      + destruct (C p a b Hp Ha Hb) as [k Hk]. exists k. apply C'. auto.
      + destruct (Rg p Hp) as [_ [_ [N1 N2]]]. destruct (In_nth _ _ (O, O) Hp) as [q [Hq Eq]]. exists (nth (a * n_ j + b) kp O + s_k0 s)%nat. apply C'. right.
        exists q, a, b. rewrite Eq, <- N1, <- N2. auto 10.
    - intros -> [K0 K]. unfold in_range. cbn [s' gen_step s_dp s_k s_k0]. rewrite app_length, map_length. split; [lia|].
      intros k Hk. apply in_app_or in Hk. destruct Hk as [Hk|Hk]; [specialize (K k Hk); lia|]. apply in_map_iff in Hk. destruct Hk as [q [<- Hq]].
      unfold k_segments in Hq. apply in_concat in Hq. destruct Hq as [l [Hl Hq]]. apply repeat_spec in Hl. subst l.
      destruct (In_nth _ _ O Hq) as [x [Hx Ex]]. rewrite Lk in Hx. assert (0 < n_ j)%nat by nia.
      destruct (Sp (x / n_ j)%nat (x mod n_ j)%nat) as [Q _]; [apply Nat.div_lt_upper_bound; lia|apply Nat.mod_upper_bound; lia|].
      replace (x / n_ j * n_ j + x mod n_ j)%nat with x in Q by (rewrite Nat.mul_comm; apply Nat.div_mod; lia). rewrite Ex in Q. lia.
  Qed.

  Definition start : self_data := mkself [] [] [] [] 0.
  Lemma start_covers : covers [] start /\ in_range start.
  Proof. split; [split; [split; auto|split; [constructor|intros p a b []]]|]. split; auto. intros k []. Qed.

  Lemma inclined_covers gs : Forall even gs -> covers (concat gs) (fold_left (inclined_step tol disTol bs ns rs) gs start) /\
    ((forall i j, (i < nB)%nat -> (j < nB)%nat -> let (U, kp) := map_pairs bs ns rs (compare_inclined tol disTol) i j in length U = length kp) ->
     in_range (fold_left (inclined_step tol disTol bs ns rs) gs start)).
  Proof.
    intros F. assert (Q : forall l done s, Forall even l -> covers done s -> covers (done ++ concat l) (fold_left (inclined_step tol disTol bs ns rs) l s) /\
      ((forall i j, (i < nB)%nat -> (j < nB)%nat -> let (U, kp) := map_pairs bs ns rs (compare_inclined tol disTol) i j in length U = length kp) -> in_range s ->
       in_range (fold_left (inclined_step tol disTol bs ns rs) l s))).
    { induction l as [|g l IH]; intros done s Fe C; [rewrite app_nil_r; auto|]. inversion Fe; subst. cbn [fold_left concat]. rewrite app_assoc.
      pose proof (step_covers done s 0 (length (snd (let (i, j) := hd (O, O) g in map_pairs bs ns rs (compare_inclined tol disTol) i j))) g (compare_inclined tol disTol) C H1) as Q.
      unfold inclined_step at 2 4. destruct H1 as [i [j [t [Eg Rg]]]]. replace (hd (O, O) g) with (i, j) in * by (rewrite Eg; auto).
      destruct (Rg (i, j)) as [Hi [Hj _]]; [rewrite Eg; left; auto|]. cbn [fst snd] in Hi, Hj.
      destruct (map_pairs bs ns rs (compare_inclined tol disTol) i j) as [U kp] eqn:E. cbn [snd] in Q.
      destruct Q as [Q1 Q2]. destruct (IH _ _ H2 Q1) as [I1 I2]. split; auto. intros Hf Hr. apply I2; auto. apply Q2; auto. specialize (Hf i j Hi Hj). rewrite E in Hf. auto. }
    destruct start_covers as [S1 S2]. destruct (Q gs [] start F S1) as [Q1 Q2]. auto.
  Qed.

  Lemma vertical_covers gs : Forall (fun g => even (map (fun n => (n, n)) g)) gs -> (forall i, (i < nB)%nat -> (0 < n_ i)%nat) ->
    covers (concat (map (map (fun n => (n, n))) gs)) (fold_left (self_vertical_step tol bs ns rs) gs start) /\ in_range (fold_left (self_vertical_step tol bs ns rs) gs start).
  Proof.
    intros F Np. assert (Q : forall l done s, Forall (fun g => even (map (fun n => (n, n)) g)) l -> covers done s -> in_range s ->
      covers (done ++ concat (map (map (fun n => (n, n))) l)) (fold_left (self_vertical_step tol bs ns rs) l s) /\ in_range (fold_left (self_vertical_step tol bs ns rs) l s)).
    { induction l as [|g l IH]; intros done s Fe C Ir; [cbn; rewrite app_nil_r; auto|]. inversion Fe; subst. cbn [fold_left map concat]. rewrite app_assoc.
      pose proof (fun dis off => step_covers done s dis off (map (fun n => (n, n)) g) (compare_vertical tol) C H1) as Q.
      unfold self_vertical_step at 2 4. destruct H1 as [i [j [t [Eg Rg]]]]. destruct g as [|h g]; [discriminate|]. cbn [map] in Eg. injection Eg as <- <- _. cbn [hd map] in *.
      destruct (Rg (h, h) (or_introl eq_refl)) as [Hi _]. cbn [fst] in Hi.
      destruct (map_pairs bs ns rs (compare_vertical tol) h h) as [U kp] eqn:E.
      destruct (map_pairs_spec bs ns rs W _ _ _ _ _ Hi Hi E) as [_ [_ [_ Mx]]].
      destruct (Q (br (b_ h)) (list_max kp + 1)%nat) as [Q1 Q2]. apply IH; auto. }
    destruct start_covers as [S1 S2]. destruct (Q gs [] start F S1 S2). auto.
  Qed.

  Lemma cells_k s r c k : In ((r, c), k) (cells s) -> In k (s_k s).
  Proof. intros H. unfold cells in H. apply in_combine_r in H. auto. Qed.

  Lemma groups_even :
    Forall (fun g => even (map (fun n => (n, n)) g)) (fst (self_groups tol bs ns rs)) /\ Forall even (map (map (fun n => (n, n))) (snd (self_groups tol bs ns rs))) /\
    Forall even (fst (pair_groups tol disTol bs ns rs)) /\ Forall even (snd (pair_groups tol disTol bs ns rs)).
  Proof.
    destruct (self_grouped tol bs ns rs) as [S1 S2]. destruct (pair_grouped tol disTol bs ns rs) as [P1 P2].
    destruct (selfs_once tol bs ns rs Ne) as [_ So]. destruct (pairs_once tol disTol bs ns rs) as [_ [Po _]]. rewrite Forall_forall in S1, S2, P1, P2.
    repeat split; apply Forall_forall; intros g Hg.
    - apply self_even; auto. intros n Hn. apply So, in_or_app. left. apply in_concat. eauto.
    - apply in_map_iff in Hg. destruct Hg as [g' [<- Hg]]. apply self_even; auto. intros n Hn. apply So, in_or_app. right. apply in_concat. eauto.
    - apply (pair_even (compare_vertical tol)); auto. intros [x y] Hn. destruct (Po x y) as [? [? _]]; auto. apply in_or_app. left. apply in_concat. eauto.
    - apply (pair_even (compare_inclined tol disTol)); auto. intros [x y] Hn. destruct (Po x y) as [? [? _]]; auto. apply in_or_app. right. apply in_concat. eauto.
  Qed.

  Section Positive.
    Hypothesis Pv : forall d p, 0 < kv d p.
    Hypothesis Pi : forall p, 0 < ki p.
    Hypothesis Pl : forall i a, (i < nB)%nat -> (a < n_ i)%nat -> 0 < bH (sg i a).

    Lemma ratio_pos h p : seg_pair p -> 0 < h -> 0 < h * bH (snd p) / bH (fst p).
    Proof. intros [i [j [a [b [Hi [Hj [Ha [Hb ->]]]]]]]] Hh. cbn [fst snd]. apply Rdiv_lt_0_compat; auto. apply Rmult_lt_0_compat; auto. Qed.

    Lemma assign_pos rows cols vs m r c : (forall v, In v vs -> 0 < v) -> (exists v, In ((r, c), v) (combine (combine rows cols) vs)) \/ 0 < m r c -> 0 < assign m rows cols vs r c.
    Proof. intros Hv H. apply assign_pred; auto. intros v Hin. apply Hv. apply in_combine_r in Hin. auto. Qed.

    Lemma pair_vertical_pos m ps m' : even ps -> pair_vertical_step tol disTol bs ns rs kv (Some m) ps = Some m' ->
      (forall r c, 0 < m r c -> 0 < m' r c) /\
      forall p a b, In p ps -> (a < n_ (fst p))%nat -> (b < n_ (snd p))%nat ->
        0 < m' (first ns (snd p) + b)%nat (first ns (fst p) + a)%nat /\ 0 < m' (first ns (fst p) + a)%nat (first ns (snd p) + b)%nat.
    Proof.
      intros [i [j [t [Eg Rg]]]]. unfold pair_vertical_step. replace (hd (O, O) ps) with (i, j) by (rewrite Eg; auto). cbv iota beta.
      destruct (Rg (i, j)) as [Hi [Hj _]]; [rewrite Eg; left; auto|]. cbn [fst snd] in Hi, Hj.
      destruct (find_distances _ _ _) as [[dist ind]|] eqn:Ef; [|discriminate].
      destruct (map_pairs bs ns rs (compare_vertical tol) i j) as [U kp] eqn:E. destruct (map_pairs_spec bs ns rs W _ _ _ _ _ Hi Hj E) as [Lk [IU [Sp _]]].
      fold no_bore. fold no_pair. set (is := i_segments bs ns i j ps). set (js := j_segments bs ns i j ps). set (lk := combine (l_segments kp ind) (k_segments kp ps)).
      set (h := fun c : nat * nat => kv (nth (fst c) dist 0) (nth (snd c) U no_pair)).
      set (hT := fun c : nat * nat => if compare_boreholes tol (b_ j) (b_ i) && Nat.eqb (n_ i) (n_ j) && uniform_ratios (r_ i) && uniform_ratios (r_ j) then h c
       else h c * bH (snd (nth (snd c) U no_pair)) / bH (fst (nth (snd c) U no_pair))).
      intros Em. injection Em as <-.
      assert (Hh : forall c, 0 < h c) by (intros; apply Pv).
      assert (HT : forall c, In c lk -> 0 < hT c).
      { intros c Hc. unfold hT. destruct (_ && _); auto. apply ratio_pos; auto. destruct c as [l k]. apply in_combine_r in Hc. cbn [snd].
        unfold k_segments in Hc. apply in_concat in Hc. destruct Hc as [q [Hl Hq]]. apply repeat_spec in Hl. subst q.
        destruct (In_nth _ _ O Hq) as [x [Hx Ex]]. rewrite Lk in Hx. assert (0 < n_ j)%nat by nia.
        destruct (Sp (x / n_ j)%nat (x mod n_ j)%nat) as [Q _]; [apply Nat.div_lt_upper_bound; lia|apply Nat.mod_upper_bound; lia|].
        replace (x / n_ j * n_ j + x mod n_ j)%nat with x in Q by (rewrite Nat.mul_comm; apply Nat.div_mod; lia). rewrite Ex in Q.
        destruct (IU (nth k U no_pair)) as [a [b [Ha [Hb ->]]]]; [apply nth_In; auto|]. exists i, j, a, b. auto. }
      assert (V1 : forall v, In v (map h lk) -> 0 < v) by (intros v Hv; apply in_map_iff in Hv; destruct Hv as [c [<- _]]; auto).
      assert (V2 : forall v, In v (map hT lk) -> 0 < v) by (intros v Hv; apply in_map_iff in Hv; destruct Hv as [c [<- Hc]]; auto).
      assert (Li : length ind = length ps).
      { pose proof (find_distances_length _ _ _ _ _ Ef) as Q. rewrite map_length in Q. auto. }
      assert (Llk : length lk = (length ps * (n_ i * n_ j))%nat) by (unfold lk; rewrite combine_length, l_segments_length, k_segments_length, Li, Lk; lia).
      split.
      - intros r c Hm. apply assign_pos; auto. right. apply assign_pos; auto.
      - intros p a b Hp Ha Hb. destruct (Rg p Hp) as [_ [_ [N1 N2]]]. destruct (In_nth _ _ (O, O) Hp) as [q [Hq Eq]].
        assert (X : forall (f : nat * nat -> R), exists v, In ((first ns (snd p) + b, first ns (fst p) + a)%nat, v) (combine (combine js is) (map f lk))).
        { intros f. eexists. apply (block_cells bs ns (map f lk) 0 i j ps); [rewrite map_length; auto|intros p' Hp'; destruct (Rg p' Hp') as [? [? _]]; auto|].
          exists q, a, b. rewrite Eq. repeat split; lia. }
        split; apply assign_pos; auto.
        + right. apply assign_pos; auto.
        + left. destruct (X hT) as [v Hv]. exists v. apply combine_swap. auto.
    Qed.

    Lemma pair_vertical_all gs : Forall even gs -> forall m m', fold_left (pair_vertical_step tol disTol bs ns rs kv) gs (Some m) = Some m' ->
      (forall r c, 0 < m r c -> 0 < m' r c) /\
      forall p a b, In p (concat gs) -> (a < n_ (fst p))%nat -> (b < n_ (snd p))%nat ->
        0 < m' (first ns (snd p) + b)%nat (first ns (fst p) + a)%nat /\ 0 < m' (first ns (fst p) + a)%nat (first ns (snd p) + b)%nat.
    Proof.
      assert (Nn : forall l, fold_left (pair_vertical_step tol disTol bs ns rs kv) l None = None) by (induction l; auto).
      induction gs as [|g gs IH]; intros F m m' E; cbn [fold_left] in E; [injection E as <-; split; auto; intros p a b []|]. inversion F; subst.
      destruct (pair_vertical_step tol disTol bs ns rs kv (Some m) g) as [m1|] eqn:E1; [|rewrite Nn in E; discriminate].
      destruct (pair_vertical_pos m g m1 H1 E1) as [Q1 Q2]. destruct (IH H2 m1 m' E) as [I1 I2]. split; auto.
      intros p a b Hp Ha Hb. cbn [concat] in Hp. apply in_app_or in Hp. destruct Hp as [Hp|Hp]; auto. destruct (Q2 p a b Hp Ha Hb). auto.
    Qed.

    Lemma all_written m : sim_matrix tol disTol bs ns rs kv ki = Some m -> (forall i, (i < nB)%nat -> (0 < n_ i)%nat) ->
      forall r c, (r < list_sum ns)%nat -> (c < list_sum ns)%nat -> 0 < m r c.
    Proof.
      intros E Np r c Hr Hc. unfold sim_matrix in E. destruct groups_even as [G1 [G2 [G3 G4]]].
      pose proof (vertical_covers _ G1 Np) as [[Bv [Fv Cv]] _]. pose proof (inclined_covers _ G2) as [[Bi [Fi Ci]] _]. pose proof (inclined_covers _ G4) as [[Bp [Fp Cp]] _].
      fold start in E. fold (self_vertical tol bs ns rs) in Cv, Bv, Fv. fold (self_inclined tol disTol bs ns rs) in Ci, Bi, Fi. fold (pair_inclined tol disTol bs ns rs) in Cp, Bp, Fp.
      set (sv := self_vertical tol bs ns rs) in *. set (si := self_inclined tol disTol bs ns rs) in *. set (pi := pair_inclined tol disTol bs ns rs) in *.
      destruct (gather _ (s_k sv)) as [hv|] eqn:Ev; [|discriminate]. destruct (gather _ (s_k si)) as [hi|] eqn:Ei; [|discriminate].
      destruct (fold_left (pair_vertical_step tol disTol bs ns rs kv) _ _) as [m2|] eqn:Em; [|discriminate].
      destruct (gather _ (s_k pi)) as [h|] eqn:Eh; [|discriminate]. destruct (gather (map (fun c0 => ki (snd c0) * _ / _) _) (s_k pi)) as [hT|] eqn:Et; [|discriminate].
      injection E as <-.
      apply gather_spec in Ev. apply gather_spec in Ei. apply gather_spec in Eh. apply gather_spec in Et.
      assert (V1 : forall v, In v hv -> 0 < v).
      { destruct Ev as [_ [Rv ->]]. intros v Hv. apply in_map_iff in Hv. destruct Hv as [k [<- Hk]]. specialize (Rv k Hk). rewrite map_length in Rv. rewrite (nth_map _ _ _ (0, no_pair)) by auto. apply Pv. }
      assert (V2 : forall v, In v hi -> 0 < v).
      { destruct Ei as [_ [Rv ->]]. intros v Hv. apply in_map_iff in Hv. destruct Hv as [k [<- Hk]]. specialize (Rv k Hk). rewrite map_length in Rv. rewrite (nth_map _ _ _ (0, no_pair)) by auto. apply Pi. }
      assert (V3 : forall v, In v h -> 0 < v).
      { destruct Eh as [_ [Rv ->]]. intros v Hv. apply in_map_iff in Hv. destruct Hv as [k [<- Hk]]. specialize (Rv k Hk). rewrite map_length in Rv. rewrite (nth_map _ _ _ (0, no_pair)) by auto. apply Pi. }
      assert (V4 : forall v, In v hT -> 0 < v).
      { destruct Et as [_ [Rv ->]]. intros v Hv. apply in_map_iff in Hv. destruct Hv as [k [<- Hk]]. specialize (Rv k Hk). rewrite map_length in Rv. rewrite (nth_map _ _ _ (0, no_pair)) by auto.
        apply ratio_pos; [|apply Pi]. rewrite Forall_forall in Fp. apply Fp. apply nth_In; auto. }
      assert (Vc : forall s vs f, vs = map (f : nat -> R) (s_k s) -> forall r c k, In ((r, c), k) (cells s) -> exists v, In ((r, c), v) (combine (combine (s_j s) (s_i s)) vs)).
      { intros s vs f -> r' c' k Hk. eexists. apply combine_map_r. exists k. split; [exact Hk|reflexivity]. }
      destruct (pair_vertical_all _ G3 _ _ Em) as [Q1 Q2].
      assert (Keep : forall x y, 0 < m2 x y -> 0 < assign (assign m2 (s_j pi) (s_i pi) h) (s_i pi) (s_j pi) hT x y).
      { intros x y H2. apply assign_pos; auto. right. apply assign_pos; auto. }
      assert (Both : forall p a b, In p (concat (snd (pair_groups tol disTol bs ns rs))) -> (a < n_ (fst p))%nat -> (b < n_ (snd p))%nat ->
        0 < assign (assign m2 (s_j pi) (s_i pi) h) (s_i pi) (s_j pi) hT (first ns (snd p) + b)%nat (first ns (fst p) + a)%nat /\
        0 < assign (assign m2 (s_j pi) (s_i pi) h) (s_i pi) (s_j pi) hT (first ns (fst p) + a)%nat (first ns (snd p) + b)%nat).
      { intros p a b Hp Ha Hb. destruct (Cp p a b Hp Ha Hb) as [k Hk]. split.
        - apply assign_pos; auto. right. apply assign_pos; auto. left. eapply Vc; [apply Eh|exact Hk].
        - apply assign_pos; auto. left. destruct (Vc pi hT _ (proj2 (proj2 Et)) _ _ _ Hk) as [v Hv]. exists v. apply combine_swap. exact Hv. }
      destruct W as [L1 _]. destruct (owner_exists ns r Hr) as [x [Hx Ox]]. destruct (owner_exists ns c Hc) as [y [Hy Oy]]. rewrite L1 in Hx, Hy. unfold owns in Ox, Oy.
      replace r with (first ns x + (r - first ns x))%nat by lia. replace c with (first ns y + (c - first ns y))%nat by lia.
      destruct (Nat.eq_dec x y) as [->|Nxy].
      - apply Keep, Q1. destruct (selfs_once tol bs ns rs Ne) as [_ So]. pose proof (proj2 (So y) Hy) as H. apply in_app_or in H.
        assert (Hd : In (y, y) (concat (map (map (fun n => (n, n))) (fst (self_groups tol bs ns rs)))) \/ In (y, y) (concat (map (map (fun n => (n, n))) (snd (self_groups tol bs ns rs))))).
        { destruct H as [H|H]; [left|right]; rewrite <- concat_map; apply (in_map (fun n => (n, n))); auto. }
        destruct Hd as [Hd|Hd].
        + destruct (Cv (y, y) (c - first ns y)%nat (r - first ns y)%nat Hd) as [k Hk]; cbn [fst snd] in *; try lia.
          apply assign_pos; auto. right. apply assign_pos; auto. left. eapply Vc; [apply Ev|exact Hk].
        + destruct (Ci (y, y) (c - first ns y)%nat (r - first ns y)%nat Hd) as [k Hk]; cbn [fst snd] in *; try lia.
          apply assign_pos; auto. left. eapply Vc; [apply Ei|exact Hk].
      - destruct (pairs_once tol disTol bs ns rs) as [_ [_ P2]]. destruct (P2 x y Hx Hy Nxy) as [H|H]; apply in_app_or in H; destruct H as [H|H].
        + apply Keep. apply (Q2 (x, y)); cbn [fst snd]; auto; lia.
        + apply (Both (x, y)); cbn [fst snd]; auto; lia.
        + apply Keep. apply (Q2 (y, x)); cbn [fst snd]; auto; lia.
        + apply (Both (y, x)); cbn [fst snd]; auto; lia.
    Qed.
  End Positive.
End All.
