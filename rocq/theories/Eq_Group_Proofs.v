From Verif Require Import Base LinAlg FLS_Model.
From Verif Require Import Bore_Model Solve_Model Detailed_Model Detailed_Spec Sim_Model Sim_Group_Proofs Eq_Model Eq_Spec.
From Coq Require Import Permutation.

Local Notation b_ bs i := (nth i bs no_bore).

Section Unique.
  Variables (tol : R) (bs : list bore).
  Definition uq_sim (i m : nat) : option nat := if eq_compare tol (b_ bs i) (b_ bs m) then Some i else None.
  Definition uq_rel (h y : nat) : Prop := eq_compare tol (b_ bs y) (b_ bs h) = true.
  Definition uq (l : list nat) (gs : list (list nat)) : list (list nat) := fold_left (fun gs i => add_group (uq_sim i) i gs) l gs.

  Lemma uq_is : unique_boreholes tol bs = uq (seq 0 (length bs)) [].
  Proof. reflexivity. Qed.
  Lemma uq_sim_id i h y : uq_sim i h = Some y -> y = i.
  Proof. unfold uq_sim. destruct eq_compare; congruence. Qed.
  Lemma uq_perm l : forall gs, Permutation (concat (uq l gs)) (rev l ++ concat gs).
  Proof.
    induction l as [|i l IH]; intros gs; cbn [uq fold_left rev]; [reflexivity|]. fold (uq l (add_group (uq_sim i) i gs)). rewrite IH, <- app_assoc.
    apply Permutation_app_head. cbn [app]. pose proof (add_group_perm (fun x : nat => x) (uq_sim i) i (fun h y E => uq_sim_id i h y E) gs) as P. rewrite !map_id in P. exact P.
  Qed.
  Lemma uq_grouped l : forall gs, Forall (grouped uq_rel) gs -> Forall (grouped uq_rel) (uq l gs).
  Proof.
    induction l as [|i l IH]; intros gs H; cbn [uq fold_left]; auto. apply IH. apply add_group_grouped; auto.
    intros h y E. pose proof (uq_sim_id _ _ _ E). subst y. unfold uq_sim in E. unfold uq_rel. destruct eq_compare; congruence.
  Qed.
  Lemma unique_perm : Permutation (concat (unique_boreholes tol bs)) (seq 0 (length bs)).
  Proof. rewrite uq_is, uq_perm. cbn [concat]. rewrite app_nil_r. symmetry. apply Permutation_rev. Qed.
  Lemma unique_grouped : Forall (grouped uq_rel) (unique_boreholes tol bs).
  Proof. rewrite uq_is. apply uq_grouped. constructor. Qed.

  (** * boreholes in blocks *)
  Hypothesis Ht : 0 < tol.
  Hypothesis Da : dims_apart tol bs.
  Hypothesis Pos : forall b, In b bs -> 0 < bH b /\ 0 <= bD b /\ 0 < br b.
  Hypothesis Bl : in_blocks bs.
  Local Notation same a b := (same_dims (b_ bs a) (b_ bs b)).

  Lemma same_sym a b : same_dims a b -> same_dims b a.
  Proof. intros [A [B C]]. repeat split; auto. Qed.
  Lemma same_trans a b c : same_dims a b -> same_dims b c -> same_dims a c.
  Proof. intros [A [B C]] [A' [B' C']]. repeat split; congruence. Qed.

  Lemma compare_same i m : (i < length bs)%nat -> (m < length bs)%nat -> (eq_compare tol (b_ bs i) (b_ bs m) = true <-> same i m).
  Proof.
    intros Hi Hm. pose proof (nth_In bs no_bore Hi) as Ii. pose proof (nth_In bs no_bore Hm) as Im. destruct (Pos _ Ii) as [P1 [P2 P3]].
    assert (T : 0 < tiny) by (unfold tiny; apply Rinv_0_lt_compat, pow_lt; lra).
    assert (Q : forall x y, 0 < y -> (Rabs (x / y) < tol <-> Rabs x < tol * y)).
    { intros x y Hy. unfold Rdiv. rewrite Rabs_mult, (Rabs_right (/ y)) by (left; apply Rinv_0_lt_compat; auto). split; intros H.
      - apply (Rmult_lt_compat_r y) in H; auto. rewrite Rmult_assoc, Rinv_l in H by lra. lra.
      - apply (Rmult_lt_reg_r y); auto. rewrite Rmult_assoc, Rinv_l by lra. lra. }
    unfold eq_compare. rewrite !andb_true_iff, !Rltb_true, !Q by lra. split.
    - intros [[A B] C]. apply Da; auto.
    - intros [A [B C]]. rewrite A, B, C, !Rminus_eq_0, Rabs_R0. rewrite A, C in *. rewrite B in P2. repeat split; apply Rmult_lt_0_compat; lra.
  Qed.

  Lemma add_last {A} (sim : A -> option A) x gs g : (forall h t, In (h :: t) gs -> sim h = None) -> add_group sim x (gs ++ [g]) = gs ++ add_group sim x [g].
  Proof.
    induction gs as [|k gs IH]; intros H; auto. cbn [app add_group]. destruct k as [|h t].
    - rewrite IH; auto. intros h t I. apply (H h t). right; auto.
    - rewrite (H h t) by (left; auto). rewrite IH; auto. intros h' t' I. apply (H h' t'). right; auto.
  Qed.

  Definition inv (k : nat) (gs : list (list nat)) : Prop :=
    concat gs = seq 0 k /\ (forall g, In g gs -> g <> [] /\ forall x y, In x g -> In y g -> same x y) /\
    (forall x y, (x < k)%nat -> (y < k)%nat -> same x y -> exists g, In g gs /\ In x g /\ In y g).

  Lemma in_seq_concat k gs g x : concat gs = seq 0 k -> In g gs -> In x g -> (x < k)%nat.
  Proof. intros E I Ix. assert (J : In x (concat gs)) by (apply in_concat; eauto). rewrite E in J. apply in_seq in J. lia. Qed.

  Lemma inv_step k gs : (k < length bs)%nat -> inv k gs -> inv (S k) (add_group (uq_sim k) k gs).
  Proof.
    intros Hk [C [G S]]. assert (Sr : forall a, same a a) by (intros; repeat split).
    assert (X : gs = [] \/ exists gs' g, gs = gs' ++ [g]) by (destruct gs as [|a l]; [left; auto|right; destruct (@exists_last _ (a :: l)) as [l' [g ->]]; [discriminate|eauto]]).
    destruct X as [->|[gs' [g ->]]].
    - cbn in C. destruct k; [|discriminate]. cbn [add_group]. split; [reflexivity|]. split.
      + intros g [<-|[]]. split; [discriminate|]. intros x y [<-|[]] [<-|[]]; auto.
      + intros x y Hx Hy _. exists [O]. assert (x = O) by lia. assert (y = O) by lia. subst. repeat split; left; auto.
    - assert (N : NoDup (concat gs' ++ g)). { rewrite concat_app in C. cbn [concat] in C. rewrite app_nil_r in C. rewrite C. apply seq_NoDup. }
      assert (C' : concat gs' ++ g = seq 0 k) by (rewrite concat_app in C; cbn [concat] in C; rewrite app_nil_r in C; auto).
      destruct (G g) as [Gn Gs]; [apply in_or_app; right; left; auto|].
      assert (K : exists j, k = Datatypes.S j /\ In j g).
      { destruct k as [|j]; [destruct (concat gs'), g; cbn in C'; congruence|]. exists j. split; auto.
        rewrite seq_S in C'. destruct (exists_last Gn) as [g0 [z ->]]. rewrite app_assoc in C'. apply app_inj_tail in C'. destruct C' as [_ ->]. cbn. apply in_or_app. right; left; auto. }
      destruct K as [j [-> Hj]].
      assert (D : forall x, In x (concat gs') -> In x g -> False).
      { intros x A B. clear - N A B. induction (concat gs') as [|a l IH]; [destruct A|]. inversion N; subst. destruct A as [->|A]; [apply H1, in_or_app; auto|auto]. }
      assert (B : forall x, In x (concat gs') -> ~ same x (Datatypes.S j)).
      { intros x Hx Sx. assert (Hxj : (x < j)%nat).
        { assert (x < Datatypes.S j)%nat. { assert (Hq : In x (seq 0 (Datatypes.S j))) by (rewrite <- C'; apply in_or_app; auto). rewrite in_seq in Hq. lia. }
          destruct (Nat.eq_dec x j) as [->|]; [|lia]. destruct (D j); auto. }
        pose proof (Bl x j (Datatypes.S j) Hxj ltac:(lia) Hk Sx) as Q. destruct (S x j ltac:(lia) ltac:(lia) Q) as [g1 [I1 [X1 J1]]].
        apply in_app_or in I1. destruct I1 as [I1|[<-|[]]]; [apply (D j); auto; apply in_concat; eauto|apply (D x); auto]. }
      rewrite add_last.
      2: { intros h t I. unfold uq_sim. destruct (eq_compare tol (b_ bs (Datatypes.S j)) (b_ bs h)) eqn:Q; auto. exfalso.
           assert (Ih : In h (concat gs')) by (apply in_concat; exists (h :: t); split; auto; left; auto).
           apply compare_same in Q; auto; [apply (B h Ih), same_sym; auto|].
           assert (Hq : In h (seq 0 (Datatypes.S j))) by (rewrite <- C'; apply in_or_app; auto). rewrite in_seq in Hq. lia. }
      destruct g as [|h t]; [congruence|]. cbn [add_group].
      assert (Hh : (h < Datatypes.S j)%nat). { assert (Hq : In h (seq 0 (Datatypes.S j))) by (rewrite <- C'; apply in_or_app; right; left; auto). rewrite in_seq in Hq. lia. }
      unfold uq_sim. destruct (eq_compare tol (b_ bs (Datatypes.S j)) (b_ bs h)) eqn:Q.
      + apply compare_same in Q; auto; [|lia]. rewrite concat_app in C. split; [|split].
        * rewrite concat_app. cbn [concat]. rewrite !app_nil_r, app_assoc, C'. rewrite (seq_S (Datatypes.S j)). reflexivity.
        * intros g' I. apply in_app_or in I. destruct I as [I|[<-|[]]]; [apply G, in_or_app; auto|]. split; [discriminate|].
          assert (Z : forall z, In z ((h :: t) ++ [Datatypes.S j]) -> same h z).
          { intros z I. apply in_app_or in I. destruct I as [I|[<-|[]]]; [apply Gs; auto; left; auto|apply same_sym; auto]. }
          intros x y Ix Iy. apply same_trans with (b_ bs h); [apply same_sym|]; apply Z; auto.
        * assert (L : forall x, (x < Datatypes.S j)%nat -> same x (Datatypes.S j) -> In x ((h :: t) ++ [Datatypes.S j])).
          { intros x Hx Sx. assert (I : In x (seq 0 (Datatypes.S j))) by (apply in_seq; lia). rewrite <- C' in I. apply in_app_or in I. destruct I as [I|I]; [destruct (B x I Sx)|apply in_or_app; auto]. }
          assert (Le : In (Datatypes.S j) ((h :: t) ++ [Datatypes.S j])) by (apply in_or_app; right; left; auto).
          intros x y Hx Hy Sxy. destruct (Nat.eq_dec x (Datatypes.S j)) as [->|Nx], (Nat.eq_dec y (Datatypes.S j)) as [->|Ny].
          -- exists ((h :: t) ++ [Datatypes.S j]). split; [apply in_or_app; right; left; auto|auto].
          -- exists ((h :: t) ++ [Datatypes.S j]). split; [apply in_or_app; right; left; auto|]. split; auto. apply L; [lia|apply same_sym; auto].
          -- exists ((h :: t) ++ [Datatypes.S j]). split; [apply in_or_app; right; left; auto|]. split; auto. apply L; [lia|auto].
          -- destruct (S x y ltac:(lia) ltac:(lia) Sxy) as [g1 [I1 [X1 Y1]]]. apply in_app_or in I1. destruct I1 as [I1|[<-|[]]].
             ++ exists g1. split; [apply in_or_app; auto|auto].
             ++ exists ((h :: t) ++ [Datatypes.S j]). split; [apply in_or_app; right; left; auto|]. split; apply in_or_app; auto.
      + assert (Nh : ~ same h (Datatypes.S j)). { intros A. apply same_sym in A. apply compare_same in A; [congruence|auto|lia]. }
        assert (L : forall x, (x < Datatypes.S j)%nat -> ~ same x (Datatypes.S j)).
        { intros x Hx Sx. assert (I : In x (seq 0 (Datatypes.S j))) by (apply in_seq; lia). rewrite <- C' in I. apply in_app_or in I. destruct I as [I|I]; [apply (B x I Sx)|].
          apply Nh. apply same_trans with (b_ bs x); auto. apply Gs; auto. left; auto. }
        change (gs' ++ [h :: t; [Datatypes.S j]]) with (gs' ++ [h :: t] ++ [[Datatypes.S j]]). rewrite app_assoc. split; [|split].
        * rewrite concat_app, C. cbn [concat]. rewrite app_nil_r, (seq_S (Datatypes.S j)). reflexivity.
        * intros g' I. apply in_app_or in I. destruct I as [I|[<-|[]]]; [apply G; auto|]. split; [discriminate|]. intros x y [<-|[]] [<-|[]]; auto.
        * intros x y Hx Hy Sxy. destruct (Nat.eq_dec x (Datatypes.S j)) as [->|Nx], (Nat.eq_dec y (Datatypes.S j)) as [->|Ny].
          -- exists [Datatypes.S j]. split; [apply in_or_app; right; left; auto|split; left; auto].
          -- destruct (L y); [lia|apply same_sym; auto].
          -- destruct (L x); [lia|auto].
          -- destruct (S x y ltac:(lia) ltac:(lia) Sxy) as [g1 [I1 X1]]. exists g1. split; [apply in_or_app; auto|auto].
  Qed.

  Lemma unique_blocks : inv (length bs) (unique_boreholes tol bs).
  Proof.
    rewrite uq_is. assert (Q : forall k, (k <= length bs)%nat -> inv k (uq (seq 0 k) [])).
    { induction k as [|k IH]; intros Hk.
      - split; [reflexivity|]. split; [intros g []|intros; lia].
      - rewrite seq_S. unfold uq in *. rewrite fold_left_app. cbn [fold_left]. apply inv_step; [lia|apply IH; lia]. }
    apply Q. lia.
  Qed.
End Unique.
