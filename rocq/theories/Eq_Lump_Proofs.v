(** Sources that are gathered into classes of sources that feel the same responses. *)
From Verif Require Import Base LinAlg Solve_Model Solve_Spec Solve_Loop_Proofs Solve_Rec_Proofs Solve_Eq_Proofs Solve_Sol_Proofs Solve_Extra_Proofs.

Section Lump.
  Variables (N K : nat) (c : nat -> nat) (H H' : vec) (resp resp' : nat -> nat -> R -> R) (time : list R).
  Hypothesis Cl : forall x, (x < N)%nat -> (c x < K)%nat.
  Hypothesis Co : forall i, (i < K)%nat -> exists x, (x < N)%nat /\ c x = i.
  Definition cls (f : nat -> R) (i : nat) : R := sumn N (fun x => if Nat.eqb (c x) i then f x else 0).
  Hypothesis Lp : forall t y i, In t time -> (y < N)%nat -> (i < K)%nat -> cls (fun x => resp y x t) i = resp' (c y) i t.
  Hypothesis Lh : forall i, (i < K)%nat -> cls H i = H' i.
  Hypothesis G : grid time.
  Hypothesis Np : (0 < N)%nat.

  Lemma Kp : (0 < K)%nat. Proof. specialize (Cl O Np). lia. Qed.
  Lemma cls_sum f v : sumn N (fun x => f x * v (c x)) = sumn K (fun i => cls f i * v i).
  Proof.
    unfold cls. rewrite (sumn_ext K _ (fun i => sumn N (fun x => (if Nat.eqb (c x) i then f x else 0) * v i))) by (intros; rewrite sumn_scal_r; auto).
    rewrite sumn_swap. apply sumn_ext. intros x Hx. rewrite (sumn_single K (c x)); [rewrite Nat.eqb_refl; auto|auto|].
    intros i Hi Nx. destruct (Nat.eqb_spec (c x) i); [congruence|ring].
  Qed.
  Lemma cls_lin a b f g i : cls (fun x => a * f x + b * g x) i = a * cls f i + b * cls g i.
  Proof. unfold cls. rewrite <- !sumn_scal, <- sumn_plus. apply sumn_ext. intros x _. destruct (Nat.eqb (c x) i); ring. Qed.
  Lemma cls_ext f g i : (forall x, (x < N)%nat -> f x = g x) -> cls f i = cls g i.
  Proof. intros E. apply sumn_ext. intros x Hx. rewrite E; auto. Qed.
  Lemma lump_total : sumn N H = sumn K H'.
  Proof.
    rewrite (sumn_ext N H (fun x => H x * 1)) by (intros; ring). rewrite (cls_sum H (fun _ => 1)). apply sumn_ext. intros i Hi. rewrite Lh by auto. ring.
  Qed.
  Lemma in_grid k : (k < length time)%nat -> In (at_time time (S k)) time. Proof. intros. rewrite at_Sn. apply nth_In; auto. Qed.

  (** the responses at the length of the step *)
  Lemma lump_h p h h' : (p < length time)%nat -> (forall i j, interpolated time (resp i j) (at_time time (S p) - at_time time p) (h i j)) ->
    (forall i j, interpolated time (resp' i j) (at_time time (S p) - at_time time p) (h' i j)) ->
    forall y i, (y < N)%nat -> (i < K)%nat -> cls (h y) i = h' (c y) i.
  Proof.
    intros Hp I I' y i Hy Hi. pose proof (proj2 G p Hp) as L. set (d := at_time time (S p) - at_time time p) in *. assert (Pd : 0 < d) by (unfold d; lra).
    destruct (I O O) as [m [Hm [B _]]]. rewrite (same_cell time (resp' (c y) i) d m (h' (c y) i) G Pd Hm B (I' _ _)).
    set (w := (d - at_time time m) / (at_time time (S m) - at_time time m)) in *. cbv zeta.
    pose proof (Lp (at_time time (S m)) y i (in_grid m Hm) Hy Hi) as E1. destruct m as [|m].
    - rewrite (cls_ext (h y) (fun x => w * resp y x (at_time time 1) + 0 * 0)).
      + rewrite (cls_lin w 0 (fun x => resp y x (at_time time 1)) (fun _ => 0)), E1. ring.
      + intros x Hx. rewrite (same_cell time (resp y x) d 0 (h y x) G Pd Hm B (I _ _)). fold w. cbv zeta. ring.
    - pose proof (Lp (at_time time (S m)) y i (in_grid m ltac:(lia)) Hy Hi) as E0.
      rewrite (cls_ext (h y) (fun x => w * resp y x (at_time time (S (S m))) + (1 - w) * resp y x (at_time time (S m)))).
      + rewrite (cls_lin w (1 - w) (fun x => resp y x (at_time time (S (S m)))) (fun x => resp y x (at_time time (S m)))), E1, E0. ring.
      + intros x Hx. rewrite (same_cell time (resp y x) d (S m) (h y x) G Pd Hm B (I _ _)). fold w. cbv zeta. ring.
  Qed.

  Lemma lump_system h h' (X' : vec) T T' : (forall y i, (y < N)%nat -> (i < K)%nat -> cls (h y) i = h' (c y) i) -> (forall y, (y < N)%nat -> T y = T' (c y)) ->
    (forall i, (i < K + 1)%nat -> sumn (K + 1) (fun j => ubwt_A K H' h' i j * X' j) = ubwt_B K H' T' i) ->
    forall i, (i < N + 1)%nat -> sumn (N + 1) (fun j => ubwt_A N H h i j * (if Nat.ltb j N then X' (c j) else X' K)) = ubwt_B N H T i.
  Proof.
    intros Eh ET S i Hi. replace (N + 1)%nat with (Datatypes.S N) by lia. cbn [sumn]. unfold ubwt_A, ubwt_B. rewrite !Nat.ltb_irrefl.
    rewrite (sumn_ext N _ (fun j => (if Nat.ltb i N then h i j else H j) * X' (c j))) by (intros j Hj; destruct (Nat.ltb_spec j N); [auto|lia]).
    rewrite (cls_sum _ X'). replace (K + 1)%nat with (Datatypes.S K) in S by lia.
    assert (Rw : forall k, (k < Datatypes.S K)%nat -> sumn K (fun j => (if Nat.ltb k K then h' k j else H' j) * X' j) + (if Nat.ltb k K then -1 else 0) * X' K = if Nat.ltb k K then - T' k else sumn K H').
    { intros k Hk. specialize (S k Hk). cbn [sumn] in S. unfold ubwt_A, ubwt_B in S. rewrite !Nat.ltb_irrefl in S. change (sumn K H') with (H_total K H'). rewrite <- S. f_equal. apply sumn_ext. intros j Hj. destruct (Nat.ltb_spec j K); [auto|lia]. }
    destruct (Nat.ltb_spec i N) as [L|L].
    - specialize (Rw (c i) ltac:(specialize (Cl i L); lia)). destruct (Nat.ltb_spec (c i) K) as [_|Q]; [|specialize (Cl i L); lia]. rewrite ET by auto. rewrite <- Rw. f_equal. apply sumn_ext. intros j Hj. rewrite Eh by auto. auto.
    - specialize (Rw K ltac:(lia)). rewrite Nat.ltb_irrefl in Rw. unfold H_total. rewrite lump_total, <- Rw. f_equal. apply sumn_ext. intros j Hj. rewrite Lh by auto. auto.
  Qed.

  Lemma lump_nonsing h h' : (forall y i, (y < N)%nat -> (i < K)%nat -> cls (h y) i = h' (c y) i) -> nonsingular (N + 1) (ubwt_A N H h) -> nonsingular (K + 1) (ubwt_A K H' h').
  Proof.
    intros Eh NS x Sx i Hi. set (X j := if Nat.ltb j N then x (c j) else x K).
    assert (Z : forall k, (k < N + 1)%nat -> sumn (N + 1) (fun j => ubwt_A N H h k j * X j) = 0).
    { intros k Hk. replace (N + 1)%nat with (S N) by lia. cbn [sumn]. unfold X, ubwt_A. rewrite !Nat.ltb_irrefl.
      rewrite (sumn_ext N _ (fun j => (if Nat.ltb k N then h k j else H j) * x (c j))) by (intros j Hj; destruct (Nat.ltb_spec j N); [auto|lia]).
      rewrite (cls_sum _ x). 
      assert (Rw : forall q, (q < S K)%nat -> sumn K (fun j => (if Nat.ltb q K then h' q j else H' j) * x j) + (if Nat.ltb q K then -1 else 0) * x K = 0).
      { intros q Hq. replace (K + 1)%nat with (S K) in Sx by lia. specialize (Sx q Hq). cbn [sumn] in Sx. unfold ubwt_A in Sx. rewrite !Nat.ltb_irrefl in Sx. etransitivity; [|exact Sx]. f_equal. apply sumn_ext. intros j Hj. destruct (Nat.ltb_spec j K); [auto|lia]. }
      destruct (Nat.ltb_spec k N) as [L|L].
      - specialize (Rw (c k) ltac:(specialize (Cl k L); lia)). destruct (Nat.ltb_spec (c k) K) as [_|Q]; [|specialize (Cl k L); lia]. etransitivity; [|exact Rw]. f_equal. apply sumn_ext. intros j Hj. rewrite Eh by auto. auto.
      - specialize (Rw K ltac:(lia)). rewrite Nat.ltb_irrefl in Rw. etransitivity; [|exact Rw]. f_equal. apply sumn_ext. intros j Hj. rewrite Lh by auto. auto. }
    pose proof (NS X Z) as All. destruct (Nat.eq_dec i K) as [->|N1].
    - specialize (All N ltac:(lia)). unfold X in All. rewrite Nat.ltb_irrefl in All. auto.
    - destruct (Co i ltac:(lia)) as [y [Hy <-]]. specialize (All y ltac:(lia)). unfold X in All. destruct (Nat.ltb_spec y N); [auto|lia].
  Qed.

  (** temperatures without load during the step *)
  Lemma lump_T p (past past' : list vec) h T h' T' : (p < length time)%nat -> length past = p -> length past' = p ->
    (forall k x, (k < p)%nat -> (x < N)%nat -> nth k past zero_vec x = nth k past' zero_vec (c x)) ->
    step_data N (on_grid resp) time 0 p (past ++ [zero_vec]) = Some (h, T) -> step_data K (on_grid resp') time 0 p (past' ++ [zero_vec]) = Some (h', T') ->
    (forall y i, (y < N)%nat -> (i < K)%nat -> cls (h y) i = h' (c y) i) /\ forall y, (y < N)%nat -> T y = T' (c y).
  Proof.
    intros Hp L L' Eq E E'. destruct (step_some N resp time p past G Hp L) as [h0 [T0 [E0 [I HT]]]]. rewrite E in E0. injection E0 as <- <-.
    destruct (step_some K resp' time p past' G Hp L') as [h0' [T0' [E0' [I' HT']]]]. rewrite E' in E0'. injection E0' as <- <-.
    split; [apply (lump_h p); auto|]. intros y Hy. rewrite HT, HT' by (auto; apply Kp).
    set (dm := fun (q : list R) k => mean_load (firstn (S p) time) q k - match k with O => 0 | S l => mean_load (firstn (S p) time) q l end).
    assert (TK : forall k, (k < S p)%nat -> In (at_time time (S p) - reversed_time (firstn (S p) time) k) time).
    { intros k Hk. assert (Rv : reversed_time (firstn (S p) time) k = at_time time (S p) - at_time time (S p - k)).
      { destruct (firstn_grid time p G Hp) as [Gp Lt]. unfold reversed_time, end_time. rewrite Lt. rewrite !firstn_at by lia. auto. }
      rewrite Rv. replace (S p - k)%nat with (S (p - k)) by lia. replace (at_time time (S p) - (at_time time (S p) - at_time time (S (p - k)))) with (at_time time (S (p - k))) by ring. apply in_grid. lia. }
    set (tk := fun k => at_time time (S p) - reversed_time (firstn (S p) time) k) in *.
    set (pj' := fun i => map (fun v : vec => v i) past' ++ [0]).
    assert (Pj : forall x, (x < N)%nat -> map (fun v : vec => v x) past ++ [0] = pj' (c x)).
    { intros x Hx. unfold pj'. f_equal. apply (list_eq_nth 0); [rewrite !map_length; lia|]. intros k Hk. rewrite map_length in Hk. rewrite !(nth_map _ _ _ zero_vec) by lia. apply Eq; auto; lia. }
    rewrite (sumn_ext N _ (fun x => sumn (S p) (fun k => resp y x (tk k) * dm (pj' (c x)) k))).
    2:{ intros x Hx. apply sumn_ext. intros k Hk. pose proof (Pj x Hx) as Px. unfold vec in *. rewrite Px. unfold dm, tk. ring. }
    rewrite sumn_swap. rewrite (sumn_ext (S p) _ (fun k => sumn K (fun i => resp' (c y) i (tk k) * dm (pj' i) k))).
    - rewrite sumn_swap. apply sumn_ext. intros i Hi. apply sumn_ext. intros k Hk. unfold dm, tk, pj'. unfold vec in *. rewrite Rmult_comm. reflexivity.
    - intros k Hk. rewrite (cls_sum (fun x => resp y x (tk k)) (fun i => dm (pj' i) k)). apply sumn_ext. intros i Hi. f_equal. apply Lp; auto. apply TK; auto.
  Qed.

  Lemma lump_ubwt Q g : solve_ubwt N H (on_grid resp) time 0 = Some (Q, g) ->
    exists Q', solve_ubwt K H' (on_grid resp') time 0 = Some (Q', g) /\
      forall p x, (p < length time)%nat -> (x < N)%nat -> nth p Q zero_vec x = nth p Q' zero_vec (c x).
  Proof.
    intros E. destruct (ubwt_lengths _ _ _ _ _ _ _ E) as [LQ Lg]. destruct (grid_positive time G) as [Po _].
    rewrite ubwt_zero in E by auto. destruct (run_length _ _ _ _ _ _ 0 E) as [_ [_ A]].
    assert (Ex : exists r, solve_ubwt K H' (on_grid resp') time 0 = Some r).
    { rewrite ubwt_zero by auto. apply run_some_if; auto. intros p h' T' Hp I'. destruct (A p Hp) as [h [T [E1 E2]]].
      destruct (step_some N resp time p (firstn p Q) G Hp ltac:(rewrite firstn_length; lia)) as [h0 [T0 [E0 [I _]]]]. rewrite E1 in E0. injection E0 as <- <-.
      pose proof (lump_h p h h' Hp I I') as Eh. unfold ubwt_sol in *. destruct (lin_solve (N + 1) (ubwt_A N H h) (ubwt_B N H T)) as [X|] eqn:EX; [|discriminate].
      pose proof (lump_nonsing h h' Eh (solve_nonsingular _ _ _ _ EX)) as NS. destruct (lin_solve_some _ _ (ubwt_B K H' T') NS) as [x ->]. eauto. }
    destruct Ex as [[Q' g'] E']. exists Q'. destruct (ubwt_lengths _ _ _ _ _ _ _ E') as [LQ' Lg']. pose proof E' as F'. rewrite ubwt_zero in F' by auto.
    destruct (run_length _ _ _ _ _ _ 0 F') as [_ [_ A']].
    assert (Main : forall p, (p < length time)%nat -> (forall x, (x < N)%nat -> nth p Q zero_vec x = nth p Q' zero_vec (c x)) /\ nth p g 0 = nth p g' 0).
    { induction p as [p IH] using lt_wf_ind. intros Hp. destruct (A p Hp) as [h [T [E1 E2]]]. destruct (A' p Hp) as [h' [T' [E1' E2']]].
      destruct (lump_T p (firstn p Q) (firstn p Q') h T h' T' Hp) as [Eh ET]; auto; try (rewrite firstn_length; lia).
      { intros k x Hk Hx. rewrite !nth_firstn by auto. apply (IH k Hk ltac:(lia)); auto. }
      unfold ubwt_sol in E2, E2'. destruct (lin_solve (N + 1) (ubwt_A N H h) (ubwt_B N H T)) as [X|] eqn:EX; [|discriminate]. injection E2 as EQ Eg.
      destruct (lin_solve (K + 1) (ubwt_A K H' h') (ubwt_B K H' T')) as [X'|] eqn:EX'; [|discriminate]. injection E2' as EQ' Eg'.
      pose proof (lump_system h h' X' T T' Eh ET (lin_solve_sound _ _ _ _ EX')) as Sy.
      pose proof (solution_unique _ _ _ _ _ (solve_nonsingular _ _ _ _ EX) (lin_solve_sound _ _ _ _ EX) Sy) as U.
      split.
      - intros x Hx. rewrite <- EQ, <- EQ'. specialize (U x ltac:(lia)). assert (B1 : Nat.ltb x N = true) by (apply Nat.ltb_lt; auto). assert (B2 : Nat.ltb (c x) K = true) by (apply Nat.ltb_lt; auto). cbv beta in *. rewrite B1 in *. rewrite B2. exact U.
      - rewrite <- Eg, <- Eg'. specialize (U N ltac:(lia)). cbv beta in U. rewrite Nat.ltb_irrefl in U. auto. }
    assert (g = g') by (apply (list_eq_nth 0); [congruence|intros k Hk; apply Main; lia]). subst g'. split; auto. intros p x Hp Hx. apply Main; auto.
  Qed.
End Lump.
