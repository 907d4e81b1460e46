(** Existence of the solution with a mixed inlet temperature. *)
From Verif Require Import Base LinAlg FLS_Model.
From Verif Require Import Net_Model Solve_Model Solve_Spec Solve_Loop_Proofs Solve_Rec_Proofs Solve_Eq_Proofs Solve_Sol_Proofs Solve_Extra_Proofs GFun_Model GFun_Spec.
Local Open Scope R_scope.

Section Exist.
  Variables (n : nat) (H : vec) (k_s : R).
  Hypothesis Hn : (0 < n)%nat.
  Hypothesis HH : forall i, (i < n)%nat -> 0 < H i.
  Hypothesis Hk : 0 < k_s.

  Lemma mift_nonsing (F : flow) h : definite n H h -> passive n F -> circulates n F -> nonsingular (2 * n + 1) (mift_A n H k_s H F h).
  Proof.
    intros D P [i0 [Hi0 Ni0]] X E. pose proof PI_RGT_0 as Pi.
    assert (E0 : sumn n (fun j => H j * X j) = 0).
    { specialize (E (2 * n)%nat ltac:(lia)). unfold mift_A in E. destruct (Nat.ltb_spec (2 * n) n); [lia|]. rewrite Nat.ltb_irrefl in E. rewrite <- E.
      rewrite (sumn_ext (2 * n + 1) _ (fun j => (if (j <? n)%nat then H j else if (j <? 2 * n)%nat then zero_vec (j - n)%nat else zero_vec j) * X j)).
      + rewrite mift_sum. unfold zero_vec. rewrite (sumn_zero n (fun j => 0 * X (n + j)%nat)) by (intros; ring). ring.
      + intros j Hj. destruct (j <? n)%nat; auto. destruct (j <? 2 * n)%nat; auto. }
    assert (E1 : forall i, (i < n)%nat -> sumn n (fun j => h i j * X j) = X (n + i)%nat).
    { intros i Hi. specialize (E i ltac:(lia)). unfold mift_A in E. destruct (Nat.ltb_spec i n); [|lia].
      rewrite (mift_sum n (fun j => h i j) (fun j => - id_mx i j) zero_vec) in E. unfold zero_vec in E.
      rewrite (sumn_ext n (fun j => - id_mx i j * X (n + j)%nat) (fun j => - (id_mx i j * X (n + j)%nat))) in E by (intros; ring).
      rewrite sumn_opp, (id_sum n i (fun j => X (n + j)%nat)) in E by auto. lra. }
    set (t := X (2 * n)%nat). set (T := fun i => X (n + i)%nat).
    assert (E2 : forall i, (i < n)%nat -> f_in F i * t + sumn n (fun j => f_b F i j * T j) = - (2 * PI * k_s * (H i * X i))).
    { intros i Hi. specialize (E (n + i)%nat ltac:(lia)). unfold mift_A in E.
      destruct (Nat.ltb_spec (n + i) n); [lia|]. destruct (Nat.ltb_spec (n + i) (2 * n)); [|lia]. replace (n + i - n)%nat with i in E by lia.
      rewrite (mift_sum n (fun j => id_mx i j) (fun j => f_b F i j / (2 * PI * k_s * H i)) (fun _ => f_in F i / (2 * PI * k_s * H i))) in E.
      rewrite id_sum in E by auto. fold t in E.
      rewrite (sumn_ext n _ (fun j => / (2 * PI * k_s * H i) * (f_b F i j * T j))) in E by (intros; unfold T, Rdiv; ring). rewrite sumn_scal in E.
      pose proof (HH i Hi) as Pi'. assert (Z : 0 < 2 * PI * k_s * H i) by (apply Rmult_lt_0_compat; [apply Rmult_lt_0_compat|]; lra).
      set (Y := sumn n (fun j => f_b F i j * T j)) in *.
      assert (f_in F i * t + Y = - (2 * PI * k_s * H i) * X i).
      { apply (Rmult_eq_reg_l (/ (2 * PI * k_s * H i))); [|apply Rinv_neq_0_compat; lra].
        replace (/ (2 * PI * k_s * H i) * (- (2 * PI * k_s * H i) * X i)) with (- X i) by (field; lra). unfold Rdiv in E. lra. }
      lra. }
    pose proof (P t T) as PP.
    assert (S1 : sumn n (fun i => (T i - t) * (f_in F i * t + sumn n (fun j => f_b F i j * T j))) = - (2 * PI * k_s) * sumn n (fun i => H i * X i * sumn n (fun j => h i j * X j))).
    { rewrite (sumn_ext n _ (fun i => - (2 * PI * k_s) * (H i * X i * sumn n (fun j => h i j * X j)) + 2 * PI * k_s * t * (H i * X i))).
      - rewrite sumn_plus, !sumn_scal, E0. ring.
      - intros i Hi. rewrite E2, E1 by auto. unfold T. ring. }
    rewrite S1 in PP.
    assert (Z : forall i, (i < n)%nat -> X i = 0).
    { intros i Hi. destruct (Req_dec (X i) 0) as [|N]; auto. exfalso. pose proof (D X (ex_intro _ i (conj Hi N))) as Q.
      assert (0 < 2 * PI * k_s) by (apply Rmult_lt_0_compat; lra). nra. }
    assert (ZT : forall i, (i < n)%nat -> T i = 0).
    { intros i Hi. unfold T. rewrite <- E1 by auto. apply sumn_zero. intros j Hj. rewrite Z by auto. ring. }
    assert (Zt : t = 0).
    { pose proof (E2 i0 Hi0) as Q. rewrite (sumn_zero n) in Q by (intros j Hj; rewrite ZT by auto; ring). rewrite Z in Q by auto.
      apply (Rmult_eq_reg_l (f_in F i0)); auto. lra. }
    intros i Hi. destruct (lt_dec i n) as [L|L]; [apply Z; auto|]. destruct (lt_dec i (2 * n)) as [L'|L'].
    - pose proof (ZT (i - n)%nat ltac:(lia)) as Q. unfold T in Q. replace (n + (i - n))%nat with i in Q by lia. auto.
    - replace i with (2 * n)%nat by lia. exact Zt.
  Qed.

  Lemma mift_run_some resp F tl : grid tl -> (forall t, In t tl -> definite n H (fun i j => resp i j t)) -> passive n F -> circulates n F ->
    exists r, grun n (on_grid resp) (mift_sol n H k_s H F) tl (seq 0 (length tl)) ([], []) = Some r.
  Proof.
    intros G D P C. apply run_some_if; auto. intros p h T Hp I. pose proof (grid_lt tl G p (S p) ltac:(lia) ltac:(lia)) as L.
    destruct (I O O) as [c [Hc [Bc _]]].
    assert (Dh : definite n H h).
    { apply (interpolated_definite n H resp tl (at_time tl (S p) - at_time tl p) h G); [lra|auto|]. exists c. split; auto. split; auto.
      intros i j. apply (same_cell tl (resp i j) _ c); auto. lra. }
    unfold mift_sol. destruct (lin_solve_some (2 * n + 1) (mift_A n H k_s H F h) (mift_B n H T) (mift_nonsing F h Dh P C)) as [x Ex]. rewrite Ex. eauto.
  Qed.

  Lemma mift_runs_some resp Fs tl : grid tl -> (forall t, In t tl -> definite n H (fun i j => resp i j t)) ->
    (forall F, In F Fs -> passive n F /\ circulates n F) -> exists rs, runs_of n H (on_grid resp) k_s H Fs tl = Some rs.
  Proof.
    intros G D A. unfold runs_of. induction Fs as [|F Fs IH]; [exists []; auto|].
    destruct IH as [rs E]; [intros; apply A; right; auto|]. cbn [map Net_Model.all_some]. destruct (A F (or_introl eq_refl)) as [P C].
    destruct (mift_run_some resp F tl G D P C) as [r Er]. rewrite Er, E. eauto.
  Qed.

  Lemma mift_exists resp Fs time : grid time -> (forall t, In t time -> definite n H (fun i j => resp i j t)) ->
    (forall F, In F Fs -> passive n F /\ circulates n F) -> exists r, solve_mift n H (on_grid resp) k_s H Fs time 0 = Some r.
  Proof.
    intros G D A. rewrite mift_zero by (apply grid_positive; auto). destruct (mift_runs_some resp Fs time G D A) as [rs ->]. eauto.
  Qed.
End Exist.
