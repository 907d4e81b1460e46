(** Networks of passive boreholes are passive. *)
From Coq Require Import Reals Lra Lia List ZArith Bool Psatz.
From Verif Require Multi_Spec.
From Verif Require Import Base LinAlg Net_Model Net_Spec Net_Proofs Net_Coef_Proofs Net_Heat_Proofs Net_Cache_Proofs Net_More_Proofs Net_Extra_Proofs Passive_Spec.
Import ListNotations.
Local Open Scope R_scope.

Lemma sumn_lt n f g : (0 < n)%nat -> (forall i, (i < n)%nat -> f i <= g i) -> (exists i, (i < n)%nat /\ f i < g i) -> sumn n f < sumn n g.
Proof.
  intros _ Hle [i [Hi Hlt]].
  assert (X : sumn n f <= sumn n (fun j => if Nat.eqb j i then f i else g j)).
  { apply sumn_le. intros j Hj. destruct (Nat.eqb_spec j i); [subst; lra|auto]. }
  assert (Y : sumn n (fun j => g j - (if Nat.eqb j i then f i else g j)) = g i - f i).
  { rewrite (sumn_single n i); auto.
    - rewrite Nat.eqb_refl. auto.
    - intros j _ Hne. replace (Nat.eqb j i) with false by (symmetry; apply Nat.eqb_neq; auto). lra. }
  rewrite sumn_minus in Y. lra.
Qed.

Lemma sumn_pos_ex n f : 0 < sumn n f -> exists i, (i < n)%nat /\ 0 < f i.
Proof.
  induction n as [|n IH]; simpl; intros H; [lra|]. destruct (Rlt_dec 0 (f n)) as [L|L]; [exists n; auto|].
  destruct IH as [i [Hi Hp]]; [lra|]. exists i. auto.
Qed.

Section Network.
  Variables (N : net) (ps : list pipe) (g : args) (F : fmt) (a o : coefs) (cp : R) (E : nat -> nat).
  Hypothesis (W : wf N) (G : good_args N ps g F) (Ha : coef_inlet N ps F = Some a) (Ho : coef_outlet N ps F = Some o)
    (Hcp : In cp (g_cp g)) (HE : ends N (f_rev F) E).
  Local Notation K := (seg_total (f_seg F)).

  Lemma net_rates : forall i, (i < nB N)%nat -> nth i (f_cpb F) 0 = cp.
  Proof. destruct (cpb_nth N g F W (proj1 G)) as [cp' [Q1 Q2]]. rewrite <- (Q1 _ Hcp) in Q2. exact Q2. Qed.

  (** what a function of the temperatures gains from the inlets to the outlets of all
      boreholes is what it gains along the circuits *)
  Lemma gain_by_circuit (f : R -> R) t Tb :
    sumn (nB N) (fun i => Rabs (nth i (f_mb F) 0) * nth i (f_cpb F) 0 * (f (apply_coefs K o t Tb i) - f (apply_coefs K a t Tb i)))
    = sumn (nInlets N) (fun k => Rabs (nth k (f_m F) 0) * cp * (f (apply_coefs K o t Tb (E k)) - f t)).
  Proof.
    set (w := fun i => nth (nth i (n_circ N) O) (map (fun m => Rabs m * cp) (f_m F)) 0).
    assert (Wm : forall k, nth k (map (fun m => Rabs m * cp) (f_m F)) 0 = Rabs (nth k (f_m F) 0) * cp).
    { intro k. destruct (Nat.lt_ge_cases k (length (f_m F))) as [Hk|Hk].
      - rewrite (nth_map _ _ _ 0) by auto. auto.
      - rewrite (nth_overflow (f_m F)) by auto. rewrite nth_overflow by (rewrite map_length; auto). rewrite Rabs_R0. lra. }
    transitivity (sumn (nB N) (fun j => w j * (f (apply_coefs K o t Tb j) - f (apply_coefs K a t Tb j)))).
    { apply sumn_ext. intros i Hi. unfold w. rewrite Wm, (mb_nth N g F i W (proj1 G) Hi), (net_rates i Hi). auto. }
    rewrite (flow_balance N (f_rev F) (f t) (fun i => f (apply_coefs K a t Tb i)) (fun i => f (apply_coefs K o t Tb i)) w W).
    - unfold w. rewrite (sum_ends N (f_rev F) E _ (fun i => f (apply_coefs K o t Tb i)) W HE), (sum_heads N _ (f_rev F) W).
      rewrite <- sumn_scal, <- sumn_minus. apply sumn_ext. intros k Hk. rewrite Wm. lra.
    - intros j Hj. destruct (coefs_connected N ps g F a o t Tb W G Ha Ho j Hj) as [C1 C2]. split.
      + intros i Hf. rewrite (C1 i Hf). auto.
      + intros Hn. rewrite (C2 Hn). auto.
    - intros i j Hf. unfold w. rewrite (feeds_circ N _ i j W Hf). auto.
  Qed.

  Lemma net_passive t c Tb : every_pipe Multi_Spec.pipe_passive N ps F ->
    1/2 * sumn (nInlets N) (fun k => Rabs (nth k (f_m F) 0) * cp * ((apply_coefs K o t Tb (E k) - c) ^ 2 - (t - c) ^ 2))
    <= sumn K (fun k => (Tb k - c) * apply_coefs K (coef_qb N ps F a) t Tb k).
  Proof.
    intros P. apply (every_all _ _ _ _ g W G) in P.
    rewrite <- (gain_by_circuit (fun x => (x - c) ^ 2) t Tb).
    destruct (good_lengths _ _ _ _ W G) as [_ [_ [_ [L4 _]]]].
    rewrite (sumn_segments (f_seg F)), L4, <- sumn_scal. apply sumn_le. intros i Hi.
    specialize (P i Hi c (apply_coefs K a t Tb i) (fun l => Tb (seg_off (f_seg F) i + l)%nat)). cbv zeta in P.
    rewrite (in_out_consistent N ps g F a o t Tb W G Ha Ho i Hi). unfold bore_outlet. eapply Rle_trans; [|eapply Rle_trans; [exact P|]].
    - right. ring.
    - right. apply sumn_ext. intros s Hs. f_equal. symmetry. exact (qb_apply N ps g F a t Tb i s W G Hi Hs).
  Qed.

  Lemma net_contracts : every_pipe pipe_contracts N ps F ->
    forall j, (j < nB N)%nat -> Rabs (apply_coefs K o 1 (fun _ => 0) j) < 1.
  Proof.
    intros P. apply (every_all _ _ _ _ g W G) in P.
    apply (flow_ind N (f_rev F)); auto. intros j Hj IH.
    assert (B : Rabs (apply_coefs K a 1 (fun _ => 0) j) <= 1).
    { destruct (coefs_connected N ps g F a o 1 (fun _ => 0) W G Ha Ho j Hj) as [C1 C2].
      destruct (feeds_dec (n_c N) (f_rev F) (nB N) j) as [[i [Hi Hf]]|Hn].
      - rewrite (C1 i Hf). left. auto.
      - rewrite (C2 Hn). rewrite Rabs_R1. lra. }
    rewrite (in_out_consistent N ps g F a o 1 (fun _ => 0) W G Ha Ho j Hj). unfold bore_outlet.
    specialize (P j Hj). unfold pipe_contracts in P.
    rewrite (sumn_zero _ (fun k => _ * 0)) by (intros; ring). rewrite Rplus_0_r, Rabs_mult.
    pose proof (Rabs_pos (apply_coefs K a 1 (fun _ => 0) j)). pose proof (Rabs_pos (fst (p_out (nth j ps no_pipe) (nth j (f_mb F) 0) (nth j (f_cpb F) 0) (nth j (f_seg F) O) (nth j (f_rat F) None)))).
    nra.
  Qed.

  Lemma net_takes_heat : every_pipe pipe_contracts N ps F -> 0 < cp -> 0 < total_flow N F ->
    fst (coef_net_heat N (coef_qf N ps F a)) O < 0.
  Proof.
    intros P C T. pose proof (net_contracts P) as Q.
    pose proof (heat_by_circuit N ps g F a o 1 (fun _ => 0) E cp W G Ha Ho Hcp HE) as X. cbv zeta in X.
    unfold apply_coefs in X at 1. rewrite (sumn_zero _ (fun k => _ * 0)) in X by (intros; ring). rewrite Rmult_1_r, Rplus_0_r in X. rewrite X.
    assert (B : forall k, (k < nInlets N)%nat -> apply_coefs K o 1 (fun _ => 0) (E k) < 1).
    { intros k Hk. destruct (HE k Hk) as [L _]. apply Rabs_def2. apply Q. unfold nB. auto. }
    apply Rlt_le_trans with (sumn (nInlets N) (fun _ => 0)); [|right; apply sumn_zero; auto]. apply sumn_lt.
    - unfold total_flow in T. destruct (nInlets N); [simpl in T; lra|lia].
    - intros k Hk. pose proof (B k Hk). pose proof (Rabs_pos (nth k (f_m F) 0)). assert (0 <= Rabs (nth k (f_m F) 0) * cp) by nra. nra.
    - unfold total_flow in T. destruct (sumn_pos_ex _ _ T) as [k [Hk Hp]]. exists k. split; auto. pose proof (B k Hk). assert (0 < Rabs (nth k (f_m F) 0) * cp) by nra. nra.
  Qed.
End Network.
