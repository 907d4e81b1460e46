(** Comparison of networks of the same boreholes (C143), and longer boreholes (C142). *)
From Coq Require Import Reals Lra Lia List ZArith.
From Verif Require Import Base Net_Model Net_Spec Net_Coef_Proofs Net_Equiv_Proofs Bore_Model Pipe_Model Pipe_Spec
  Pipe_Props Flow_Proofs NetR_Spec NetR_Proofs NetFlow_Proofs.
Import ListNotations.
Local Open Scope R_scope.

Lemma theta_scale k x n : 1 <= k -> 0 < x -> (1 <= n)%nat -> theta k (INR n * x) <= INR n * theta k x.
Proof.
  intros Hk Hx Hn. destruct (Nat.eq_dec n 1) as [->|Hn1]; [cbn [INR]; rewrite !Rmult_1_l; lra|].
  assert (1 < INR n) by (change 1 with (INR 1); apply lt_INR; lia).
  pose proof (theta_ratio k x (INR n * x) Hk Hx ltac:(nra)) as T.
  apply Rmult_le_reg_r with x; auto. lra.
Qed.

(* Jensen's inequality for the exponential *)
Lemma exp_mean q (z : nat -> R) : (0 < q)%nat -> exp (sumn q z / INR q) <= sumn q (fun k => exp (z k)) / INR q.
Proof.
  intros Hq. assert (Q : 0 < INR q) by (apply lt_0_INR; auto). set (c := sumn q z / INR q).
  apply Rmult_le_reg_r with (INR q); auto. unfold Rdiv at 1. rewrite (Rmult_assoc (sumn q _)), Rinv_l, Rmult_1_r by lra.
  apply Rle_trans with (sumn q (fun k => exp c * (1 + (z k - c)))).
  - right. rewrite sumn_scal, sumn_plus, sumn_minus, !sumn_const. replace (sumn q z) with (INR q * c) by (unfold c; field; lra). ring.
  - apply sumn_le. intros k Hk. replace (exp (z k)) with (exp c * exp (z k - c)) by (rewrite <- exp_plus; f_equal; ring).
    apply Rmult_le_compat_l; [left; apply exp_pos|apply exp_ineq1_le].
Qed.

Lemma lengths_sum N : wf N -> sumn (nInlets N) (fun k => INR (circuit_len N k)) = INR (nB N).
Proof.
  intros W. pose proof (sum_groups (nB N) (nInlets N) (fun i => nth i (n_circ N) O) (fun _ => 1)) as S.
  rewrite (circ_list N W), sumn_const, Rmult_1_r in S. rewrite S by (intros; apply W; auto).
  apply sumn_ext. intros. unfold circuit_len. ring.
Qed.

Lemma exp_le_mono a b : a <= b -> exp a <= exp b.
Proof. intros [L| ->]; [left; apply exp_increasing; auto|right; auto]. Qed.

(* No network is below the mean length *)
Lemma amean_ge N t : wf N -> exp (-2 * (INR (nB N) / INR (nInlets N)) * t) <= amean (nInlets N) (circuit_len N) t.
Proof.
  intros W. unfold amean. pose proof (inlets_pos N W). pose proof (exp_mean (nInlets N) (fun k => -2 * INR (circuit_len N k) * t) (inlets_nat N W)) as E.
  eapply Rle_trans; [|exact E]. right. f_equal.
  rewrite (sumn_ext _ _ (fun k => INR (circuit_len N k) * (-2 * t))) by (intros; ring).
  rewrite sumn_scal_r, (lengths_sum N W). field. lra.
Qed.

Lemma amean_balanced N t l : wf N -> (forall k, (k < nInlets N)%nat -> circuit_len N k = l) ->
  amean (nInlets N) (circuit_len N) t = exp (-2 * INR l * t) /\ INR (nB N) = INR (nInlets N) * INR l.
Proof.
  intros W H. pose proof (inlets_pos N W) as I0. split.
  - unfold amean. rewrite (sumn_ext _ _ (fun _ => exp (-2 * INR l * t))) by (intros k Hk; rewrite (H k Hk); reflexivity).
    rewrite sumn_const. field. lra.
  - rewrite <- (lengths_sum N W). rewrite (sumn_ext _ _ (fun _ => INR l)) by (intros k Hk; rewrite (H k Hk); reflexivity).
    apply sumn_const.
Qed.

Section Order.
Variables (N N' : net) (u : utube) (d e : nat) (x cp : R).
Hypothesis W : wf N.
Hypothesis W' : wf N'.
Hypothesis C0 : 0 <= cond u d e.
Hypothesis EB : nB N = nB N'.
Hypothesis G : good_flow u (share N x) cp 1 None d e.
Hypothesis G' : good_flow u (share N' x) cp 1 None d e.

Lemma eta_share M : wf M -> good_flow u (share M x) cp 1 None d e ->
  eta u (share M x) cp d e = INR (nInlets M) * (bH (u_b u) * root u d e / (Rabs x * cp)).
Proof.
  intros WM GM. destruct (share_flow M u d e WM x cp GM) as (_ & _ & X & S). unfold eta. rewrite S.
  pose proof (inlets_pos M WM). field. repeat split; try lra; intros Z; rewrite Z in X; lra.
Qed.

Lemma base_pos : 0 < bH (u_b u) * root u d e / (Rabs x * cp).
Proof.
  destruct (share_flow N u d e W x cp G) as (_ & _ & X & _). apply Rdiv_lt_0_compat; auto.
  apply Rmult_lt_0_compat; [apply G|apply (root_pos _ _ _ _ _ G)].
Qed.

Lemma series_least : nInlets N' = 1%nat -> fmean N' u d e x cp <= fmean N u d e x cp.
Proof.
  intros I1. pose proof base_pos as B0. pose proof (kap_ge1 _ _ _ _ _ G C0) as K1. unfold fmean.
  assert (LN : forall k, (k < nInlets N')%nat -> circuit_len N' k = nB N').
  { intros k Hk. apply INR_eq. rewrite <- (lengths_sum N' W'). rewrite I1 in *. replace k with O by lia. cbn [sumn]. ring. }
  rewrite (proj1 (amean_balanced N' _ (nB N') W' LN)).
  eapply Rle_trans; [|apply (amean_ge N _ W)]. apply exp_le_mono.
  rewrite (eta_share N W G), (eta_share N' W' G'), I1. cbn [INR]. rewrite Rmult_1_l.
  set (b := bH (u_b u) * root u d e / (Rabs x * cp)) in *. pose proof (inlets_pos N W) as I0.
  pose proof (theta_scale (kap u d e) b (nInlets N) K1 B0 (inlets_nat N W)) as T.
  rewrite <- EB. assert (P : 0 < INR (nB N)) by (apply lt_0_INR; apply W).
  replace (-2 * (INR (nB N) / INR (nInlets N)) * theta (kap u d e) (INR (nInlets N) * b))
    with (- (2 * INR (nB N) / INR (nInlets N) * theta (kap u d e) (INR (nInlets N) * b))) by (field; lra).
  replace (-2 * INR (nB N) * theta (kap u d e) b)
    with (- (2 * INR (nB N) / INR (nInlets N) * (INR (nInlets N) * theta (kap u d e) b))) by (field; lra).
  apply Ropp_le_contravar, Rmult_le_compat_l; auto. apply Rlt_le, Rdiv_lt_0_compat; lra.
Qed.

Lemma parallel_most l : nInlets N' = nB N' -> (forall k, (k < nInlets N)%nat -> circuit_len N k = l) ->
  fmean N u d e x cp <= fmean N' u d e x cp.
Proof.
  intros I1 LN. pose proof base_pos as B0. pose proof (kap_ge1 _ _ _ _ _ G C0) as K1. unfold fmean.
  destruct (amean_balanced N (theta (kap u d e) (eta u (share N x) cp d e)) l W LN) as [A B]. rewrite A.
  eapply Rle_trans; [|apply (amean_ge N' _ W')]. apply exp_le_mono.
  rewrite (eta_share N W G), (eta_share N' W' G'), I1, <- EB.
  pose proof (inlets_pos N W) as I0. assert (P : 0 < INR (nB N)) by (apply lt_0_INR; apply W).
  set (b := bH (u_b u) * root u d e / (Rabs x * cp)) in *.
  assert (L0 : (1 <= l)%nat) by (rewrite <- (LN O (inlets_nat N W)); apply circuit_pos; auto; apply inlets_nat; auto).
  pose proof (theta_scale (kap u d e) (INR (nInlets N) * b) l K1 ltac:(apply Rmult_lt_0_compat; auto) L0) as T.
  replace (INR (nB N) * b) with (INR l * (INR (nInlets N) * b)) by (rewrite B; ring).
  replace (INR (nB N) / INR (nB N)) with 1 by (field; lra). lra.
Qed.
End Order.

(* The resistance grows with the factor of the network *)
Lemma mean_to_R H r f1 f2 : 0 < H -> 0 < r -> f1 <= f2 -> 0 < f1 -> f2 < 1 ->
  1/2 * H * (1 + f1) / (r * (1 - f1)) <= 1/2 * H * (1 + f2) / (r * (1 - f2)).
Proof.
  intros H0 R0 L F1 F2. unfold Rdiv.
  apply Rmult_le_compat; [|left; apply Rinv_0_lt_compat, Rmult_lt_0_compat; lra| |].
  - repeat apply Rmult_le_pos; lra.
  - apply Rmult_le_compat_l; lra.
  - apply Rinv_le_contravar; [apply Rmult_lt_0_compat; lra|]. apply Rmult_le_compat_l; lra.
Qed.

(* Longer boreholes with the same resistances *)
Lemma same_root u1 u2 d e : u_Rd u1 = u_Rd u2 -> wall u1 d e = wall u2 d e /\ root u1 d e = root u2 d e /\ kap u1 d e = kap u2 d e.
Proof.
  intros E. assert (Wl : wall u1 d e = wall u2 d e) by (unfold wall; rewrite !(same_circuit u1 u2) by auto; reflexivity).
  assert (Rt : root u1 d e = root u2 d e) by (unfold root; rewrite Wl, (same_circuit u1 u2 d e E); reflexivity).
  unfold kap. rewrite Wl, Rt. auto.
Qed.

Lemma length_compare N u1 u2 d e x cp : wf N -> 0 <= cond u1 d e -> u_Rd u1 = u_Rd u2 ->
  good_flow u1 (share N x) cp 1 None d e -> good_flow u2 (share N x) cp 1 None d e -> bH (u_b u1) < bH (u_b u2) ->
  fmean N u2 d e x cp < fmean N u1 d e x cp
  /\ bH (u_b u1) * (1 + fmean N u1 d e x cp) / (1 - fmean N u1 d e x cp)
     < bH (u_b u2) * (1 + fmean N u2 d e x cp) / (1 - fmean N u2 d e x cp).
Proof.
  intros W C0 ER G1 G2 L. destruct (same_root u1 u2 d e ER) as (_ & RT & KE).
  assert (C0' : 0 <= cond u2 d e) by (rewrite <- (same_circuit u1 u2 d e ER); auto).
  pose proof (kap_ge1 _ _ _ _ _ G1 C0) as K1.
  pose proof (rate_pos _ _ _ _ _ G1) as R0. pose proof (root_pos _ _ _ _ _ G1) as W0.
  set (r := Rabs (share N x) * cp) in *.
  assert (E1 : eta u1 (share N x) cp d e = root u1 d e / r * bH (u_b u1)) by (unfold eta; fold r; field; lra).
  assert (E2 : eta u2 (share N x) cp d e = root u1 d e / r * bH (u_b u2)) by (unfold eta; fold r; rewrite RT; field; lra).
  assert (Q : 0 < root u1 d e / r) by (apply Rdiv_lt_0_compat; auto).
  assert (EL : eta u1 (share N x) cp d e < eta u2 (share N x) cp d e) by (rewrite E1, E2; apply Rmult_lt_compat_l; auto).
  pose proof (eta_positive _ _ _ _ _ G1) as Z1.
  assert (CP := fun k Hk => circuit_pos N k W Hk).
  pose proof (theta_positive N u1 d e C0 x cp G1) as T1. pose proof (theta_positive N u2 d e C0' x cp G2) as T2.
  unfold fmean. rewrite <- KE in *. split.
  - apply amean_down; [exact (inlets_nat N W)|exact CP|exact T1|apply theta_up; auto].
  - pose proof (composed_up (nInlets N) (circuit_len N) (inlets_nat N W) CP (kap u1 d e) _ _ K1 Z1 EL) as U.
    pose proof (amean_lt1 _ _ (inlets_nat N W) CP _ T1) as A1. pose proof (amean_lt1 _ _ (inlets_nat N W) CP _ T2) as A2.
    set (a1 := amean _ _ (theta (kap u1 d e) (eta u1 _ _ _ _))) in *. set (a2 := amean _ _ (theta (kap u1 d e) (eta u2 _ _ _ _))) in *.
    rewrite E1, E2 in U. apply Rmult_lt_reg_l with (root u1 d e / r); auto.
    unfold Rdiv in *. rewrite !Rmult_assoc in *. exact U.
Qed.
