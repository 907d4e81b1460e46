(** Boreholes with several U-tubes built with line source resistances. *)
From Coq Require Import Reals Lra Lia List Bool PeanoNat ZArith.
From Verif Require Import Base LinAlg LinInv Bore_Model Net_Model Pipe_Model Res_Model Res_Spec Res_Proofs Res_Geom_Proofs Def_Psd_Proofs
  Multi_Model Multi_Spec Cross_Model Cross_Spec Cross_Form_Proofs.
Local Open Scope R_scope.

Lemma repeat_nth (x : R) k i : (i < k)%nat -> nth i (repeat x k) 0 = x.
Proof. intros Hi. rewrite (nth_indep _ 0 x) by (rewrite repeat_length; auto). apply nth_repeat. Qed.

Lemma tube_fit pos r_in r_out rb ks kg Rfp n J : (0 < n)%nat -> length pos = (2 * n)%nat -> check_utube pos r_in r_out rb ks kg Rfp n (Z.of_nat J) = true ->
  pipes_fit (tube_args pos r_out rb ks kg Rfp J).
Proof.
  intros Hn L H. apply check_utube_iff in H; auto. destruct H as (H1 & H2 & H3 & H4 & H5 & H6 & D1 & D2). unfold pipes_fit, tube_args. cbn [a_pos a_rout a_rb a_ks a_kg a_Rfp]. rewrite !repeat_length. do 5 (split; [auto|]). split.
  - intros i Hi. rewrite !repeat_nth by auto. split; [lra|]. split; [auto|]. unfold p_x, p_y. cbn [a_pos]. apply disk_inside; [lra|lra|]. apply D1. lia.
  - intros i j Hi Hj Ne. rewrite !repeat_nth by auto. unfold p_x, p_y. cbn [a_pos]. replace (r_out + r_out) with (2 * r_out) by ring. apply disk_apart; [lra|]. apply D2; auto; lia.
Qed.

Lemma never_zero n M Rd : delta_circuit n M = Some Rd -> forall i j, match Rd i j with Res r => r <> 0 | Infinite => True end.
Proof.
  unfold delta_circuit. destruct (inv_mx n M) as [Ri|]; [|discriminate]. intros E. injection E as <-. intros i j. unfold inverse_of. destruct (Reqb _ 0) eqn:Z; auto.
  intros Q. assert (N : delta_K n Ri i j <> 0) by (intros X; rewrite <- not_true_iff_false, Reqb_true in Z; auto). apply (Rinv_neq_0_compat _ N). lra.
Qed.

Lemma symmetric_energy n (k : nat -> nat -> R) (x : nat -> R) : (forall p q, (p < n)%nat -> (q < n)%nat -> k p q = k q p) ->
  sumn n (fun p => sumn n (fun q => k p q * (x p * (x p - x q)))) = 1 / 2 * sumn n (fun p => sumn n (fun q => k p q * (x q - x p) ^ 2)).
Proof.
  intros Sy. set (s := sumn n (fun p => sumn n (fun q => k p q * (x p * (x p - x q))))).
  assert (E : s = sumn n (fun p => sumn n (fun q => k p q * (x q * (x q - x p))))).
  { unfold s. rewrite sumn_swap. apply sumn_ext. intros p Hp. apply sumn_ext. intros q Hq. rewrite (Sy q p); auto. }
  assert (D : s + s = sumn n (fun p => sumn n (fun q => k p q * (x q - x p) ^ 2))).
  { rewrite E at 2. unfold s. rewrite <- sumn_plus. apply sumn_ext. intros p Hp. rewrite <- sumn_plus. apply sumn_ext. intros q Hq. ring. }
  lra.
Qed.

Lemma multi_passive pos r_in r_out b ks kg Rfp n k rev : (0 < n)%nat -> length pos = (2 * n)%nat -> check_utube pos r_in r_out (br b) ks kg Rfp n 0 = true ->
  exists u, multiple_utube pos r_in r_out b ks kg Rfp n k 0 rev = Some u
  /\ ((forall p q, (p < 2 * n)%nat -> (q < 2 * n)%nat -> x_Rd u p q <> 0) -> passive_circuit u).
Proof.
  intros Hn L H. pose proof (tube_fit pos r_in r_out (br b) ks kg Rfp n 0 Hn L H) as F. set (a := tube_args pos r_out (br b) ks kg Rfp 0) in *.
  destruct (resistances_exist a F eq_refl) as (Rm & Rd & E). unfold multiple_utube. change (Z.of_nat 0) with 0%Z. rewrite H. fold a. rewrite E.
  eexists. split; [reflexivity|]. intros Nz. destruct (resistances_are a eq_refl _ _ E) as [-> D]. change (length (a_pos a)) with (length pos) in D. rewrite L in D.
  assert (Sd : forall i j, (i < 2 * n)%nat -> (j < 2 * n)%nat -> Rd i j = Rd j i) by (apply (delta_sym _ _ _ D); intros; apply line_source_sym).
  cbn [x_Rd] in Nz. split.
  - intros p q Hp Hq. cbn [x_n x_Rd] in *. split; [auto|]. rewrite Sd; auto.
  - intros x (p & Hp & Nx). cbn [x_n] in Hp. pose proof (work_pos a F) as W. change (length (a_pos a)) with (length pos) in W. rewrite L in W.
    pose proof (circuit_work (2 * n) (line_source a) W Rd D x 0 ltac:(exists p; auto)) as Q.
    set (K := fun i j => Res_Spec.conductance (Rd i j)).
    assert (Kc : forall i j, (i < 2 * n)%nat -> (j < 2 * n)%nat -> Multi_Spec.conductance (mkmulti (fun i j => number (Rd i j)) b rev n k) i j = K i j).
    { intros i j Hi Hj. unfold Multi_Spec.conductance, K. cbn [x_Rd]. specialize (Nz i j Hi Hj). destruct (Rd i j); cbn in *; auto. lra. }
    unfold dissipation. cbn [x_n]. set (u := mkmulti _ _ _ _ _) in *.
    replace (sumn (2 * n) (fun p => Multi_Spec.conductance u p p * x p ^ 2) + 1 / 2 * sumn (2 * n) (fun p => sumn (2 * n) (fun q => if Nat.eqb q p then 0 else Multi_Spec.conductance u p q * (x q - x p) ^ 2)))
      with (sumn (2 * n) (fun i => (x i - 0) * circuit_flow (2 * n) Rd x 0 i)); [exact Q|].
    rewrite (sumn_ext (2 * n) (fun i => (x i - 0) * circuit_flow (2 * n) Rd x 0 i)
      (fun i => Multi_Spec.conductance u i i * x i ^ 2 + sumn (2 * n) (fun j => (if Nat.eqb i j then 0 else K i j) * (x i * (x i - x j))))).
    2: { intros i Hi. unfold circuit_flow. rewrite Kc by auto. unfold K at 1. rewrite Rmult_plus_distr_l. f_equal; [ring|]. rewrite <- sumn_scal. apply sumn_ext. intros j Hj. destruct (Nat.eqb i j); unfold K; ring. }
    rewrite sumn_plus. f_equal. rewrite symmetric_energy.
    + f_equal. apply sumn_ext. intros i Hi. apply sumn_ext. intros j Hj. rewrite (Nat.eqb_sym j i). destruct (Nat.eqb i j); [ring|]. rewrite Kc by auto. auto.
    + intros i j Hi Hj. rewrite (Nat.eqb_sym j i). destruct (Nat.eqb i j); auto. unfold K. rewrite Sd; auto.
Qed.

(** ** Four pipes in a ring *)

Lemma ring_of_four (a b c x0 x1 x2 x3 : R) : a - c <> 0 -> b <> 0 -> c * (a + c) <> 2 * b ^ 2 ->
  a * x0 + b * x1 + c * x2 + b * x3 = 1 -> b * x0 + a * x1 + b * x2 + c * x3 = 0 -> c * x0 + b * x1 + a * x2 + b * x3 = 0 -> b * x0 + c * x1 + b * x2 + a * x3 = 0 ->
  x1 <> 0 /\ x2 <> 0 /\ x3 <> 0 /\ x0 + x1 + x2 + x3 <> 0.
Proof.
  intros H1 H2 H3 E1 E2 E3 E4. assert (X : x1 = x3). { assert ((a - c) * (x1 - x3) = 0) by lra. apply Rmult_integral in H. lra. } subst x3.
  assert (A1 : x1 <> 0). { intros ->. assert (Z : b * (x0 + x2) = 0) by lra. apply Rmult_integral in Z. destruct Z as [Z|Z]; [auto|]. assert (x2 = - x0) by lra. subst x2. assert (Y : (a - c) * x0 = 0) by lra. apply Rmult_integral in Y. destruct Y as [Y|Y]; [auto|]. subst x0. lra. }
  split; [auto|]. split; [|split; [auto|]].
  - intros ->. assert (Y : (c * (a + c) - 2 * b ^ 2) * x1 = 0). { replace ((c * (a + c) - 2 * b ^ 2) * x1) with (c * (b * x0 + a * x1 + b * 0 + c * x1) - b * (c * x0 + b * x1 + a * 0 + b * x1)) by ring. rewrite E2, E3. ring. }
    apply Rmult_integral in Y. lra.
  - intros Z. assert (Y : (a + 2 * b + c) * (x0 + x1 + x2 + x1) = 1) by lra. rewrite Z in Y. lra.
Qed.
