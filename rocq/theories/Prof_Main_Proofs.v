From Coq Require Import String.
From Verif Require Import Base LinAlg FLS_Model.
From Verif Require Import Bore_Model Bore_Proofs Net_Model Net_Spec Solve_Model Solve_Spec Solve_Props Detailed_Model Detailed_Spec Detailed_Proofs Sim_Model Eq_Model GFun_Model GFun_Spec GFun_Eval_Proofs
  Prof_Model Prof_Spec Prof_Proofs Prof_Call_Proofs.
Local Open Scope string_scope.
Local Open Scope R_scope.

Lemma mift_length n H trf k_s Hi Fs time thr g Q T : solve_mift n H trf k_s Hi Fs time thr = Some (g, Q, T) -> List.length Q = List.length Fs /\ List.length T = List.length Fs.
Proof.
  unfold solve_mift. destruct (Net_Model.all_some _) as [runs|] eqn:E; [|discriminate].
  pose proof (all_some_length _ _ E) as L. rewrite map_length in L.
  destruct (linearise_all _ _ _ _) as [g'|]; [|discriminate]. intros X. injection X as <- <- <-. now rewrite !map_length.
Qed.

(** the balance of what is stored, for the sources of the solver *)
Lemma stored_balance bc k_s rows y time thr d : solve_stored bc k_s rows y time thr = Some d ->
  match d with
  | Uniform T => T = snd (solve_uhtr (y_n y) (y_H y) (at_times (y_h y)) time thr) /\ bc = "UHTR"
  | Wall Q T => bc = "UBWT" /\ solve_ubwt (y_n y) (y_H y) (at_times (y_h y)) time thr = Some (Q, T) /\
                forall p, (p < List.length time)%nat -> sumn (y_n y) (fun k => y_H y k * nth p Q zero_vec k) = sumn (y_n y) (y_H y)
  | Mixed Q T => forall n p, (n < List.length Q)%nat -> (p < List.length time)%nat -> sumn (y_n y) (fun k => y_H y k * nth p (nth n Q []) zero_vec k) = sumn (y_n y) (y_H y)
  end.
Proof.
  unfold solve_stored. destruct (String.eqb bc "UHTR") eqn:B1; [intros E; injection E as <-; apply String.eqb_eq in B1; auto|].
  destruct (String.eqb bc "UBWT") eqn:B2.
  - destruct (solve_ubwt _ _ _ _ _) as [[Q T]|] eqn:S; [|discriminate]. intros E. injection E as <-. apply String.eqb_eq in B2. repeat split; auto.
    intros p Hp. exact (C46_ubwt _ _ _ _ _ _ _ _ S Hp).
  - destruct (Net_Model.all_some _) as [Fs|]; [|discriminate]. destruct (solve_mift _ _ _ _ _ _ _ _) as [[[g Q] T]|] eqn:S; [|discriminate].
    intros E. injection E as <-. intros n p Hn Hp. destruct (mift_length _ _ _ _ _ _ _ _ _ _ _ S) as [L _]. rewrite L in Hn.
    exact (C46_mift _ _ _ _ _ _ _ _ _ _ _ _ _ S Hn Hp).
Qed.

(** ** Mean of the curves *)
Section Object.
  Variables (V : object) (w H : nat -> R).
  Local Notation bs := (b_bores V).
  Local Notation ns := (b_n V).
  Local Notation rs := (b_r V).
  Local Notation nB := (List.length bs).
  Hypothesis Sg : segmented bs ns rs.
  Hypothesis Gr : good_ratios rs.
  Hypothesis Hw : forall i u, (i < nB)%nat -> (u < nth i ns O)%nat -> H (first ns i + u)%nat = w i * nth u (nth i rs []) 0.

  Lemma curves_mean (fig : figure) (q : nat -> R) p : map fst fig = seq 0 nB ->
    (forall i cv, In (i, cv) fig -> height cv p = sumn (nth i ns O) (fun u => q (first ns i + u)%nat * nth u (nth i rs []) 0)) ->
    Rsum (map (fun f => w (fst f) * height (snd f) p) fig) = sumn (list_sum ns) (fun k => H k * q k).
  Proof.
    intros M C. rewrite <- (weighted_sum V Sg w H q Hw). rewrite (figure_sum V fig w (fun i => sumn (nth i ns O) (fun u => q (first ns i + u)%nat * nth u (nth i rs []) 0)) p M C).
    reflexivity.
  Qed.

  Lemma all_requested : filter (fun i => existsb (Nat.eqb i) (requested V None)) (seq 0 nB) = seq 0 nB.
  Proof. apply wanted_all. Qed.

  (** value of the curve of a borehole *)
  Lemma heat_value i rows y n p : (i < nB)%nat -> heat_rates V i = Some rows -> nth_error rows n = Some y -> List.length y = List.length (b_time V) -> (p < List.length (b_time V))%nat ->
    match b_stored V with
    | Uniform _ => nth p y 0 = 1
    | Wall Q _ => nth p y 0 = sumn (nth i ns O) (fun u => nth p Q zero_vec (first ns i + u)%nat * nth u (nth i rs []) 0)
    | Mixed Q _ => (n < List.length Q)%nat /\ nth p y 0 = sumn (nth i ns O) (fun u => nth p (nth n Q []) zero_vec (first ns i + u)%nat * nth u (nth i rs []) 0)
    end.
  Proof.
    intros Hi E Y Ly Hp. unfold heat_rates, there in E. destruct (b_stored V) as [T|Q T|Q T].
    - destruct (Nat.eqb (b_k V) 0); [|discriminate E]. injection E as <-. destruct n as [|n]; [|destruct n; discriminate Y]. injection Y as <-.
      apply nth_repeat_lt || (rewrite nth_indep with (d' := 1) by (rewrite repeat_length; auto); apply nth_repeat).
    - destruct (Nat.eqb (b_k V) 0); [|discriminate E]. destruct (Nat.ltb i nB); [|discriminate E]. injection E as <-. destruct n as [|n]; [|destruct n; discriminate Y]. injection Y as <-.
      rewrite average_length in Ly. apply average_nth; auto. lia.
    - destruct (Nat.ltb i nB); [|discriminate E]. injection E as <-. assert (Hn : (n < List.length Q)%nat).
      { rewrite <- (map_length (average V i)). apply nth_error_Some. rewrite Y. discriminate. }
      split; auto. pose proof (map_nth_error (average V i) n Q (nth_error_nth' Q [] Hn)) as X. rewrite Y in X. injection X as ->.
      rewrite average_length in Ly. apply average_nth; auto. lia.
  Qed.

  Lemma temperature_value i rows y n p : (i < nB)%nat -> temperatures V i = Some rows -> nth_error rows n = Some y -> List.length y = List.length (b_time V) -> (p < List.length (b_time V))%nat ->
    match b_stored V with
    | Uniform T => n = O /\ nth p y 0 = sumn (nth i ns O) (fun u => nth p T zero_vec (first ns i + u)%nat * nth u (nth i rs []) 0)
    | Wall _ T => n = O /\ y = T
    | Mixed _ T => (n < List.length T)%nat /\ nth p y 0 = sumn (nth i ns O) (fun u => nth p (nth n T []) zero_vec (first ns i + u)%nat * nth u (nth i rs []) 0)
    end.
  Proof.
    intros Hi E Y Ly Hp. unfold temperatures, there in E. destruct (b_stored V) as [T|Q T|Q T].
    - destruct (Nat.eqb (b_k V) 0); [|discriminate E]. destruct (Nat.ltb i nB); [|discriminate E]. injection E as <-. destruct n as [|n]; [|destruct n; discriminate Y]. injection Y as <-.
      rewrite average_length in Ly. split; auto. apply average_nth; auto. lia.
    - destruct (Nat.eqb (b_k V) 0); [|discriminate E]. injection E as <-. destruct n as [|n]; [|destruct n; discriminate Y]. injection Y as <-. auto.
    - destruct (Nat.ltb i nB); [|discriminate E]. injection E as <-. assert (Hn : (n < List.length T)%nat).
      { rewrite <- (map_length (average V i)). apply nth_error_Some. rewrite Y. discriminate. }
      split; auto. pose proof (map_nth_error (average V i) n T (nth_error_nth' T [] Hn)) as X. rewrite Y in X. injection X as ->.
      rewrite average_length in Ly. apply average_nth; auto. lia.
  Qed.

  Lemma heat_mean bc k_s rows y thr n fig p : list_sum ns = y_n y -> H = y_H y -> (0 < nB)%nat -> solve_stored bc k_s rows y (b_time V) thr = Some (b_stored V) ->
    time_figure V (heat_rates V) None n = Some fig -> (p < List.length (b_time V))%nat ->
    Rsum (map (fun f => w (fst f) * height (snd f) p) fig) = sumn nB w.
  Proof.
    intros En EH Nb S F Hp.
    destruct (time_figure_curves V (heat_rates V) None n fig F) as [M C]. rewrite all_requested in M.
    pose proof (stored_balance _ _ _ _ _ _ _ S) as B.
    assert (C' : forall i cv, In (i, cv) fig -> exists rows y, (i < nB)%nat /\ heat_rates V i = Some rows /\ nth_error rows n = Some y /\ List.length y = List.length (b_time V) /\ height cv p = nth p y 0).
    { intros i cv I. destruct (C i cv I) as [Hi [rw [yy [E1 [E2 [E3 E4]]]]]]. exists rw, yy. repeat split; auto. rewrite E4. apply height_combine; [rewrite log_length; auto|rewrite E3; auto]. }
    assert (X : exists cv, In (O, cv) fig).
    { assert (J : In O (map fst fig)) by (rewrite M; apply in_seq; lia). apply in_map_iff in J. destruct J as [[j cv] [E I]]. cbn in E. subst. eauto. }
    destruct X as [cv0 I0]. destruct (C' _ _ I0) as [rw0 [y0 [Hi0 [A1 [A2 [A3 _]]]]]]. pose proof (heat_value _ _ _ _ p Hi0 A1 A2 A3 Hp) as HV0.
    rewrite <- (weight_total V Sg w H Gr Hw). rewrite En.
    destruct (b_stored V) as [T|Q T|Q T] eqn:D.
    - rewrite (curves_mean fig (fun _ => 1) p M).
      + rewrite En. apply sumn_ext. intros; ring.
      + intros i cv I. destruct (C' i cv I) as [rw [yy [Hi [E1 [E2 [E3 E4]]]]]]. pose proof (heat_value _ _ _ _ p Hi E1 E2 E3 Hp) as HV. rewrite D in HV. rewrite E4, HV.
        destruct Sg as [L [L' Lr]]. destruct (Gr (nth i rs [])) as [S1 _]; [apply nth_In; lia|].
        rewrite (sumn_ext _ _ (fun u => nth u (nth i rs []) 0)) by (intros; ring). rewrite <- (Lr i Hi), <- Rsum_sumn. auto.
    - destruct B as [_ [_ B]]. rewrite (curves_mean fig (nth p Q zero_vec) p M).
      + rewrite En, EH. apply B; auto.
      + intros i cv I. destruct (C' i cv I) as [rw [yy [Hi [E1 [E2 [E3 E4]]]]]]. pose proof (heat_value _ _ _ _ p Hi E1 E2 E3 Hp) as HV. rewrite D in HV. now rewrite E4, HV.
    - destruct HV0 as [Hn _]. rewrite (curves_mean fig (nth p (nth n Q []) zero_vec) p M).
      + rewrite En, EH. apply B; auto.
      + intros i cv I. destruct (C' i cv I) as [rw [yy [Hi [E1 [E2 [E3 E4]]]]]]. pose proof (heat_value _ _ _ _ p Hi E1 E2 E3 Hp) as HV. rewrite D in HV. now rewrite E4; destruct HV as [_ ->].
  Qed.
End Object.
