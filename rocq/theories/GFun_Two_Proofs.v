(** Two boreholes in parallel with one segment each: coefficients of the network. *)
From Coq Require Import String.
From Verif Require Import Base LinAlg Net_Model Net_Spec Net_Proofs Net_Coef_Proofs Net_Heat_Proofs Net_Cache_Proofs Net_More_Proofs Net_Equiv_Proofs Net_Extra_Proofs Net_Props.
From Verif Require Import Bore_Model Solve_Model Detailed_Model Sim_Model Eq_Model GFun_Model.
Local Open Scope R_scope.

(** a pipe with one segment and the conductance k *)
Definition conducts (p : pipe) (m cp k : R) : Prop := forall r,
  fst (p_qb p m cp 1 r) O = - k /\ snd (p_qb p m cp 1 r) O O = k /\ m * cp * fst (p_out p m cp 1 r) = m * cp - k /\ m * cp * snd (p_out p m cp 1 r) O = k.

Section Two.
  Variables (p1 p2 : pipe) (m1 m2 cp k1 k2 : R) (row : list R).
  Hypothesis M1 : 0 < m1.
  Hypothesis M2 : 0 < m2.
  Hypothesis Cp : 0 < cp.
  Hypothesis K1 : 0 < k1.
  Hypothesis K2 : 0 < k2.
  Hypothesis C1 : conducts p1 m1 cp k1.
  Hypothesis C2 : conducts p2 m2 cp k2.
  Hypothesis Row : row = [m1; m2] \/ (row = [2 * m1] /\ m1 = m2).

  Definition two_format (r : option (list R)) : fmt := mkfmt [m1; m2] false [m1; m2] [cp; cp] [1; 1]%nat [r; r].

  Lemma two_dir : format_dir row = Some false.
  Proof.
    unfold format_dir. destruct Row as [-> | [-> E]]; cbn [forallb]; rewrite ?(proj2 (Rleb_true 0 m1)), ?(proj2 (Rleb_true 0 m2)), ?(proj2 (Rleb_true 0 (2 * m1))) by lra; auto.
  Qed.
  Lemma two_flow : format_flow two row = Some [m1; m2].
  Proof. destruct Row as [-> | [-> E]]; cbn [format_flow]; [reflexivity|]. cbn [nInlets two n_in length repeat INR]. do 2 f_equal; [|f_equal]; subst; lra. Qed.
  Lemma two_args_good (s : segs) r r' : (s = SegN 1 \/ s = SegL [1; 1]%nat) -> format_rat two r' = [r; r] -> good_args two [p1; p2] (mkargs row [cp] s r') (two_format r).
  Proof.
    intros S Rr. split; [|auto]. unfold format_inputs. cbn [g_m g_cp g_n g_r]. rewrite two_flow, two_dir, Rr. destruct S as [-> | ->]; reflexivity.
  Qed.

  Lemma two_pipes r : every_pipe pipe_balanced two [p1; p2] (two_format r).
  Proof.
    intros i p Hp. destruct i as [|[|i]]; cbn [nth_error] in Hp; [| |destruct i; discriminate]; injection Hp as <-; cbn [two_format f_mb f_cpb f_seg f_rat nth].
    - destruct (C1 r) as [A [B [C D]]]. unfold pipe_balanced, p_qf. destruct (p_out p1 m1 cp 1 r) as [b bb]. cbn [sumn fst snd] in *. rewrite Rabs_pos_eq by lra. split; [lra|]. intros l Hl. assert (l = O) by lia. subst l. lra.
    - destruct (C2 r) as [A [B [C D]]]. unfold pipe_balanced, p_qf. destruct (p_out p2 m2 cp 1 r) as [b bb]. cbn [sumn fst snd] in *. rewrite Rabs_pos_eq by lra. split; [lra|]. intros l Hl. assert (l = O) by lia. subst l. lra.
  Qed.

  Definition unit_at (j : nat) : nat -> R := fun k => if Nat.eqb k j then 1 else 0.
  Lemma coef_in (a : coefs) K i : apply_coefs K a 1 (fun _ => 0) i = fst a i.
  Proof. apply apply_zero. Qed.
  Lemma coef_b (a : coefs) K i j : (j < K)%nat -> apply_coefs K a 0 (unit_at j) i = snd a i j.
  Proof. intros Hj. unfold apply_coefs, unit_at. rewrite (sumn_single K j); auto; [rewrite Nat.eqb_refl; lra|]. intros l Hl N. rewrite (proj2 (Nat.eqb_neq l j)) by auto. lra. Qed.

  Definition cond (i : nat) : R := if Nat.eqb i 0 then k1 else k2.

  Lemma two_heat g r t Tb q i : good_args two [p1; p2] g (two_format r) -> fresh two [p1; p2] BoreHeat g = Some q -> (i < 2)%nat ->
    apply_coefs 2 q t Tb i = cond i * (Tb i - t).
  Proof.
    intros G Hq Hi. destruct (parallel_facts 2 two two_build) as [W [En _]].
    rewrite (fresh_direct two [p1; p2] _ g _ W G) in Hq. cbn [direct] in Hq. destruct (coef_inlet two [p1; p2] (two_format r)) as [a|] eqn:Ea; [|discriminate]. injection Hq as <-.
    assert (L : (i < nB two)%nat) by (rewrite En; auto).
    assert (X := qb_apply two [p1; p2] g (two_format r) a t Tb i O W G L). cbv zeta in X.
    change (seg_total (f_seg (two_format r))) with 2%nat in X.
    rewrite (parallel_inlet 2 two [p1; p2] (two_format r) a 2 t Tb i two_build Ea Hi) in X. cbn [two_format f_seg f_mb f_cpb f_rat] in X.
    destruct i as [|[|i]]; [| |lia]; cbn [nth seg_off Nat.add sumn] in X; rewrite X by lia; unfold cond; cbn [Nat.eqb].
    - destruct (C1 r) as [A [B _]]. rewrite A, B. ring.
    - destruct (C2 r) as [A [B _]]. rewrite A, B. ring.
  Qed.

  Lemma two_net_heat g r t Tb h : good_args two [p1; p2] g (two_format r) -> fresh two [p1; p2] NetHeat g = Some h ->
    apply_coefs 2 h t Tb O = k1 * (Tb 0%nat - t) + k2 * (Tb 1%nat - t).
  Proof.
    intros G Hh. destruct (parallel_facts 2 two two_build) as [W [En _]].
    destruct (fresh_some_all two [p1; p2] g _ W G) as (a & o & qb & qf & h' & no & _ & _ & Hb & _).
    assert (X := heat_sum_segments two [p1; p2] g (two_format r) t Tb h qb W G (two_pipes r) Hh Hb). cbv zeta in X. change (seg_total (f_seg (two_format r))) with 2%nat in X.
    rewrite X. cbn [sumn]. rewrite !(two_heat g r t Tb qb) by auto. unfold cond. cbn [Nat.eqb]. ring.
  Qed.

  Lemma two_outlet g r t Tb o : good_args two [p1; p2] g (two_format r) -> fresh two [p1; p2] NetOutlet g = Some o ->
    (m1 + m2) * cp * (apply_coefs 2 o t Tb O - t) = k1 * (Tb 0%nat - t) + k2 * (Tb 1%nat - t).
  Proof.
    intros G Ho. destruct (parallel_facts 2 two two_build) as [W [En _]].
    destruct (fresh_some_all two [p1; p2] g _ W G) as (a & o' & qb & qf & h' & no & _ & Ho' & _).
    assert (X := outlet_listed two [p1; p2] g (two_format r) t Tb o o' W G Ho Ho'). change (seg_total (f_seg (two_format r))) with 2%nat in X.
    unfold total_flow in X. change (nInlets two) with 2%nat in X. change (iOutlets two (f_rev (two_format r))) with [0; 1]%nat in X. cbn [two_format f_m sumn nth] in X.
    rewrite (fresh_direct two [p1; p2] _ g _ W G) in Ho'. cbn [direct] in Ho'.
    assert (S : sized 2 [p1; p2] (two_format r)) by (unfold sized; auto 10).
    assert (Q : forall i, (i < 2)%nat -> apply_coefs 2 o' t Tb i = bore_outlet [p1; p2] (two_format r) i t Tb).
    { intros i Hi. exact (parallel_outlet 2 two [p1; p2] (two_format r) o' t Tb i two_build S Ho' Hi). }
    unfold bore_outlet in Q. cbn [two_format f_mb f_cpb f_seg f_rat] in Q.
    rewrite (Q O), (Q 1%nat) in X by lia. cbn [nth seg_off Nat.add sumn] in X. destruct (C1 r) as [_ [_ [A1 B1]]], (C2 r) as [_ [_ [A2 B2]]].
    rewrite X. rewrite !Rabs_pos_eq by lra. set (a1 := fst (p_out p1 m1 cp 1 r)) in *. set (b1 := snd (p_out p1 m1 cp 1 r) O) in *. set (a2 := fst (p_out p2 m2 cp 1 r)) in *. set (b2 := snd (p_out p2 m2 cp 1 r) O) in *.
    replace ((m1 + m2) * cp * ((0 + m1 * (a1 * t + (0 + b1 * Tb 0%nat)) + m2 * (a2 * t + (0 + b2 * Tb 1%nat))) / (0 + m1 + m2) - t))
      with ((m1 * cp * a1) * t + (m1 * cp * b1) * Tb 0%nat + (m2 * cp * a2) * t + (m2 * cp * b2) * Tb 1%nat - (m1 + m2) * cp * t) by (field; lra).
    rewrite A1, B1, A2, B2. ring.
  Qed.

  Lemma two_capacity : total_capacity row [cp] = Some ((m1 + m2) * cp).
  Proof.
    unfold total_capacity. destruct Row as [-> | [-> E]]; cbn; f_equal; rewrite !Rabs_pos_eq by lra; subst; ring.
  Qed.

  Lemma two_resistance Htot : network_thermal_resistance two [p1; p2] Htot row [cp] = Some (Htot * (/ (k1 + k2) - / (2 * ((m1 + m2) * cp)))).
  Proof.
    destruct (parallel_facts 2 two two_build) as [W [En _]].
    assert (G := two_args_good (SegN 1) None Net_Model.RNone (or_introl eq_refl) eq_refl).
    destruct (fresh_some_all two [p1; p2] _ _ W G) as (a & o' & qb & qf & h & no & _ & _ & _ & _ & Hh & Hn).
    rewrite (resistance_unfold two [p1; p2] Htot row [cp] _ no h W G Hn Hh). f_equal.
    pose proof (two_net_heat _ _ 1 (fun _ => 0) h G Hh) as X. rewrite coef_in in X.
    pose proof (two_outlet _ _ 1 (fun _ => 0) no G Hn) as Y. rewrite coef_in in Y.
    assert (P : 0 < (m1 + m2) * cp) by (apply Rmult_lt_0_compat; lra). set (C := (m1 + m2) * cp) in *.
    assert (fst no O = 1 - (k1 + k2) / C). { apply Rmult_eq_reg_l with C; [|lra]. replace (C * (1 - (k1 + k2) / C)) with (C - (k1 + k2)) by (field; lra). lra. }
    rewrite H. replace (fst h O) with (- (k1 + k2)) by lra. field. lra.
  Qed.

  (** ** The coefficients of the solver *)
  Lemma two_network_flow w : w_c w = two -> w_p w = [p1; p2] -> exists F, network_flow w [1; 1]%nat [[1]; [1]] [cp] row = Some F /\
    (forall i, (i < 2)%nat -> f_in F i = - cond i) /\ (forall i j, (i < 2)%nat -> (j < 2)%nat -> f_b F i j = if Nat.eqb i j then cond i else 0) /\
    f_net_in F = - (k1 + k2) /\ (forall j, (j < 2)%nat -> f_net_b F j = cond j) /\
    f_mcp F = (m1 + m2) * cp /\ f_R F = Rsum (map bH (w_b w)) * (/ (k1 + k2) - / (2 * ((m1 + m2) * cp))).
  Proof.
    intros Ec Ep. destruct (parallel_facts 2 two two_build) as [W [En _]].
    assert (G := two_args_good (SegL [1; 1]%nat) (Some [1]) (Net_Model.RList [[1]; [1]]) (or_intror eq_refl) eq_refl).
    destruct (fresh_some_all two [p1; p2] _ _ W G) as (a & o' & qb & qf & h & no & _ & _ & Hb & _ & Hh & Hn).
    unfold network_flow. rewrite Ec, Ep, Hb, Hh, two_resistance, two_capacity. eexists. split; [reflexivity|]. cbn [f_in f_b f_net_in f_net_b f_mcp f_R].
    split; [|split; [|split; [|split; [|auto]]]].
    - intros i Hi. rewrite <- (coef_in qb 2 i). rewrite (two_heat _ _ _ _ qb i G Hb Hi). ring.
    - intros i j Hi Hj. rewrite <- (coef_b qb 2 i j Hj). rewrite (two_heat _ _ _ _ qb i G Hb Hi). unfold unit_at. destruct (Nat.eqb i j); ring.
    - rewrite <- (coef_in h 2 O). rewrite (two_net_heat _ _ _ _ h G Hh). ring.
    - intros j Hj. rewrite <- (coef_b h 2 O j Hj). rewrite (two_net_heat _ _ _ _ h G Hh). unfold unit_at, cond. destruct j as [|[|j]]; [| |lia]; cbn [Nat.eqb]; ring.
  Qed.
End Two.
