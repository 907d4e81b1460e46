(* Reciprocity of a borehole with two legs: two solutions of the energy balances, one for each
   direction of the flow, exchange the same heat. *)
From Coq Require Import Reals Lra Lia List Bool Psatz.
From Coquelicot Require Import Coquelicot.
From Verif Require Import Base LinAlg Bore_Model Net_Model Net_Spec Pipe_Model Pipe_Spec Pipe_Main_Proofs Pipe_Flow_Proofs.
Import ListNotations.
Local Open Scope R_scope.

(* Two solutions over one interval at the wall temperatures t and s: T flows down in the first leg, S
   flows down in the second one. *)
Section Interval.
Variables (T1 T2 S1 S2 : R -> R) (M K1 K2 K12 t s a b : R).
Hypothesis (Mp : 0 < M) (Lab : a <= b).
Hypothesis (C : forall z, continuous T1 z /\ continuous T2 z /\ continuous S1 z /\ continuous S2 z).
Hypothesis (DT : forall z, a < z < b -> exists d1 d2, is_derive T1 z d1 /\ is_derive T2 z d2
  /\ M * d1 = K1 * (t - T1 z) + K12 * (T2 z - T1 z) /\ - M * d2 = K2 * (t - T2 z) + K12 * (T1 z - T2 z)).
Hypothesis (DS : forall z, a < z < b -> exists d1 d2, is_derive S1 z d1 /\ is_derive S2 z d2
  /\ - M * d1 = K1 * (s - S1 z) + K12 * (S2 z - S1 z) /\ M * d2 = K2 * (s - S2 z) + K12 * (S1 z - S2 z)).

Definition wronsk (z : R) : R := T1 z * S1 z - T2 z * S2 z.

Lemma wronsk_step : M * (wronsk b - wronsk a)
  = s * (M * ((T1 b - T1 a) - (T2 b - T2 a))) - t * (M * ((S2 b - S2 a) - (S1 b - S1 a))).
Proof.
  set (F := fun z => wronsk z - s * (T1 z - T2 z) + t * (S2 z - S1 z)).
  assert (E : F b = F a).
  { destruct (MVT_gen F a b (fun _ => 0)) as [c [_ E]].
    - intros z. rewrite Rmin_left, Rmax_right by lra. intros Hz.
      destruct (DT z Hz) as (p1 & p2 & D1 & D2 & E1 & E2). destruct (DS z Hz) as (q1 & q2 & D3 & D4 & E3 & E4).
      assert (Z : 0 = p1 * S1 z + T1 z * q1 - (p2 * S2 z + T2 z * q2) - s * (p1 - p2) + t * (q2 - q1)).
      { apply (Rmult_eq_reg_l M); [|lra].
        replace (M * (p1 * S1 z + T1 z * q1 - (p2 * S2 z + T2 z * q2) - s * (p1 - p2) + t * (q2 - q1)))
          with ((M * p1) * (S1 z - s) + (- M * q1) * (t - T1 z) + (- M * p2) * (S2 z - s) + (M * q2) * (t - T2 z)) by ring.
        rewrite E1, E2, E3, E4. ring. }
      rewrite Z. unfold F, wronsk. auto_derive.
      + repeat split; eexists; eassumption.
      + replace (Derive (fun x => T1 x) z) with p1 by (symmetry; apply is_derive_unique; exact D1).
        replace (Derive (fun x => T2 x) z) with p2 by (symmetry; apply is_derive_unique; exact D2).
        replace (Derive (fun x => S1 x) z) with q1 by (symmetry; apply is_derive_unique; exact D3).
        replace (Derive (fun x => S2 x) z) with q2 by (symmetry; apply is_derive_unique; exact D4). ring.
    - intros z _. destruct (C z) as (C1 & C2 & C3 & C4). apply continuity_pt_filterlim.
      change (continuous F z).
      assert (Sub : forall f g : R -> R, continuous f z -> continuous g z -> continuous (fun y => f y - g y) z)
        by (intros f g Cf Cg; exact (continuous_minus (V := R_NormedModule) f g z Cf Cg)).
      assert (Mul : forall f g : R -> R, continuous f z -> continuous g z -> continuous (fun y => f y * g y) z)
        by (intros f g Cf Cg; exact (continuous_mult (K := R_AbsRing) f g z Cf Cg)).
      assert (Cst : forall c : R, continuous (fun _ : R => c) z) by (intros c; apply continuous_const).
      refine (continuous_plus (V := R_NormedModule) (fun y => wronsk y - s * (T1 y - T2 y)) (fun y => t * (S2 y - S1 y)) z _ _).
      + apply (Sub wronsk (fun y => s * (T1 y - T2 y))).
        * apply (Sub (fun y => T1 y * S1 y) (fun y => T2 y * S2 y)); [apply (Mul T1 S1)|apply (Mul T2 S2)]; assumption.
        * apply (Mul (fun _ => s) (fun y => T1 y - T2 y)); [apply Cst|apply (Sub T1 T2); assumption].
      + apply (Mul (fun _ => t) (fun y => S2 y - S1 y)); [apply Cst|apply (Sub S2 S1); assumption].
    - lra. }
  unfold F in E. nra.
Qed.
End Interval.

Lemma sumn_diff (f : nat -> R) n : sumn n (fun k => f (S k) - f k) = f n - f 0%nat.
Proof. induction n as [|n IH]; cbn [sumn]; [ring|rewrite IH; ring]. Qed.

(* Two boreholes: the second one has the legs of the first one exchanged. *)
Section Pair.
Variables (u v : utube) (m m' cp cp' : R) (n : nat) (r : option (list R)) (d e d' e' : nat).
Hypothesis (G : good_flow u m cp n r d e) (G' : good_flow v m' cp' n r d' e').
Hypothesis (P : 0 < m \/ u_reversible u = true) (P' : 0 < m' \/ u_reversible v = true).
Hypothesis (EM : Rabs m' * cp' = Rabs m * cp) (EH : u_b v = u_b u).
Hypothesis (E1 : cond v e' e' = cond u d d) (E2 : cond v d' d' = cond u e e) (E12 : cond v d' e' = cond u d e).
Variables (Tin Sin : R) (Tb Sb : nat -> R).
Let M := Rabs m * cp.
Let T i z := get_temperature u Tin n Tb m cp r z i.
Let Z i z := get_temperature v Sin n Sb m' cp' r z i.
Local Notation x := (depth u n r).
Let W := wronsk (T d) (T e) (Z e') (Z d').

Lemma depth_same k : depth v n r k = depth u n r k.
Proof. unfold depth. rewrite EH. reflexivity. Qed.

Lemma pair_step k : (k < n)%nat -> M * (W (x (S k)) - W (x k))
  = Sb k * get_borehole_heat u Tin n Tb m cp r k - Tb k * get_borehole_heat v Sin n Sb m' cp' r k.
Proof.
  intros Hk. rewrite (heat_legs u m cp n r d e G Tin Tb k P), (heat_legs v m' cp' n r d' e' G' Sin Sb k P').
  rewrite EM. rewrite !(ed_depth u m cp n r d e G) by lia. rewrite !(ed_depth v m' cp' n r d' e' G') by lia.
  rewrite !depth_same. fold M.
  pose proof (ed_step u m cp n r d e G k Hk) as St. rewrite !(ed_depth u m cp n r d e G) in St by lia.
  apply (wronsk_step (T d) (T e) (Z e') (Z d') M (cond u d d) (cond u e e) (cond u d e) (Tb k) (Sb k)).
  - exact (M_pos u m cp n r d e G).
  - exact St.
  - intros z. destruct (profile_continuous u m cp n r d e G Tin Tb z) as [C1 C2].
    destruct (profile_continuous v m' cp' n r d' e' G' Sin Sb z) as [C3 C4]. repeat split; assumption.
  - intros z Hz. destruct (energy u m cp n r d e G Tin Tb k z Hk Hz) as (a & b & Da & Db & Ea & Eb).
    exists a, b. split; [exact Da|split; [exact Db|split; [exact Ea|exact Eb]]].
  - intros z Hz. rewrite <- !depth_same in Hz.
    destruct (energy v m' cp' n r d' e' G' Sin Sb k z Hk Hz) as (a & b & Da & Db & Ea & Eb).
    exists b, a. rewrite EM, E2, E12 in Ea. rewrite EM, E1, E12 in Eb.
    split; [exact Db|split; [exact Da|split; [exact Eb|exact Ea]]].
Qed.

Lemma pair_reciprocal :
  sumn n (fun k => Sb k * get_borehole_heat u Tin n Tb m cp r k)
  - sumn n (fun k => Tb k * get_borehole_heat v Sin n Sb m' cp' r k)
  = M * (get_outlet_temperature u Tin n Tb m cp r * Sin - Tin * get_outlet_temperature v Sin n Sb m' cp' r).
Proof.
  rewrite <- sumn_minus.
  rewrite (sumn_ext n _ (fun k => M * (W (x (S k)) - W (x k)))) by (intros k Hk; symmetry; apply pair_step; exact Hk).
  rewrite sumn_scal, (sumn_diff (fun k => W (x k))).
  destruct (boundary u m cp n r d e G Tin Tb) as (B1 & B2 & B3).
  destruct (boundary v m' cp' n r d' e' G' Sin Sb) as (B4 & B5 & B6).
  rewrite EH in B5.
  rewrite <- (ed_depth u m cp n r d e G n), <- (ed_depth u m cp n r d e G 0) by lia.
  rewrite (ed_n u m cp n r d e G), (ed_0 u m cp n r d e G).
  unfold W, wronsk. change (T d 0 = Tin) in B1. change (T d (bH (u_b u)) = T e (bH (u_b u))) in B2.
  change (T e 0 = get_outlet_temperature u Tin n Tb m cp r) in B3. change (Z d' 0 = Sin) in B4.
  change (Z d' (bH (u_b u)) = Z e' (bH (u_b u))) in B5. change (Z e' 0 = get_outlet_temperature v Sin n Sb m' cp' r) in B6.
  rewrite B1, B2, B3, B4, B5, B6. ring.
Qed.
End Pair.

(* Coefficients from the queries *)
Definition unit_at (j : nat) : nat -> R := fun k => if Nat.eqb k j then 1 else 0.

Lemma sumn_unit n j (f : nat -> R) : (j < n)%nat -> sumn n (fun k => f k * unit_at j k) = f j.
Proof.
  intros Hj. rewrite (sumn_single n j (fun k => f k * unit_at j k) Hj).
  - unfold unit_at. rewrite Nat.eqb_refl. ring.
  - intros k Hk Ne. unfold unit_at. destruct (Nat.eqb_spec k j) as [E|_]; [contradiction|ring].
Qed.

Lemma sumn_unit_l n j (f : nat -> R) : (j < n)%nat -> sumn n (fun k => unit_at j k * f k) = f j.
Proof. intros Hj. rewrite <- (sumn_unit n j f Hj). apply sumn_ext. intros; ring. Qed.

Lemma sumn_none n (f : nat -> R) : sumn n (fun k => f k * 0) = 0.
Proof. rewrite sumn_scal_r. ring. Qed.

Lemma heat_unit u n m cp r k j : (j < n)%nat ->
  get_borehole_heat u 0 n (unit_at j) m cp r k = snd (borehole_heat u m cp n r) k j.
Proof. intros Hj. unfold get_borehole_heat. rewrite sumn_unit by exact Hj. ring. Qed.
Lemma heat_inlet u n m cp r k :
  get_borehole_heat u 1 n (fun _ => 0) m cp r k = fst (borehole_heat u m cp n r) k.
Proof. unfold get_borehole_heat. rewrite sumn_none. ring. Qed.
Lemma out_unit u n m cp r j : (j < n)%nat ->
  get_outlet_temperature u 0 n (unit_at j) m cp r = snd (outlet u m cp n r) j.
Proof. intros Hj. unfold get_outlet_temperature. rewrite sumn_unit by exact Hj. ring. Qed.

Section Coefficients.
Variables (u v : utube) (m m' cp cp' : R) (n : nat) (r : option (list R)) (d e d' e' : nat).
Hypothesis (G : good_flow u m cp n r d e) (G' : good_flow v m' cp' n r d' e').
Hypothesis (P : 0 < m \/ u_reversible u = true) (P' : 0 < m' \/ u_reversible v = true).
Hypothesis (EM : Rabs m' * cp' = Rabs m * cp) (EH : u_b v = u_b u).
Hypothesis (E1 : cond v e' e' = cond u d d) (E2 : cond v d' d' = cond u e e) (E12 : cond v d' e' = cond u d e).

Lemma transposed k l : (k < n)%nat -> (l < n)%nat ->
  snd (borehole_heat v m' cp' n r) k l = snd (borehole_heat u m cp n r) l k.
Proof.
  intros Hk Hl.
  pose proof (pair_reciprocal u v m m' cp cp' n r d e d' e' G G' P P' EM EH E1 E2 E12 0 0 (unit_at k) (unit_at l)) as X.
  rewrite !sumn_unit_l in X by assumption. rewrite !heat_unit in X by assumption. lra.
Qed.

Lemma inlet_heat k : (k < n)%nat ->
  fst (borehole_heat u m cp n r) k = - (Rabs m * cp * snd (outlet v m' cp' n r) k).
Proof.
  intros Hk.
  pose proof (pair_reciprocal u v m m' cp cp' n r d e d' e' G G' P P' EM EH E1 E2 E12 1 0 (fun _ => 0) (unit_at k)) as X.
  rewrite sumn_unit_l in X by assumption. rewrite heat_inlet in X.
  rewrite (sumn_ext n (fun _ => 0 * _) (fun _ => 0 * 0)) in X by (intros; ring).
  rewrite sumn_scal, out_unit in X by assumption.
  rewrite Rmult_0_l, Rminus_0_r, Rmult_0_r in X. rewrite X. ring.
Qed.
End Coefficients.
