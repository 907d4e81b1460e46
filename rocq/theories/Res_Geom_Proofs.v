(* Geometry checks and stored resistances. *)
From Coq Require Import Reals Lra Lia List Bool ZArith Psatz.
From Verif Require Import Base LinAlg Bore_Model Net_Model Pipe_Model Res_Model Res_Spec Res_Proofs Res_Passive_Proofs.
From Coquelicot Require Import Coquelicot.
Import ListNotations.
Local Open Scope R_scope.

Lemma norm_le x y r : 0 <= r -> (sqrt (x ^ 2 + y ^ 2) <= r <-> x ^ 2 + y ^ 2 <= r ^ 2).
Proof.
  intros Hr. destruct (norm_sq x y) as [N S]. split; intros H.
  - rewrite <- S. apply pow_incr. lra.
  - apply le_sq; [exact Hr|]. rewrite S. exact H.
Qed.
Lemma norm_lt x y r : 0 <= r -> (sqrt (x ^ 2 + y ^ 2) < r <-> x ^ 2 + y ^ 2 < r ^ 2).
Proof.
  intros Hr. destruct (norm_sq x y) as [N S]. split; intros H.
  - rewrite <- S. nra.
  - rewrite <- S in H. nra.
Qed.

Lemma disk_inside x y r rb : 0 < r -> 0 <= rb ->
  (sqrt (x ^ 2 + y ^ 2) + r <= rb <-> forall u v, (u - x) ^ 2 + (v - y) ^ 2 <= r ^ 2 -> u ^ 2 + v ^ 2 <= rb ^ 2).
Proof.
  intros Hr Hb. split; intros H.
  - intros u v D. apply norm_le; [exact Hb|]. apply norm_le in D; [|lra].
    pose proof (plane_triangle (u - x) (v - y) x y) as T.
    replace (u - x + x) with u in T by ring. replace (v - y + y) with v in T by ring. lra.
  - destruct (norm_sq x y) as [N S]. set (m := sqrt (x ^ 2 + y ^ 2)) in *.
    destruct (Req_dec m 0) as [Z|Z].
    + assert (x = 0 /\ y = 0) as [-> ->] by (rewrite Z in S; split; nra).
      specialize (H r 0). rewrite Z. assert (r ^ 2 + 0 ^ 2 <= rb ^ 2) by (apply H; lra).
      assert (r <= rb) by (apply le_sq; lra). lra.
    + specialize (H (x + r * (x / m)) (y + r * (y / m))).
      assert (E : (x / m) ^ 2 + (y / m) ^ 2 = 1).
      { replace ((x / m) ^ 2 + (y / m) ^ 2) with ((x ^ 2 + y ^ 2) / m ^ 2) by (field; auto). rewrite <- S. field. auto. }
      assert (X : (x + r * (x / m)) ^ 2 + (y + r * (y / m)) ^ 2 <= rb ^ 2).
      { apply H. replace ((x + r * (x / m) - x) ^ 2 + (y + r * (y / m) - y) ^ 2) with (r ^ 2 * ((x / m) ^ 2 + (y / m) ^ 2)) by ring. rewrite E. lra. }
      replace ((x + r * (x / m)) ^ 2 + (y + r * (y / m)) ^ 2) with ((m + r) ^ 2) in X.
      { apply le_sq; auto. }
      replace ((x + r * (x / m)) ^ 2 + (y + r * (y / m)) ^ 2) with ((x ^ 2 + y ^ 2) * (1 + r / m) ^ 2) by (field; auto).
      rewrite <- S. field. auto.
Qed.

Lemma disk_apart x y x' y' r : 0 < r ->
  (2 * r <= sqrt ((x - x') ^ 2 + (y - y') ^ 2)
   <-> forall u v, ~ ((u - x) ^ 2 + (v - y) ^ 2 < r ^ 2 /\ (u - x') ^ 2 + (v - y') ^ 2 < r ^ 2)).
Proof.
  intros Hr. split; intros H.
  - intros u v [A B]. apply norm_lt in A; [|lra]. apply norm_lt in B; [|lra].
    pose proof (plane_triangle (u - x') (v - y') (- (u - x)) (- (v - y))) as T.
    replace (u - x' + - (u - x)) with (x - x') in T by ring. replace (v - y' + - (v - y)) with (y - y') in T by ring.
    replace ((- (u - x)) ^ 2 + (- (v - y)) ^ 2) with ((u - x) ^ 2 + (v - y) ^ 2) in T by ring. lra.
  - apply Rnot_lt_le. intros L. apply norm_lt in L; [|lra].
    apply (H ((x + x') / 2) ((y + y') / 2)). split.
    + replace (((x + x') / 2 - x) ^ 2 + ((y + y') / 2 - y) ^ 2) with (((x - x') ^ 2 + (y - y') ^ 2) / 4) by field. lra.
    + replace (((x + x') / 2 - x') ^ 2 + ((y + y') / 2 - y') ^ 2) with (((x - x') ^ 2 + (y - y') ^ 2) / 4) by field. lra.
Qed.

Lemma check_utube_iff pos r_in r_out rb ks kg Rfp n J : (0 < n)%nat ->
  (check_utube pos r_in r_out rb ks kg Rfp n J = true <->
   0 < ks /\ 0 < kg /\ 0 < Rfp /\ 0 < r_in < r_out /\ (0 <= J)%Z /\ 0 < rb /\ disks_fit pos (2 * n) r_out rb).
Proof.
  intros Hn. unfold check_utube. rewrite !andb_true_iff, !Rltb_true, Z.leb_le, !forallb_forall. unfold disks_fit. split.
  - intros [[[[[[[A1 A2] A3] A4] A5] A6] B] C].
    assert (Rb : 0 < rb).
    { specialize (B 0%nat ltac:(apply in_seq; lia)). cbv zeta in B. rewrite Rleb_true in B.
      pose proof (sqrt_pos (fst (nth 0 pos (0, 0)) ^ 2 + snd (nth 0 pos (0, 0)) ^ 2)). lra. }
    repeat split; auto.
    + intros i Hi. apply disk_inside; [lra|lra|]. specialize (B i ltac:(apply in_seq; lia)). cbv zeta in B. rewrite Rleb_true in B. exact B.
    + intros i j Hi Hj Ne.
      assert (X : forall i j, (i < j)%nat -> (j < 2 * n)%nat -> 2 * r_out <= sqrt ((fst (nth i pos (0, 0)) - fst (nth j pos (0, 0))) ^ 2 + (snd (nth i pos (0, 0)) - snd (nth j pos (0, 0))) ^ 2)).
      { intros a b Hab Hb. specialize (C a ltac:(apply in_seq; lia)). rewrite forallb_forall in C.
        specialize (C b ltac:(apply in_seq; lia)). cbv zeta in C. rewrite Rleb_true in C. exact C. }
      destruct (Nat.lt_ge_cases i j) as [L|L].
      * apply disk_apart; [lra|]. apply X; auto.
      * assert (Y := X j i ltac:(lia) Hi). intros u v [P Q]. assert (Rp : 0 < r_out) by lra. apply (proj1 (disk_apart _ _ _ _ r_out Rp) Y u v). split; auto.
  - intros (A1 & A2 & A3 & [A4 A5] & A6 & Rb & B & C). repeat split; auto.
    + intros i Hi. apply in_seq in Hi. cbv zeta. rewrite Rleb_true. apply disk_inside; [lra|lra|]. apply B. lia.
    + intros i Hi. apply in_seq in Hi. apply forallb_forall. intros j Hj. apply in_seq in Hj. cbv zeta. rewrite Rleb_true.
      apply disk_apart; [lra|]. apply C; lia.
Qed.

Lemma check_coaxial_accepts pos r_in r_out rb ks kg Rff Rfp J i o :
  (i = 0 /\ o = 1 \/ i = 1 /\ o = 0)%nat -> nested pos r_in r_out rb i o ->
  0 < ks -> 0 < kg -> 0 < Rff -> 0 < Rfp -> (0 <= J)%Z ->
  check_coaxial pos r_in r_out rb ks kg Rff Rfp J = true.
Proof.
  intros IO (A & B & C & D) K1 K2 K3 K4 K5. unfold check_coaxial. destruct r_in as [a b], r_out as [c d]. cbn [fst snd] in *.
  assert (T : forall x, 0 < x -> truth x = true).
  { intros x Hx. unfold truth. assert (E : Reqb x 0 = false); [|rewrite E; reflexivity]. apply Reqb_false. lra. }
  destruct IO as [[-> ->]|[-> ->]]; cbn [pick Nat.eqb fst snd] in *.
  - assert (Ei : i_inner (c, d) = 0%nat) by (unfold i_inner; cbn; rewrite (proj2 (Rltb_false d c)) by lra; reflexivity).
    assert (Eo : i_outer (c, d) = 1%nat) by (unfold i_outer; cbn; rewrite (proj2 (Rltb_true c d)) by lra; reflexivity).
    rewrite Ei, Eo, !T by lra. cbn [andb b2r pick Nat.eqb fst snd]. rewrite !andb_true_iff, orb_true_iff, !Rltb_true, !Rleb_true, Z.leb_le.
    repeat split; auto; try lra.
  - assert (Ei : i_inner (c, d) = 1%nat) by (unfold i_inner; cbn; rewrite (proj2 (Rltb_true d c)) by lra; reflexivity).
    assert (Eo : i_outer (c, d) = 0%nat) by (unfold i_outer; cbn; rewrite (proj2 (Rltb_false c d)) by lra; reflexivity).
    rewrite Ei, Eo, !T by lra. cbn [andb b2r pick Nat.eqb fst snd]. rewrite !andb_true_iff, orb_true_iff, !Rltb_true, !Rleb_true, Z.leb_le.
    repeat split; auto; try lra.
Qed.

(** ** Stored resistances *)

Lemma same_refl_far a s : told_apart a s -> 0 < a_rb a -> 0 < a_ks a -> 0 < a_kg a -> same_inputs a s = true -> a = s.
Proof.
  intros T Hr Hs Hg S. destruct T as [E|T]; [exact E|]. exfalso.
  unfold same_inputs in S. rewrite !andb_true_iff in S.
  destruct S as [[[[[[[[[L1 L2] L3] C1] B1] B2] B3] C2] EJ] C3].
  apply Nat.eqb_eq in L1, L2, L3, EJ.
  assert (Q : forall x y, 0 < x -> Rltb (Rabs (x - y) / x) (/ 10 ^ 6) = true -> ~ far x y).
  { intros x y Hx B [_ F]. rewrite Rltb_true in B. rewrite (Rabs_pos_eq x) in F by lra.
    assert (Rabs (x - y) < x * / 10 ^ 6); [|lra].
    apply Rmult_lt_reg_r with (/ x); [apply Rinv_0_lt_compat; auto|].
    replace (x * / 10 ^ 6 * / x) with (/ 10 ^ 6) by (field; lra). exact B. }
  assert (AC : forall rt l m i, rt <= / 10 ^ 5 -> length l = length m -> all_close rt l m = true -> (i < length l)%nat -> ~ far (nth i l 0) (nth i m 0)).
  { intros rt l m i Hrt Hl Hc Hi [F _]. unfold all_close in Hc. rewrite forallb_forall in Hc.
    assert (I : In (nth i l 0, nth i m 0) (combine l m)).
    { rewrite <- combine_nth by auto. apply nth_In. rewrite combine_length, <- Hl, Nat.min_id. auto. }
    specialize (Hc _ I). cbn [fst snd] in Hc. rewrite Rleb_true in Hc.
    assert (rt * Rabs (nth i m 0) <= / 10 ^ 5 * Rabs (nth i m 0)) by (apply Rmult_le_compat_r; [apply Rabs_pos|auto]). lra. }
  destruct T as [T|[T|[T|[T|[T|[T|[T|[T|[T|T]]]]]]]]]; try (apply T; congruence).
  - exact (Q _ _ Hr B1 T).
  - exact (Q _ _ Hs B2 T).
  - exact (Q _ _ Hg B3 T).
  - destruct T as (i & Hi & F). apply (AC _ _ _ i) in C1; auto. lra.
  - destruct T as (i & Hi & F). apply (AC _ _ _ i) in C2; auto. lra.
  - destruct T as (i & Hi & F). rewrite forallb_forall in C3.
    assert (I : In (nth i (a_pos a) (0, 0), nth i (a_pos s) (0, 0)) (combine (a_pos a) (a_pos s))).
    { rewrite <- combine_nth by auto. apply nth_In. rewrite combine_length, <- L1, Nat.min_id. auto. }
    specialize (C3 _ I). cbn [fst snd] in C3. rewrite negb_true_iff, orb_false_iff, !Rltb_false in C3.
    unfold p_x, p_y in F. assert (P6 : 0 <= / 10 ^ 6) by lra.
    destruct C3 as [X Y]. destruct F as [[_ F]|[_ F]]; rewrite Rabs_mult, (Rabs_pos_eq (/ 10 ^ 6)) in * by lra; lra.
Qed.

Lemma call_correct st a : 0 < a_rb a -> 0 < a_ks a -> 0 < a_kg a ->
  (forall s v, st = Some (s, v) -> thermal_resistances s = Some v /\ told_apart a s) ->
  snd (call_resistances st a) = thermal_resistances a
  /\ (forall s v, fst (call_resistances st a) = Some (s, v) -> thermal_resistances s = Some v).
Proof.
  intros H1 H2 H3 H. unfold call_resistances. destruct st as [[s v]|].
  - destruct (H s v eq_refl) as [E T]. destruct (same_inputs a s) eqn:S.
    + assert (a = s) by (apply same_refl_far; auto). subst a. cbn. split; [auto|]. intros s' v' Q. injection Q as <- <-. auto.
    + destruct (thermal_resistances a) as [w|] eqn:Ea; cbn; split; auto.
      * intros s' v' Q. injection Q as <- <-. auto.
      * intros s' v' Q. injection Q as <- <-. auto.
  - destruct (thermal_resistances a) as [w|] eqn:Ea; cbn; split; auto.
    + intros s' v' Q. injection Q as <- <-. auto.
    + discriminate.
Qed.

Lemma after_app l a : after_calls (l ++ a :: nil) = fst (call_resistances (after_calls l) a).
Proof. unfold after_calls. rewrite fold_left_app. reflexivity. Qed.

Lemma stored_in l : forall s v, after_calls l = Some (s, v) -> In s l.
Proof.
  induction l as [|a l IH] using rev_ind; intros s v E; [discriminate|]. rewrite after_app in E. unfold call_resistances in E.
  apply in_or_app. destruct (after_calls l) as [[s0 v0]|].
  - destruct (same_inputs a s0).
    + cbn in E. injection E as <- <-. left. eapply IH. reflexivity.
    + destruct (thermal_resistances a); cbn in E; injection E as <- <-; [right; left; reflexivity|left; eapply IH; reflexivity].
  - destruct (thermal_resistances a); cbn in E; [injection E as <- <-; right; left; reflexivity|discriminate].
Qed.

Lemma stored_right l : (forall a, In a l -> 0 < a_rb a /\ 0 < a_ks a /\ 0 < a_kg a) ->
  (forall a s, In a l -> In s l -> told_apart a s) ->
  forall s v, after_calls l = Some (s, v) -> thermal_resistances s = Some v.
Proof.
  induction l as [|a l IH] using rev_ind; intros P T s v E; [discriminate|]. rewrite after_app in E.
  destruct (P a) as (P1 & P2 & P3); [apply in_or_app; right; left; auto|].
  apply (proj2 (call_correct (after_calls l) a P1 P2 P3 ltac:(intros s0 v0 E0; split;
    [apply IH; [intros b Hb; apply P; apply in_or_app; auto|intros b c Hb Hc; apply T; apply in_or_app; auto|exact E0]
    |apply T; apply in_or_app; [right; left; auto|left; eapply stored_in; exact E0]])) s v E).
Qed.

Lemma history l a : (forall b, In b (a :: l) -> 0 < a_rb b /\ 0 < a_ks b /\ 0 < a_kg b) ->
  (forall b s, In b (a :: l) -> In s l -> told_apart b s) ->
  snd (call_resistances (after_calls l) a) = thermal_resistances a.
Proof.
  intros P T. destruct (P a) as (P1 & P2 & P3); [left; auto|]. apply call_correct; auto.
  intros s v E. split.
  - apply (stored_right l); auto; [intros b Hb; apply P; right; auto|intros b c Hb Hc; apply T; [right; auto|auto]].
  - apply T; [left; auto|eapply stored_in; exact E].
Qed.

(** ** Witnesses *)

Lemma check_coaxial_facts pos r_in r_out rb ks kg Rff Rfp J : check_coaxial pos r_in r_out rb ks kg Rff Rfp J = true ->
  0 < ks /\ 0 < kg /\ (0 <= J)%Z /\ Rfp <> 0 /\ fst r_in <> 0 /\ snd r_in <> 0
  /\ fst r_in < fst r_out /\ snd r_in < snd r_out
  /\ pick r_out (i_inner r_out) < pick r_in (i_outer r_out)
  /\ sqrt (fst pos ^ 2 + snd pos ^ 2) + pick r_out (i_inner r_out) <= rb.
Proof.
  unfold check_coaxial. cbv zeta. rewrite !andb_true_iff, orb_true_iff, !Rltb_true, !Rleb_true, Z.leb_le.
  assert (T : forall x, 0 < b2r (truth x) -> x <> 0).
  { intros x Hx E. unfold truth in Hx. rewrite (proj2 (Reqb_true x 0) E) in Hx. cbn in Hx. lra. }
  intros [[[[[[[[A1 A2] _] A3] A4] [A5 A6]] A7] A8] A9].
  assert (fst r_in <> 0 /\ snd r_in <> 0) as [N1 N2].
  { destruct (truth (fst r_in)) eqn:E1, (truth (snd r_in)) eqn:E2; cbn in A4; try lra.
    split; apply T; [rewrite E1|rewrite E2]; cbn; lra. }
  repeat split; auto.
  unfold i_inner, pick. destruct (Rltb (snd r_out) (fst r_out)) eqn:E.
  - apply Rltb_true in E. cbn [Nat.eqb]. lra.
  - apply Rltb_false in E. cbn [Nat.eqb]. lra.
Qed.

Lemma two_pipes a : length (a_pos a) = 2%nat -> a_J a = 0%nat ->
  Rabs (line_source a 0%nat 1%nat) < line_source a 0%nat 0%nat -> Rabs (line_source a 0%nat 1%nat) < line_source a 1%nat 1%nat ->
  exists Rd, thermal_resistances a = Some (line_source a, Rd).
Proof.
  intros L J E0 E1. destruct (two_circuit (line_source a) (line_source_sym a 0%nat 1%nat) E0 E1) as [Rd [Eq _]].
  exists Rd. unfold thermal_resistances, resistance_matrix. rewrite J, L. cbn [Nat.eqb]. rewrite Eq. reflexivity.
Qed.
