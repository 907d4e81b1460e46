(** Proofs on staggered, dense and circular fields, and on the deprecated builders. *)
From Verif Require Import Base Bore_Model Bore_Spec Field_Model Field_Spec Bore_Proofs Field_Proofs FieldLayout_Proofs.
From Coq Require Import Permutation ZifyNat ZifyBool.
Ltac Zify.zify_post_hook ::= Z.to_euclidean_division_equations.

Lemma odd_mod j : Nat.odd j = (j mod 2 =? 1)%nat.
Proof.
  destruct (Nat.eqb_spec (j mod 2) 1) as [E|E].
  - apply Nat.odd_spec. exists (j / 2)%nat. lia.
  - apply Bool.not_true_is_false. intros H. apply Nat.odd_spec in H as [k ->]. apply E. lia.
Qed.

Lemma keep_spec N1 last i j : stag_keep N1 last i j = true <-> last = true \/ Nat.odd j = false \/ (S i < N1)%nat.
Proof.
  unfold stag_keep. rewrite !Bool.orb_true_iff, Nat.ltb_lt, Nat.eqb_eq, odd_mod, Nat.eqb_neq. destruct last; lia.
Qed.

Lemma stag_points_in N1 N2 last i j : In (i, j) (stag_points N1 N2 last) <-> stag_in N1 N2 last i j.
Proof.
  unfold stag_points, stag_in. rewrite (in_rows (fun j => filter (fun i => stag_keep N1 last i j) (seq 0 N1))).
  rewrite filter_In, keep_spec, !in_seq. intuition lia.
Qed.

Lemma stag_points_NoDup N1 N2 last : NoDup (stag_points N1 N2 last).
Proof. apply (NoDup_rows (fun j => filter (fun i => stag_keep N1 last i j) (seq 0 N1))); intros; [apply NoDup_filter|]; apply seq_NoDup. Qed.

Lemma filter_all {A} (p : A -> bool) l : (forall x, In x l -> p x = true) -> filter p l = l.
Proof. induction l as [|a l IH]; intros H; [reflexivity|]. cbn. rewrite H by now left. f_equal. apply IH. intros; apply H; now right. Qed.

Lemma row_length N1 last j : (1 <= N1)%nat ->
  length (filter (fun i => stag_keep N1 last i j) (seq 0 N1)) = if last || negb (Nat.odd j) then N1 else (N1 - 1)%nat.
Proof.
  intros H. destruct (last || negb (Nat.odd j)) eqn:E.
  - rewrite filter_all; [apply seq_length|]. intros i _. apply keep_spec. destruct last; [now left|right; left].
    now destruct (Nat.odd j).
  - destruct N1 as [|m]; [lia|]. rewrite seq_S, filter_app, app_length. cbn [filter].
    assert (K : stag_keep (S m) last (0 + m) j = false).
    { apply Bool.not_true_is_false. rewrite keep_spec. destruct last, (Nat.odd j); try discriminate. intros [X|[X|X]]; (discriminate || lia). }
    rewrite K. cbn [length]. rewrite filter_all; [rewrite seq_length; lia|]. intros i Hi. apply in_seq in Hi. apply keep_spec. lia.
Qed.

Lemma stag_points_length N1 N2 last : (1 <= N1)%nat -> length (stag_points N1 N2 last) = staggered_count N1 N2 last.
Proof.
  intros H. unfold staggered_count.
  assert (A : (length (stag_points N1 N2 last) + (if last then 0 else N2 / 2) = N1 * N2)%nat).
  { induction N2 as [|m IH]; [destruct last; cbn; lia|].
    assert (E : length (stag_points N1 (S m) last) = (length (stag_points N1 m last)
                 + length (filter (fun i => stag_keep N1 last i m) (seq 0 N1)))%nat).
    { unfold stag_points. rewrite seq_S, flat_map_app, app_length. cbn [flat_map Nat.add]. now rewrite app_nil_r, map_length. }
    rewrite E, row_length by exact H. rewrite odd_mod. destruct last; cbn [orb].
    - rewrite Nat.mul_succ_r. lia.
    - rewrite Nat.mul_succ_r. destruct (Nat.eqb_spec (m mod 2) 1); cbn [negb]; lia. }
  destruct last; lia.
Qed.

Lemma stag_emb B1 B2 p : half_shifted B1 B2 (fst p) (snd p) = ((INR (fst p) + stag_shift (snd p)) * B1, INR (snd p) * B2).
Proof.
  unfold half_shifted, stag_shift. rewrite odd_mod. f_equal. destruct (_ =? _)%nat; lra.
Qed.

Lemma combine_map_map {A B C} (f : A -> B) (g : A -> C) l : combine (map f l) (map g l) = map (fun a => (f a, g a)) l.
Proof. induction l as [|a l IH]; [reflexivity|]. cbn. now rewrite IH. Qed.

Lemma staggered_field_eq N1 N2 B1 B2 H D r last tilt o : (2 <= N1)%nat -> (2 <= N2)%nat ->
  exists f, staggered_field N1 N2 B1 B2 H D r last tilt o = Some f /\ field_ok f
    /\ to_boreholes f = map (fun p => new_bore H D r tilt (stag_center N1 N2 B1 B2 last o) (half_shifted B1 B2 (fst p) (snd p)))
                            (stag_points N1 N2 last).
Proof.
  intros H1 H2. unfold staggered_field.
  destruct (Nat.eqb_spec N1 1); [lia|]. destruct (Nat.eqb_spec N2 1); [lia|]. cbn [orb].
  edestruct (build_eq (map (fun p => (INR (fst p) + stag_shift (snd p)) * B1) (stag_points N1 N2 last))
             (map (fun p => INR (snd p) * B2) (stag_points N1 N2 last)) H D r tilt (stag_center N1 N2 B1 B2 last o)) as (f & A & B & C).
  { now rewrite !map_length. }
  exists f. split; [exact A|]. split; [exact B|]. rewrite C, combine_map_map, map_map.
  apply map_ext. intros p. now rewrite stag_emb.
Qed.

Lemma staggered_built N1 N2 B1 B2 H D r last tilt o : (2 <= N1)%nat -> (2 <= N2)%nat ->
  built (half_shifted B1 B2) (stag_in N1 N2 last) (staggered_count N1 N2 last) H D r tilt (stag_center N1 N2 B1 B2 last o)
    (staggered_field N1 N2 B1 B2 H D r last tilt o).
Proof.
  intros H1 H2. destruct (staggered_field_eq N1 N2 B1 B2 H D r last tilt o H1 H2) as (f & A & B & C).
  eapply built_intro; [exact A|exact B|exact C|apply stag_points_NoDup|intros; apply stag_points_in|apply stag_points_length; lia].
Qed.

Lemma staggered_degenerate N1 N2 B1 B2 H D r last tilt o : N1 = 1%nat \/ N2 = 1%nat ->
  staggered_field N1 N2 B1 B2 H D r last tilt o = rectangle_field N1 N2 B1 B2 H D r tilt o.
Proof. intros [->| ->]; unfold staggered_field; [reflexivity|]. now rewrite Bool.orb_true_r. Qed.

(** * Spacing *)
Lemma half_apart a b : 1 / 4 <= (INR a - INR b + 1 / 2) ^ 2.
Proof.
  destruct (Nat.le_gt_cases b a) as [L|L].
  - apply le_INR in L. nra.
  - assert (INR a + 1 <= INR b) by (rewrite <- S_INR; apply le_INR; lia). nra.
Qed.

Lemma INR_diff2 i k : (i + 2 <= k \/ k + 2 <= i)%nat -> 4 <= (INR i - INR k) ^ 2.
Proof.
  intros [L|L]; apply le_INR in L; rewrite plus_INR in L; cbn [INR] in L; nra.
Qed.

Lemma half_shifted_apart B1 B2 d i j k l : 0 < B1 -> 0 < B2 -> 0 <= d -> d <= B1 -> d <= 2 * B2 -> d * d <= B1 ^ 2 / 4 + B2 ^ 2 ->
  (i, j) <> (k, l) ->
  d <= sqrt ((fst (half_shifted B1 B2 i j) - fst (half_shifted B1 B2 k l)) ^ 2 + (snd (half_shifted B1 B2 i j) - snd (half_shifted B1 B2 k l)) ^ 2).
Proof.
  intros H1 H2 Hd D1 D2 D3 Hne. unfold half_shifted. cbn [fst snd]. apply sqrt_ge; [exact Hd|].
  set (X := INR i * B1 + (if Nat.odd j then B1 / 2 else 0) - (INR k * B1 + (if Nat.odd l then B1 / 2 else 0))).
  set (Y := INR j * B2 - INR l * B2).
  pose proof (pow2_ge_0 X). pose proof (pow2_ge_0 Y).
  assert (EY : Y ^ 2 = (INR j - INR l) ^ 2 * B2 ^ 2) by (unfold Y; ring).
  destruct (Nat.eq_dec j l) as [->|N].
  - assert (N : i <> k) by congruence. pose proof (INR_diff i k N).
    assert (EX : X ^ 2 = (INR i - INR k) ^ 2 * B1 ^ 2) by (unfold X; destruct (Nat.odd l); ring). nra.
  - destruct (Nat.le_gt_cases (j + 2) l) as [L|L]; [|destruct (Nat.le_gt_cases (l + 2) j) as [L'|L']].
    + assert (4 <= (INR j - INR l) ^ 2) by (apply INR_diff2; lia). nra.
    + assert (4 <= (INR j - INR l) ^ 2) by (apply INR_diff2; lia). nra.
    + pose proof (INR_diff j l N).
      assert (EX : B1 ^ 2 / 4 <= X ^ 2).
      { assert (O : Nat.odd j = negb (Nat.odd l)).
        { assert (j = S l \/ l = S j) as [->| ->] by lia; rewrite Nat.odd_succ, <- Nat.negb_odd; [reflexivity|].
          now rewrite Bool.negb_involutive. }
        unfold X. rewrite O. destruct (Nat.odd l); cbn [negb].
        - replace (INR i * B1 + 0 - (INR k * B1 + B1 / 2)) with (- ((INR k - INR i + 1 / 2) * B1)) by field.
          pose proof (half_apart k i). nra.
        - replace (INR i * B1 + B1 / 2 - (INR k * B1 + 0)) with ((INR i - INR k + 1 / 2) * B1) by field.
          pose proof (half_apart i k). nra. }
      nra.
Qed.

Lemma staggered_spaced B1 B2 d P l : 0 < B1 -> 0 < B2 -> 0 <= d -> d <= B1 -> d <= 2 * B2 -> d * d <= B1 ^ 2 / 4 + B2 ^ 2 ->
  layout (half_shifted B1 B2) P l -> spaced d l.
Proof. intros. eapply layout_spaced; [eassumption|]. intros. now apply half_shifted_apart. Qed.

(** * Neighbours *)
Lemma layout_neighbour emb P l d : layout emb P l ->
  (forall i j, P i j -> exists k m, P k m /\ (k, m) <> (i, j) /\
     sqrt ((fst (emb i j) - fst (emb k m)) ^ 2 + (snd (emb i j) - snd (emb k m)) ^ 2) = d) -> neighbour_at d l.
Proof.
  intros (pts & E & ND & HP) Hd a Ha.
  assert (L : length pts = length l) by (apply (f_equal (@length _)) in E; rewrite !map_length in E; lia).
  assert (Q : forall c, (c < length l)%nat -> position (nth c l b0) = emb (fst (nth c pts (0, 0)%nat)) (snd (nth c pts (0, 0)%nat))).
  { intros c Hc. rewrite <- (nth_map position l c b0 (0, 0)) by exact Hc. rewrite E.
    now rewrite (nth_map _ pts c (0, 0)%nat (0, 0)) by lia. }
  assert (Pa : P (fst (nth a pts (0, 0)%nat)) (snd (nth a pts (0, 0)%nat))) by (apply HP; rewrite <- surjective_pairing; apply nth_In; lia).
  destruct (Hd _ _ Pa) as (k & m & Pk & Hne & Hs). rewrite <- surjective_pairing in Hne.
  apply HP in Pk. destruct (In_nth pts (k, m) (0, 0)%nat Pk) as (b & Hb & Eb).
  exists b. split; [lia|]. split; [intros ->; congruence|].
  rewrite <- Hs. pose proof (Q b ltac:(lia)) as Qb. rewrite Eb in Qb. cbn [fst snd] in Qb.
  rewrite <- (Q a Ha), <- Qb. reflexivity.
Qed.

Lemma sqrt3_2 : (sqrt 3 / 2) ^ 2 = 3 / 4.
Proof. replace ((sqrt 3 / 2) ^ 2) with (sqrt 3 * sqrt 3 / 4) by field. rewrite sqrt_sqrt; lra. Qed.
Lemma sqrt3_pos : 0 < sqrt 3.
Proof. apply sqrt_lt_R0. lra. Qed.

Lemma sqrt_eq d s : 0 <= d -> s = d * d -> sqrt s = d.
Proof. intros H ->. now apply sqrt_square. Qed.

Lemma dense_main N1 N2 B H D r last tilt o : 0 < B -> (1 <= N1)%nat -> (1 <= N2)%nat -> (2 <= N1 * N2)%nat ->
  exists f, dense_field N1 N2 B H D r last tilt o = Some f /\ field_ok f
    /\ length (to_boreholes f) = (if (N1 =? 1) || (N2 =? 1) then N1 * N2 else staggered_count N1 N2 last)%nat
    /\ spaced B (to_boreholes f) /\ neighbour_at B (to_boreholes f).
Proof.
  intros HB H1 H2 H12. unfold dense_field.
  pose proof sqrt3_2 as S3. pose proof sqrt3_pos as P3.
  destruct (Nat.eqb_spec N1 1) as [E1|E1]; [|destruct (Nat.eqb_spec N2 1) as [E2|E2]]; cbn [orb].
  - subst N1. cbn [Nat.ltb Nat.leb]. rewrite staggered_degenerate by now left.
    destruct (rectangle_built 1 N2 B B H D r tilt o) as (f & A1 & A2 & A3 & A4 & _). exists f.
    split; [exact A1|]. split; [exact A2|]. split; [exact A3|]. split.
    + pose proof (lattice_spaced B B _ _ HB HB A4) as S. rewrite Rmin_left in S by lra. exact S.
    + apply (layout_neighbour _ _ _ _ A4). intros i j [Hi Hj]. exists O. destruct j as [|j].
      * exists 1%nat. split; [lia|]. split; [congruence|]. unfold lattice. cbn [fst snd INR]. apply sqrt_eq; [lra|].
        assert (i = 0)%nat by lia. subst i. cbn [INR]. ring.
      * exists j. split; [lia|]. assert (i = 0)%nat by lia. subst i. split; [intros E; injection E as E; lia|].
        unfold lattice. cbn [fst snd]. rewrite S_INR. apply sqrt_eq; [lra|]. ring.
  - subst N2. rewrite staggered_degenerate by now right. set (B2 := if (1 <? N1)%nat then _ else _).
    destruct (rectangle_built N1 1 B B2 H D r tilt o) as (f & A1 & A2 & A3 & A4 & _). exists f.
    split; [exact A1|]. split; [exact A2|]. split; [exact A3|]. split.
    + apply (layout_spaced _ _ _ _ A4). intros i j k m [_ Hj] [_ Hm] Hne.
      assert (j = 0 /\ m = 0)%nat as [-> ->] by lia. assert (N : i <> k) by congruence.
      unfold lattice. cbn [fst snd INR]. apply sqrt_ge; [lra|]. pose proof (INR_diff i k N).
      replace ((INR i * B - INR k * B) ^ 2) with ((INR i - INR k) ^ 2 * (B * B)) by ring.
      replace ((0 * B2 - 0 * B2) ^ 2) with 0 by ring. nra.
    + apply (layout_neighbour _ _ _ _ A4). intros i j [Hi Hj]. assert (j = 0)%nat by lia. subst j. destruct i as [|i].
      * exists 1%nat, O. split; [lia|]. split; [congruence|]. unfold lattice. cbn [fst snd INR]. apply sqrt_eq; [lra|]. ring.
      * exists i, O. split; [lia|]. split; [intros E; injection E as E; lia|].
        unfold lattice. cbn [fst snd]. rewrite S_INR. apply sqrt_eq; [lra|]. ring.
  - destruct (Nat.ltb_spec 1 N1); [|lia]. set (B2 := sqrt 3 / 2 * B).
    assert (HB2 : 0 < B2) by (unfold B2; nra).
    assert (SB : B2 ^ 2 = 3 / 4 * B ^ 2) by (unfold B2; rewrite Rpow_mult_distr, S3; reflexivity).
    destruct (staggered_built N1 N2 B B2 H D r last tilt o) as (f & A1 & A2 & A3 & A4 & _); [lia|lia|]. exists f.
    split; [exact A1|]. split; [exact A2|]. split; [exact A3|]. split.
    + apply (staggered_spaced B B2 B _ _ HB HB2 (Rlt_le _ _ HB) (Rle_refl _)) in A4; [exact A4| |]; nra.
    + apply (layout_neighbour _ _ _ _ A4). intros i j [[Hi Hj] K]. unfold half_shifted. cbn [fst snd].
      destruct (Nat.odd j) eqn:O.
      * destruct j as [|j]; [discriminate|]. exists i, j.
        assert (O' : Nat.odd j = false) by (rewrite Nat.odd_succ, <- Nat.negb_odd in O; now destruct (Nat.odd j)).
        split; [split; [lia|now right; left]|]. split; [intros E; injection E as E; lia|].
        rewrite O', S_INR. apply sqrt_eq; [lra|]. replace (INR i * B + B / 2 - (INR i * B + 0)) with (B / 2) by ring.
        replace ((INR j + 1) * B2 - INR j * B2) with B2 by ring. rewrite SB. field.
      * destruct i as [|i].
        -- exists 1%nat, j. split; [split; [lia|now right; left]|]. split; [congruence|]. rewrite O. cbn [INR].
           apply sqrt_eq; [lra|]. ring.
        -- exists i, j. split; [split; [lia|now right; left]|]. split; [intros E; injection E as E; lia|]. rewrite O, S_INR.
           apply sqrt_eq; [lra|]. ring.
Qed.

(** * Centre of staggered fields *)
Lemma staggered_centred N1 N2 B1 B2 H D r last tilt f : 0 < B1 -> 0 < B2 -> (2 <= N1)%nat -> (2 <= N2)%nat ->
  staggered_field N1 N2 B1 B2 H D r last tilt None = Some f ->
  centred (stag_center N1 N2 B1 B2 last None) (to_boreholes f).
Proof.
  intros HB1 HB2 H1 H2 E.
  destruct (staggered_field_eq N1 N2 B1 B2 H D r last tilt None H1 H2) as (g & A & _ & T).
  rewrite A in E. injection E as ->. rewrite T. clear T A.
  set (c := stag_center N1 N2 B1 B2 last None).
  set (bb := fun p : nat * nat => new_bore H D r tilt c (half_shifted B1 B2 (fst p) (snd p))).
  assert (X : forall i j, bx (bb (i, j)) = INR i * B1 + (if Nat.odd j then B1 / 2 else 0)) by reflexivity.
  assert (Y : forall i j, by_ (bb (i, j)) = INR j * B2) by reflexivity.
  assert (I : forall i j, stag_in N1 N2 last i j -> In (bb (i, j)) (map bb (stag_points N1 N2 last))).
  { intros i j Hij. apply in_map. now apply stag_points_in. }
  exists 0, (2 * fst c), 0, (2 * snd c).
  assert (C1 : fst c = (if last then INR N1 - 1 / 2 else INR N1 - 1) / 2 * B1) by (unfold c, stag_center; now destruct last).
  assert (C2 : snd c = (INR N2 - 1) / 2 * B2) by (unfold c, stag_center; now destruct last).
  assert (N1' : INR (N1 - 1) = INR N1 - 1) by (rewrite minus_INR by lia; reflexivity).
  assert (N2' : INR (N2 - 1) = INR N2 - 1) by (rewrite minus_INR by lia; reflexivity).
  split; [lra|]. split; [lra|]. split; [|repeat split].
  - intros b Hb. apply in_map_iff in Hb as ([i j] & <- & Hin). apply stag_points_in in Hin as [[Hi Hj] K].
    rewrite X, Y, C1, C2. pose proof (pos_INR i). pose proof (pos_INR j).
    assert (Li : INR i <= INR N1 - 1) by (rewrite <- N1'; apply le_INR; lia).
    assert (Lj : INR j <= INR N2 - 1) by (rewrite <- N2'; apply le_INR; lia).
    split; [|split; nra]. destruct (Nat.odd j) eqn:O; [|destruct last; split; nra].
    destruct last; [split; nra|]. destruct K as [K|[K|K]]; try discriminate.
    assert (INR (S i) <= INR N1 - 1) by (rewrite <- N1'; apply le_INR; lia). rewrite S_INR in *. split; nra.
  - exists (bb (0, 0)%nat). split; [apply I; split; [lia|now right; left]|]. rewrite X. cbn. ring.
  - destruct last.
    + exists (bb (N1 - 1, 1)%nat). split; [apply I; split; [lia|now left]|]. rewrite X, N1', C1. cbn [Nat.odd Nat.even negb]. field.
    + exists (bb (N1 - 1, 0)%nat). split; [apply I; split; [lia|now right; left]|]. rewrite X, N1', C1. cbn. field.
  - exists (bb (0, 0)%nat). split; [apply I; split; [lia|now right; left]|]. rewrite Y. cbn. ring.
  - exists (bb (0, N2 - 1)%nat). split; [apply I; split; [lia|right; right; lia]|]. rewrite Y, N2', C2. field.
Qed.

(** * Circles *)
Lemma circle_eq N Rad H D r tilt o : exists f, circle_field N Rad H D r tilt o = Some f /\ field_ok f
  /\ to_boreholes f = map (fun i => new_bore H D r tilt (circle_center o) (circle_point N Rad i)) (seq 0 N).
Proof.
  unfold circle_field.
  edestruct (build_eq (map (fun i => fst (circle_point N Rad i)) (seq 0 N)) (map (fun i => snd (circle_point N Rad i)) (seq 0 N))
     H D r tilt (circle_center o)) as (f & A & B & C). { now rewrite !map_length. }
  exists f. split; [exact A|]. split; [exact B|]. rewrite C, combine_map_map, map_map. reflexivity.
Qed.

Lemma chord Rad a b : 0 < Rad -> 0 <= b - a <= 2 * PI ->
  sqrt ((Rad * cos a - Rad * cos b) ^ 2 + (Rad * sin a - Rad * sin b) ^ 2) = 2 * Rad * sin ((b - a) / 2).
Proof.
  intros HR Hab.
  assert (S : 0 <= sin ((b - a) / 2)) by (apply sin_ge_0; lra).
  apply sqrt_eq; [nra|].
  assert (E : cos (b - a) = 1 - 2 * sin ((b - a) / 2) * sin ((b - a) / 2)).
  { replace (b - a) with (2 * ((b - a) / 2)) at 1 by field. apply cos_2a_sin. }
  rewrite cos_minus in E.
  pose proof (sin2_cos2 a) as Sa. pose proof (sin2_cos2 b) as Sb. unfold Rsqr in Sa, Sb.
  replace ((Rad * cos a - Rad * cos b) ^ 2 + (Rad * sin a - Rad * sin b) ^ 2)
    with (Rad * Rad * ((sin a * sin a + cos a * cos a) + (sin b * sin b + cos b * cos b) - 2 * (cos b * cos a + sin b * sin a))) by ring.
  rewrite Sa, Sb, E. ring.
Qed.

Lemma circle_main N Rad H D r tilt o : 0 < Rad ->
  exists f, circle_field N Rad H D r tilt o = Some f /\ field_ok f
    /\ length (to_boreholes f) = N
    /\ (forall b, In b (to_boreholes f) -> as_specified H D r tilt (circle_center o) b /\ sqrt (bx b ^ 2 + by_ b ^ 2) = Rad)
    /\ ((1 <= N)%nat -> position (nth 0 (to_boreholes f) b0) = (Rad, 0))
    /\ forall i j, (i < j < N)%nat ->
         plane_dist (nth i (to_boreholes f) b0) (nth j (to_boreholes f) b0) = 2 * Rad * sin (PI * INR (j - i) / INR N)
         /\ 0 < plane_dist (nth i (to_boreholes f) b0) (nth j (to_boreholes f) b0).
Proof.
  intros HR. destruct (circle_eq N Rad H D r tilt o) as (f & A & B & T). exists f. rewrite T.
  split; [exact A|]. split; [exact B|]. split; [now rewrite map_length, seq_length|]. split; [|split].
  - intros b Hb. apply in_map_iff in Hb as (i & <- & _). split; [apply new_bore_spec|].
    unfold new_bore, circle_point, mk_bore. cbn [bx by_ fst snd]. apply sqrt_eq; [lra|].
    pose proof (sin2_cos2 (2 * PI * INR i / INR N)) as S. unfold Rsqr in S.
    set (u := sin _) in *. set (v := cos _) in *. replace ((Rad * v) ^ 2 + (Rad * u) ^ 2) with (Rad * Rad * (u * u + v * v)) by ring.
    rewrite S. ring.
  - intros HN. rewrite nth_map_seq by lia. destruct (new_bore_spec H D r tilt (circle_center o) (circle_point N Rad 0)) as [_ ->].
    unfold circle_point. cbn [INR]. replace (2 * PI * 0 / INR N) with 0 by (unfold Rdiv; ring). rewrite cos_0, sin_0. f_equal; ring.
  - intros i j Hij. rewrite !nth_map_seq by lia.
    assert (HN : 0 < INR N) by (apply lt_0_INR; lia). pose proof PI_RGT_0 as HP.
    assert (J : INR (j - i) = INR j - INR i) by (apply minus_INR; lia).
    assert (Z : 0 < INR (j - i)) by (apply lt_0_INR; lia). assert (W : INR (j - i) < INR N) by (apply lt_INR; lia).
    set (q := INR (j - i) / INR N).
    assert (Q : 0 < q < 1).
    { unfold q. split; [apply Rdiv_lt_0_compat; lra|]. apply Rmult_lt_reg_r with (INR N); [lra|]. unfold Rdiv. rewrite Rmult_assoc, Rinv_l; lra. }
    assert (EQ : 2 * PI * INR j / INR N - 2 * PI * INR i / INR N = 2 * PI * q) by (unfold q; rewrite J; field; lra).
    assert (P : plane_dist (new_bore H D r tilt (circle_center o) (circle_point N Rad i))
                 (new_bore H D r tilt (circle_center o) (circle_point N Rad j)) = 2 * Rad * sin (PI * INR (j - i) / INR N)).
    { unfold plane_dist, new_bore, circle_point, mk_bore. cbn [bx by_ fst snd]. rewrite chord; [|exact HR|rewrite EQ; nra].
      rewrite EQ. do 2 f_equal. unfold q. field. lra. }
    rewrite P. split; [reflexivity|].
    replace (PI * INR (j - i) / INR N) with (PI * q) by (unfold q; field; lra).
    assert (0 < sin (PI * q)) by (apply sin_gt_0; nra). nra.
Qed.

(** * Deprecated builders *)
Lemma map_legacy {A} H D r tilt o (q : A -> R * R) (l : list A) : (forall p, In p l -> off_circle r o (q p)) ->
  map (fun p => legacy_bore H D r tilt o (q p)) l = map (fun p => new_bore H D r tilt o (q p)) l.
Proof. intros Hl. apply map_ext_in. intros p Hp. apply legacy_eq_new, Hl, Hp. Qed.

Lemma map_flat_map {A B C} (g : B -> C) (h : A -> list B) l : map g (flat_map h l) = flat_map (fun a => map g (h a)) l.
Proof. induction l as [|a l IH]; [reflexivity|]. cbn. now rewrite map_app, IH. Qed.

Lemma flat_map_ext_in {A B} (f g : A -> list B) l : (forall a, In a l -> f a = g a) -> flat_map f l = flat_map g l.
Proof. induction l as [|a l IH]; intros H; [reflexivity|]. cbn. rewrite H by now left. rewrite IH; [reflexivity|]. intros; apply H; now right. Qed.

Definition legacy_at (B1 B2 H D r tilt : R) (o : R * R) (p : nat * nat) : bore := legacy_bore H D r tilt o (lattice B1 B2 (fst p) (snd p)).

Lemma legacy_rectangle_eq N1 N2 B1 B2 H D r tilt o :
  legacy_rectangle N1 N2 B1 B2 H D r tilt o = map (legacy_at B1 B2 H D r tilt (center N1 N2 B1 B2 o)) (grid N1 N2).
Proof. unfold legacy_rectangle, grid. rewrite map_flat_map. apply flat_map_ext. intros j. now rewrite map_map. Qed.

Lemma legacy_L_eq N1 N2 B1 B2 H D r tilt o :
  legacy_L N1 N2 B1 B2 H D r tilt o = map (legacy_at B1 B2 H D r tilt (center N1 N2 B1 B2 o)) (L_pts N1 N2).
Proof.
  unfold legacy_L, L_pts. rewrite map_app, !map_map. unfold legacy_at, lattice. cbn [fst snd INR].
  f_equal; apply map_ext; intros; now rewrite Rmult_0_l.
Qed.

Lemma sides_small N1 : (N1 <= 2)%nat -> sides N1 = seq 0 N1.
Proof. intros H. assert (N1 = 0 \/ N1 = 1 \/ N1 = 2)%nat as [->|[->| ->]] by lia; reflexivity. Qed.
Lemma sides_big N1 : (2 < N1)%nat -> sides N1 = [O; (N1 - 1)%nat].
Proof. intros H. unfold sides. rewrite Nat.min_r by lia. cbn [seq map]. f_equal. f_equal. lia. Qed.

Lemma grid_first N1 N2 : (1 <= N2)%nat -> grid N1 N2 = map (fun i => (i, O)) (seq 0 N1) ++ flat_map (fun j => map (fun i => (i, j)) (seq 0 N1)) (seq 1 (N2 - 1)).
Proof. intros H. unfold grid. destruct N2 as [|n]; [lia|]. cbn [seq flat_map]. now rewrite Nat.sub_succ, Nat.sub_0_r. Qed.

Lemma U_small N1 N2 : (1 <= N2)%nat -> (N1 <= 2 \/ N2 = 1)%nat -> U_pts N1 N2 = grid N1 N2.
Proof.
  intros H [L|L].
  - rewrite grid_first by exact H. unfold U_pts, side_pts. now rewrite sides_small.
  - subst N2. rewrite grid_first by lia. reflexivity.
Qed.

Lemma box_small N1 N2 : (1 <= N2)%nat -> (N1 <= 2 \/ N2 <= 2)%nat -> box_pts N1 N2 = grid N1 N2.
Proof.
  intros H HL. rewrite grid_first by exact H. unfold box_pts, box_top. f_equal.
  destruct (Nat.ltb_spec 1 N2) as [L|L].
  - replace (N2 - 1)%nat with (S (N2 - 2)) by lia. rewrite seq_S, flat_map_app. cbn [flat_map]. rewrite app_nil_r.
    replace (1 + (N2 - 2))%nat with (S (N2 - 2)) by lia. f_equal.
    destruct HL as [HL|HL]; [unfold side_pts; now rewrite sides_small|]. now replace (N2 - 2)%nat with O by lia.
  - replace (N2 - 2)%nat with O by lia. replace (N2 - 1)%nat with O by lia. reflexivity.
Qed.

Lemma INR_pred N : (1 <= N)%nat -> INR (N - 1) = INR N - 1.
Proof. intros. rewrite minus_INR by lia. reflexivity. Qed.

Lemma side_legacy B1 B2 H D r tilt c N1 a n : (2 < N1)%nat ->
  flat_map (fun j => [legacy_bore H D r tilt c (0, INR j * B2); legacy_bore H D r tilt c ((INR N1 - 1) * B1, INR j * B2)]) (seq a n)
  = map (legacy_at B1 B2 H D r tilt c) (side_pts N1 a n).
Proof.
  intros HN. unfold side_pts. rewrite sides_big, map_flat_map by exact HN. apply flat_map_ext. intros j. cbn [map].
  unfold legacy_at, lattice. cbn [fst snd]. rewrite INR_pred by lia. cbn [INR]. now rewrite Rmult_0_l.
Qed.

Lemma bottom_legacy B1 B2 H D r tilt c N1 :
  map (fun i => legacy_bore H D r tilt c (INR i * B1, 0)) (seq 0 N1) = map (legacy_at B1 B2 H D r tilt c) (map (fun i => (i, O)) (seq 0 N1)).
Proof. rewrite map_map. apply map_ext. intros i. unfold legacy_at, lattice. cbn [fst snd INR]. now rewrite Rmult_0_l. Qed.

Lemma legacy_U_eq N1 N2 B1 B2 H D r tilt o : (1 <= N2)%nat ->
  legacy_U N1 N2 B1 B2 H D r tilt o = map (legacy_at B1 B2 H D r tilt (center N1 N2 B1 B2 o)) (U_pts N1 N2).
Proof.
  intros HN. unfold legacy_U. cbn zeta. destruct (Nat.ltb_spec 2 N1) as [L1|L1]; [destruct (Nat.ltb_spec 1 N2) as [L2|L2]|]; cbn [andb].
  - unfold U_pts. rewrite map_app. rewrite <- (side_legacy B1 B2) by exact L1. rewrite <- bottom_legacy. reflexivity.
  - rewrite legacy_rectangle_eq, U_small by lia. reflexivity.
  - rewrite legacy_rectangle_eq, U_small by lia. reflexivity.
Qed.

Lemma two_perm {A B} (f g : A -> B) l : Permutation (flat_map (fun i => [f i; g i]) l) (map f l ++ map g l).
Proof.
  induction l as [|a l IH]; [constructor|]. cbn. constructor. eapply Permutation_trans; [|apply Permutation_middle]. now constructor.
Qed.

Lemma legacy_box_perm N1 N2 B1 B2 H D r tilt o : (1 <= N2)%nat ->
  Permutation (legacy_box N1 N2 B1 B2 H D r tilt o) (map (legacy_at B1 B2 H D r tilt (center N1 N2 B1 B2 o)) (box_pts N1 N2)).
Proof.
  intros HN. unfold legacy_box. cbn zeta. set (c := center N1 N2 B1 B2 o).
  destruct (Nat.ltb_spec 2 N1) as [L1|L1]; [destruct (Nat.ltb_spec 2 N2) as [L2|L2]|]; cbn [andb].
  - unfold box_pts, box_top. destruct (Nat.ltb_spec 1 N2); [|lia]. rewrite !map_app.
    replace (N2 - 1 - 1)%nat with (N2 - 2)%nat by lia.
    rewrite <- (side_legacy B1 B2) by exact L1. rewrite <- bottom_legacy.
    eapply Permutation_trans; [apply Permutation_app_tail, two_perm|]. rewrite <- app_assoc. apply Permutation_app_head.
    eapply Permutation_trans; [apply Permutation_app_comm|]. apply Permutation_app_head.
    rewrite map_map. apply Permutation_refl'. apply map_ext. intros i. unfold legacy_at, lattice. cbn [fst snd]. now rewrite INR_pred by lia.
  - rewrite legacy_rectangle_eq, box_small by lia. apply Permutation_refl.
  - rewrite legacy_rectangle_eq, box_small by lia. apply Permutation_refl.
Qed.

Lemma legacy_staggered_eq N1 N2 B1 B2 H D r last tilt o : (2 <= N1)%nat -> (2 <= N2)%nat ->
  legacy_staggered N1 N2 B1 B2 H D r last tilt o
  = map (fun p => legacy_bore H D r tilt (legacy_stag_center N1 N2 B1 B2 last o) (half_shifted B1 B2 (fst p) (snd p))) (stag_points N1 N2 last).
Proof.
  intros H1 H2. unfold legacy_staggered. destruct (Nat.eqb_spec N1 1); [lia|]. destruct (Nat.eqb_spec N2 1); [lia|]. cbn [orb].
  unfold stag_points. rewrite map_flat_map. apply flat_map_ext. intros j. rewrite map_map.
  generalize (seq 0 N1) as l. induction l as [|i l IH]; [reflexivity|]. cbn [flat_map filter].
  destruct (stag_keep N1 last i j); [|exact IH]. cbn [map app]. rewrite IH. f_equal. unfold half_shifted. cbn [fst snd]. now rewrite odd_mod.
Qed.

(** Agreement of the two families of builders. *)
Lemma pts_legacy B1 B2 xs ys pts H D r tilt o f : length xs = length ys -> combine xs ys = pts ->
  build (scale B1 xs) (scale B2 ys) H D r tilt o = Some f ->
  (forall b, In b (to_boreholes f) -> off_circle r o (position b)) ->
  to_boreholes f = map (legacy_at B1 B2 H D r tilt o) pts.
Proof.
  intros E Ep Hb Ho. destruct (pts_field B1 B2 xs ys pts H D r tilt o E Ep) as (g & A & _ & C).
  rewrite A in Hb. injection Hb as ->. rewrite C in *. symmetry. unfold legacy_at.
  apply (map_legacy H D r tilt o (fun p => lattice B1 B2 (fst p) (snd p))). intros p Hp.
  specialize (Ho (new_bore H D r tilt o (lattice B1 B2 (fst p) (snd p)))). destruct (new_bore_spec H D r tilt o (lattice B1 B2 (fst p) (snd p))) as [_ Eq].
  rewrite Eq in Ho. apply Ho. apply (in_map (fun p => new_bore H D r tilt o (lattice B1 B2 (fst p) (snd p)))). exact Hp.
Qed.

Lemma legacy_rectangle_agrees N1 N2 B1 B2 H D r tilt o f : rectangle_field N1 N2 B1 B2 H D r tilt o = Some f ->
  (forall b, In b (to_boreholes f) -> off_circle r (center N1 N2 B1 B2 o) (position b)) ->
  legacy_rectangle N1 N2 B1 B2 H D r tilt o = to_boreholes f.
Proof. intros E Ho. rewrite legacy_rectangle_eq. symmetry. eapply pts_legacy; [apply rect_len|apply rect_pts|exact E|exact Ho]. Qed.

Lemma legacy_L_agrees N1 N2 B1 B2 H D r tilt o f : L_field N1 N2 B1 B2 H D r tilt o = Some f ->
  (forall b, In b (to_boreholes f) -> off_circle r (center N1 N2 B1 B2 o) (position b)) ->
  legacy_L N1 N2 B1 B2 H D r tilt o = to_boreholes f.
Proof.
  unfold L_field. destruct (N2 =? 0)%nat; [discriminate|]. intros E Ho. rewrite legacy_L_eq. symmetry.
  eapply pts_legacy; [apply L_len|apply L_pts_eq|exact E|exact Ho].
Qed.

Lemma legacy_U_agrees N1 N2 B1 B2 H D r tilt o f : U_field N1 N2 B1 B2 H D r tilt o = Some f ->
  (forall b, In b (to_boreholes f) -> off_circle r (center N1 N2 B1 B2 o) (position b)) ->
  legacy_U N1 N2 B1 B2 H D r tilt o = to_boreholes f.
Proof.
  unfold U_field. destruct (Nat.eqb_spec N2 0); [discriminate|]. intros E Ho. rewrite legacy_U_eq by lia. symmetry.
  eapply pts_legacy; [apply U_len|apply U_pts_eq|exact E|exact Ho].
Qed.

Lemma legacy_box_agrees N1 N2 B1 B2 H D r tilt o f : (1 <= N2)%nat -> box_field N1 N2 B1 B2 H D r tilt o = Some f ->
  (forall b, In b (to_boreholes f) -> off_circle r (center N1 N2 B1 B2 o) (position b)) ->
  Permutation (legacy_box N1 N2 B1 B2 H D r tilt o) (to_boreholes f).
Proof.
  intros HN E Ho. eapply Permutation_trans; [now apply legacy_box_perm|]. apply Permutation_refl'. symmetry.
  eapply pts_legacy; [apply box_len|apply box_pts_eq|exact E|exact Ho].
Qed.

Lemma legacy_staggered_agrees N1 N2 B1 B2 H D r last tilt p f : (1 <= N1)%nat -> (1 <= N2)%nat ->
  staggered_field N1 N2 B1 B2 H D r last tilt (Some p) = Some f ->
  (forall b, In b (to_boreholes f) -> off_circle r p (position b)) ->
  legacy_staggered N1 N2 B1 B2 H D r last tilt (Some p) = to_boreholes f.
Proof.
  intros H1 H2 E Ho. destruct (Nat.eq_dec N1 1) as [E1|E1]; [|destruct (Nat.eq_dec N2 1) as [E2|E2]].
  - rewrite staggered_degenerate in E by now left. rewrite <- (legacy_rectangle_agrees _ _ _ _ _ _ _ _ _ _ E Ho).
    subst. reflexivity.
  - rewrite staggered_degenerate in E by now right. rewrite <- (legacy_rectangle_agrees _ _ _ _ _ _ _ _ _ _ E Ho).
    subst. unfold legacy_staggered. now rewrite Bool.orb_true_r.
  - rewrite legacy_staggered_eq by lia. destruct (staggered_field_eq N1 N2 B1 B2 H D r last tilt (Some p)) as (g & A & _ & C); [lia|lia|].
    rewrite A in E. injection E as ->. rewrite C in *. cbn [legacy_stag_center stag_center] in *.
    apply (map_legacy H D r tilt p (fun q => half_shifted B1 B2 (fst q) (snd q))). intros q Hq.
    specialize (Ho (new_bore H D r tilt p (half_shifted B1 B2 (fst q) (snd q)))).
    destruct (new_bore_spec H D r tilt p (half_shifted B1 B2 (fst q) (snd q))) as [_ Eq]. rewrite Eq in Ho. apply Ho.
    apply (in_map (fun q => new_bore H D r tilt p (half_shifted B1 B2 (fst q) (snd q)))). exact Hq.
Qed.

Lemma legacy_dense_agrees N1 N2 B H D r last tilt p f : (1 <= N1)%nat -> (1 <= N2)%nat ->
  dense_field N1 N2 B H D r last tilt (Some p) = Some f ->
  (forall b, In b (to_boreholes f) -> off_circle r p (position b)) ->
  legacy_dense N1 N2 B H D r last tilt (Some p) = to_boreholes f.
Proof.
  intros H1 H2 E Ho. unfold dense_field in E. unfold legacy_dense. destruct (Nat.eqb_spec N1 1) as [->|N].
  - cbn [Nat.ltb Nat.leb] in E. rewrite staggered_degenerate in E by now left. exact (legacy_rectangle_agrees _ _ _ _ _ _ _ _ _ _ E Ho).
  - destruct (Nat.ltb_spec 1 N1); [|lia]. now apply legacy_staggered_agrees.
Qed.

Lemma legacy_circle_agrees N Rad H D r tilt o f : circle_field N Rad H D r tilt o = Some f ->
  (forall b, In b (to_boreholes f) -> off_circle r (circle_center o) (position b)) ->
  legacy_circle N Rad H D r tilt o = to_boreholes f.
Proof.
  intros E Ho. destruct (circle_eq N Rad H D r tilt o) as (g & A & _ & C). rewrite A in E. injection E as ->. rewrite C in *.
  unfold legacy_circle. apply map_legacy. intros i Hi.
  specialize (Ho (new_bore H D r tilt (circle_center o) (circle_point N Rad i))).
  destruct (new_bore_spec H D r tilt (circle_center o) (circle_point N Rad i)) as [_ Eq]. rewrite Eq in Ho. apply Ho.
  apply (in_map (fun i => new_bore H D r tilt (circle_center o) (circle_point N Rad i))). exact Hi.
Qed.

(** The default origin of the deprecated staggered builder is not the centre. *)
Lemma legacy_origin_off : exists N1 N2 B1 B2 H D r tilt last,
  (2 <= N1)%nat /\ (2 <= N2)%nat /\ 0 < B1 /\ 0 < B2 /\ 0 < r /\ tilted tilt = true /\
  ~ centred (legacy_stag_center N1 N2 B1 B2 last None) (legacy_staggered N1 N2 B1 B2 H D r last tilt None).
Proof.
  exists 2%nat, 2%nat, 1, 1, 100, 2, (1 / 10), (1 / 4), true. repeat split; try lia; try lra.
  - unfold tilted. apply Rltb_true. rewrite Rabs_right by lra. lra.
  - rewrite legacy_staggered_eq by lia. set (c := legacy_stag_center 2 2 1 1 true None).
    change (stag_points 2 2 true) with [(0, 0); (1, 0); (0, 1); (1, 1)]%nat. cbn [map fst snd].
    assert (P : forall q, bx (legacy_bore 100 2 (1 / 10) (1 / 4) c q) = fst q).
    { intros q. destruct (legacy_position 100 2 (1 / 10) (1 / 4) c q) as [E _]. exact (f_equal fst E). }
    intros (x1 & x2 & y1 & y2 & C1 & _ & Hall & (b1 & I1 & E1) & (b2 & I2 & E2) & _).
    unfold c in C1. cbn [legacy_stag_center fst INR] in C1.
    pose proof (Hall _ (or_introl eq_refl)) as [A _]. rewrite P in A. unfold half_shifted in A. cbn in A.
    pose proof (Hall _ (or_intror (or_intror (or_intror (or_introl eq_refl))))) as [B _]. rewrite P in B. unfold half_shifted in B. cbn in B.
    assert (0 <= bx b1).
    { destruct I1 as [<-|[<-|[<-|[<-|[]]]]]; rewrite P; unfold half_shifted; cbn; lra. }
    lra.
Qed.

(** Layouts of the deprecated builders. *)
Lemma legacy_layout B1 B2 H D r tilt c pts P n l : Permutation l (map (legacy_at B1 B2 H D r tilt c) pts) ->
  NoDup pts -> (forall i j, In (i, j) pts <-> P i j) -> length pts = n ->
  length l = n /\ layout (lattice B1 B2) P l /\ dims H D r l.
Proof.
  intros HP ND HI L. split; [apply Permutation_length in HP; rewrite map_length in HP; lia|]. split.
  - destruct (Permutation_map_inv _ _ HP) as (pts' & E & HP'). exists pts'. split; [|split].
    + rewrite E, map_map. apply map_ext. intros p. apply legacy_position.
    + eapply Permutation_NoDup; eassumption.
    + intros i j. rewrite <- HI. split; apply Permutation_in; [now apply Permutation_sym|exact HP'].
  - intros b Hb. apply (Permutation_in _ HP) in Hb. apply in_map_iff in Hb as (p & <- & _).
    destruct (legacy_position H D r tilt c (lattice B1 B2 (fst p) (snd p))) as (_ & A & B & C). now repeat split.
Qed.

Lemma legacy_rectangle_layout N1 N2 B1 B2 H D r tilt o : let l := legacy_rectangle N1 N2 B1 B2 H D r tilt o in
  length l = (N1 * N2)%nat /\ layout (lattice B1 B2) (fun i j => i < N1 /\ j < N2)%nat l /\ dims H D r l.
Proof.
  destruct (grid_spec N1 N2) as (A & B & C). cbn zeta. eapply legacy_layout; [|exact A|exact B|exact C].
  apply Permutation_refl'. apply legacy_rectangle_eq.
Qed.
Lemma legacy_L_layout N1 N2 B1 B2 H D r tilt o : (1 <= N1)%nat -> (1 <= N2)%nat -> let l := legacy_L N1 N2 B1 B2 H D r tilt o in
  length l = (N1 + N2 - 1)%nat /\ layout (lattice B1 B2) (fun i j => (i < N1 /\ j = 0) \/ (i = 0 /\ j < N2))%nat l /\ dims H D r l.
Proof.
  intros H1 H2. destruct (L_pts_spec N1 N2 H1 H2) as (A & B & C). cbn zeta. eapply legacy_layout; [|exact A|exact B|exact C].
  apply Permutation_refl'. apply legacy_L_eq.
Qed.
Lemma legacy_U_layout N1 N2 B1 B2 H D r tilt o : (1 <= N1)%nat -> (1 <= N2)%nat -> let l := legacy_U N1 N2 B1 B2 H D r tilt o in
  length l = (N1 + Nat.min N1 2 * (N2 - 1))%nat
  /\ layout (lattice B1 B2) (fun i j => (i < N1 /\ j < N2) /\ (j = 0 \/ i = 0 \/ i = N1 - 1))%nat l /\ dims H D r l.
Proof.
  intros H1 H2. destruct (U_pts_spec N1 N2 H1 H2) as (A & B & C). cbn zeta. eapply legacy_layout; [|exact A|exact B|exact C].
  apply Permutation_refl'. apply legacy_U_eq. exact H2.
Qed.
Lemma legacy_box_layout N1 N2 B1 B2 H D r tilt o : (1 <= N1)%nat -> (1 <= N2)%nat -> let l := legacy_box N1 N2 B1 B2 H D r tilt o in
  length l = (N1 + Nat.min N1 2 * (N2 - 2) + (if (1 <? N2) then N1 else 0))%nat
  /\ layout (lattice B1 B2) (fun i j => (i < N1 /\ j < N2) /\ (j = 0 \/ j = N2 - 1 \/ i = 0 \/ i = N1 - 1))%nat l /\ dims H D r l.
Proof.
  intros H1 H2. destruct (box_pts_spec N1 N2 H1 H2) as (A & B & C). cbn zeta. eapply legacy_layout; [|exact A|exact B|exact C].
  apply legacy_box_perm. exact H2.
Qed.

(** At distance exactly r_b from the origin the two families differ. *)
Lemma legacy_on_circle_differs : exists N1 N2 B1 B2 H D r tilt f, 0 < B1 /\ 0 < B2 /\ 0 < r /\
  rectangle_field N1 N2 B1 B2 H D r tilt (Some (0, 0)) = Some f /\ legacy_rectangle N1 N2 B1 B2 H D r tilt (Some (0, 0)) <> to_boreholes f.
Proof.
  destruct (pts_field 1 1 _ _ _ 100 2 1 (1 / 4) (0, 0) (rect_len 2 1) (rect_pts 2 1)) as (f & A & _ & C).
  exists 2%nat, 1%nat, 1, 1, 100, 2, 1, (1 / 4), f. repeat split; try lra; [exact A|].
  rewrite C, legacy_rectangle_eq. intros E. apply (f_equal (fun l => btilt (nth 1 l b0))) in E.
  cbn [grid seq flat_map map nth app] in E. unfold legacy_at, legacy_bore, new_bore, lattice in E. cbn [fst snd center INR] in E.
  assert (Dd : dis0 0 0 (1 * 1) (0 * 1) = 1) by (unfold dis0; apply sqrt_eq; lra).
  rewrite Dd in E. rewrite !(proj2 (Rltb_false 1 1)) in E by lra. cbn in E. lra.
Qed.
