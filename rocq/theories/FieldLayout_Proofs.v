(** Proofs on the layouts of bore fields. *)
From Verif Require Import Base Bore_Model Bore_Spec Field_Model Field_Spec Bore_Proofs Field_Proofs.
From Coq Require Import Permutation Ratan.

(** * arctan2 *)
Lemma atan2_pos_x x y : 0 < x -> let d := sqrt (x ^ 2 + y ^ 2) in d * cos (atan (y / x)) = x /\ d * sin (atan (y / x)) = y.
Proof.
  intros Hx d.
  assert (Hd : d = x * sqrt (1 + (y / x)²)).
  { unfold d. replace (x ^ 2 + y ^ 2) with (x² * (1 + (y / x)²)) by (unfold Rsqr; field; lra).
    rewrite sqrt_mult_alt by apply Rle_0_sqr. now rewrite sqrt_Rsqr by lra. }
  assert (S : 0 < sqrt (1 + (y / x)²)) by (apply sqrt_lt_R0; pose proof (Rle_0_sqr (y / x)); lra).
  rewrite cos_atan, sin_atan, Hd. split; field; repeat split; lra.
Qed.

Lemma atan2_spec y x : let d := sqrt (x ^ 2 + y ^ 2) in
  d * cos (atan2 y x) = x /\ d * sin (atan2 y x) = y /\ - PI < atan2 y x <= PI.
Proof.
  intros d. unfold atan2. pose proof PI_RGT_0 as HP. pose proof (atan_bound (y / x)) as HB.
  destruct (Rltb 0 x) eqn:E1; [apply Rltb_true in E1|apply Rltb_false in E1].
  - destruct (atan2_pos_x x y E1) as [A B]. fold d in A, B. repeat split; try assumption; lra.
  - destruct (Rltb x 0) eqn:E2; [apply Rltb_true in E2|apply Rltb_false in E2].
    + destruct (atan2_pos_x (- x) (- y) ltac:(lra)) as [A B].
      replace ((- x) ^ 2 + (- y) ^ 2) with (x ^ 2 + y ^ 2) in A, B by ring. fold d in A, B.
      replace (- y / - x) with (y / x) in A, B by (field; lra).
      destruct (Rleb 0 y) eqn:E3; [apply Rleb_true in E3|apply Rleb_false in E3].
      * rewrite neg_cos, neg_sin. split; [lra|]. split; [lra|]. split; [lra|].
        assert (y / x <= 0).
        { unfold Rdiv. assert (/ x < 0) by now apply Rinv_lt_0_compat. nra. }
        destruct (Req_dec (y / x) 0) as [Z|Z]; [rewrite Z, atan_0; lra|].
        assert (atan (y / x) < atan 0) by (apply atan_increasing; lra). rewrite atan_0 in *. lra.
      * replace (atan (y / x) - PI) with (- (PI - atan (y / x))) by ring.
        rewrite cos_neg, sin_neg. rewrite Rtrigo_facts.cos_pi_minus, Rtrigo_facts.sin_pi_minus.
        split; [lra|]. split; [lra|]. split; [|lra].
        assert (0 < y / x).
        { unfold Rdiv. assert (/ x < 0) by now apply Rinv_lt_0_compat. nra. }
        assert (atan 0 < atan (y / x)) by (apply atan_increasing; lra). rewrite atan_0 in *. lra.
    + assert (x = 0) by lra. subst x. assert (Hd : d = Rabs y).
      { unfold d. rewrite <- sqrt_Rsqr_abs. f_equal. unfold Rsqr. ring. }
      destruct (Rltb 0 y) eqn:E3; [apply Rltb_true in E3|apply Rltb_false in E3].
      * rewrite cos_PI2, sin_PI2, Hd, Rabs_right by lra. repeat split; lra.
      * destruct (Rltb y 0) eqn:E4; [apply Rltb_true in E4|apply Rltb_false in E4].
        -- rewrite cos_neg, sin_neg, cos_PI2, sin_PI2, Hd, Rabs_left by lra. repeat split; lra.
        -- assert (y = 0) by lra. subst y. rewrite Hd, Rabs_R0. repeat split; lra.
Qed.

(** * Construction from positions *)
Definition new_bore (H D r tilt : R) (o : R * R) (q : R * R) : bore :=
  mk_bore H D r (fst q) (snd q) (if Rltb (dis0 (fst o) (snd o) (fst q) (snd q)) r then 0 else tilt)
          (atan2 (snd q - snd o) (fst q - fst o)).

Lemma tilted_0 : tilted 0 = false.
Proof. unfold tilted. apply Rltb_false. rewrite Rabs_R0. lra. Qed.

Lemma new_bore_spec H D r tilt o q : as_specified H D r tilt o (new_bore H D r tilt o q) /\ position (new_bore H D r tilt o q) = q.
Proof.
  destruct q as [x y], o as [x0 y0]. split; [|reflexivity].
  unfold as_specified, new_bore, mk_bore. cbn [bH bD br bx by_ btilt bori fst snd].
  split; [reflexivity|]. split; [reflexivity|]. split; [reflexivity|]. cbn zeta.
  change (sqrt ((x - x0) ^ 2 + (y - y0) ^ 2)) with (dis0 x0 y0 x y).
  destruct (Rltb (dis0 x0 y0 x y) r) eqn:E; [apply Rltb_true in E|apply Rltb_false in E].
  - rewrite tilted_0. split; [intros _; now split|intros; lra].
  - split; [intros; lra|]. intros _. split; [reflexivity|]. split; intros ->; [reflexivity|].
    destruct (atan2_spec (y - y0) (x - x0)) as (A & B & C). split; [exact A|]. split; [exact B|exact C].
Qed.

Lemma legacy_eq_new H D r tilt o q : dis0 (fst o) (snd o) (fst q) (snd q) <> r ->
  legacy_bore H D r tilt o q = new_bore H D r tilt o q.
Proof.
  destruct q as [x y], o as [x0 y0]. cbn [fst snd]. intros Hne. unfold legacy_bore, new_bore. cbn [fst snd].
  destruct (Rltb r (dis0 x0 y0 x y)) eqn:E; [apply Rltb_true in E|apply Rltb_false in E].
  - destruct (Rltb (dis0 x0 y0 x y) r) eqn:F; [apply Rltb_true in F; lra|reflexivity].
  - destruct (Rltb (dis0 x0 y0 x y) r) eqn:F; [|apply Rltb_false in F; lra].
    unfold mk_bore. now rewrite tilted_0.
Qed.

Lemma legacy_position H D r tilt o q : position (legacy_bore H D r tilt o q) = q
  /\ bH (legacy_bore H D r tilt o q) = H /\ bD (legacy_bore H D r tilt o q) = D /\ br (legacy_bore H D r tilt o q) = r.
Proof. destruct q as [x y], o as [x0 y0]. unfold legacy_bore. destruct (Rltb _ _); repeat split. Qed.

Lemma map_if_all_false {A} (p : A -> bool) (t : R) l : existsb p l = false -> map (fun v => if p v then 0 else t) l = repeat t (length l).
Proof.
  induction l as [|a l IH]; [reflexivity|]. cbn. intros H. apply Bool.orb_false_iff in H as [-> H]. now rewrite IH.
Qed.

Lemma build_eq x y H D r tilt o : length x = length y ->
  exists f, build x y H D r tilt o = Some f /\ field_ok f /\ to_boreholes f = map (new_bore H D r tilt o) (combine x y).
Proof.
  intros E. destruct o as [x0 y0]. set (n := length x).
  assert (Lc : length (combine x y) = n) by (rewrite combine_length; unfold n; lia).
  set (d := map (fun q => dis0 x0 y0 (fst q) (snd q)) (combine x y)).
  set (t := map (fun v => if Rltb v r then 0 else tilt) d).
  set (ori := map (fun q => atan2 (snd q - y0) (fst q - x0)) (combine x y)).
  assert (Ld : length d = n) by (unfold d; now rewrite map_length).
  assert (Lt : length t = n) by (unfold t; now rewrite map_length).
  assert (Lo : length ori = n) by (unfold ori; now rewrite map_length).
  assert (B : build x y H D r tilt (x0, y0) = Some (Field (repeat H n) (repeat D n) (repeat r n) x y t (masked t ori))).
  { unfold build. fold d ori. apply field_init_eq with (n := n); try reflexivity.
    - cbn. unfold n. lia.
    - now apply broadcast_same.
    - apply broadcast_same. cbn. unfold n. lia.
    - fold t. destruct (existsb _ d) eqn:X; [now apply broadcast_same|].
      cbn. f_equal. unfold t. rewrite (map_if_all_false (fun v => Rltb v r)) by exact X. now rewrite Ld.
    - now apply broadcast_same. }
  eexists. split; [exact B|]. split.
  - apply field_ok_masked with n; rewrite ?repeat_length; unfold n in *; lia.
  - rewrite to_boreholes_eq. unfold nBoreholes. cbn [fx].
    apply (list_eq_nth b0); [rewrite !map_length, seq_length; now rewrite Lc|].
    intros k Hk. rewrite map_length, seq_length in Hk. rewrite nth_map_seq by exact Hk.
    fold n in Hk. rewrite (nth_map _ (combine x y) k (0, 0) b0) by lia. rewrite combine_nth by exact E.
    unfold item. cbn [fH fD fr fx fy ft fo].
    rewrite (nth_masked t ori) by lia.
    assert (R1 : forall v, nth k (repeat v n) 0 = v).
    { intros v. rewrite (nth_indep _ 0 v) by (rewrite repeat_length; lia). apply nth_repeat. }
    rewrite !R1. unfold new_bore. cbn [fst snd].
    assert (T : nth k t 0 = if Rltb (dis0 x0 y0 (nth k x 0) (nth k y 0)) r then 0 else tilt).
    { unfold t. rewrite (nth_map _ d k 0 0) by lia. unfold d.
      rewrite (nth_map _ (combine x y) k (0, 0) 0) by lia. now rewrite combine_nth. }
    assert (O : nth k ori 0 = atan2 (nth k y 0 - y0) (nth k x 0 - x0)).
    { unfold ori. rewrite (nth_map _ (combine x y) k (0, 0) 0) by lia. now rewrite combine_nth. }
    rewrite T, O. unfold mk_bore, mask. f_equal. now destruct (tilted _).
Qed.

(** * Lattices *)
Definition grid (N1 N2 : nat) : list (nat * nat) := flat_map (fun j => map (fun i => (i, j)) (seq 0 N1)) (seq 0 N2).

Lemma combine_app {A B} (a a' : list A) (b b' : list B) : length a = length b ->
  combine (a ++ a') (b ++ b') = combine a b ++ combine a' b'.
Proof. revert b; induction a as [|x a IH]; intros [|y b] E; try discriminate; [reflexivity|]. cbn. f_equal. apply IH. cbn in E; lia. Qed.

Lemma combine_repeat_r {A B} (l : list A) (b : B) n : length l = n -> combine l (repeat b n) = map (fun a => (a, b)) l.
Proof. revert n; induction l as [|x l IH]; intros [|n] E; try discriminate; [reflexivity|]. cbn. f_equal. apply IH. cbn in E; lia. Qed.

Lemma combine_repeat_l {A B} (a : A) (l : list B) n : length l = n -> combine (repeat a n) l = map (fun b => (a, b)) l.
Proof. revert n; induction l as [|x l IH]; intros [|n] E; try discriminate; [reflexivity|]. cbn. f_equal. apply IH. cbn in E; lia. Qed.

Lemma combine_tile {A B} (l : list A) (m : list B) k n : length l = k -> length m = n ->
  combine (tile l n) (rep_each m k) = flat_map (fun j => map (fun i => (i, j)) l) m.
Proof.
  intros Hk. revert n; induction m as [|y m IH]; intros [|n] E; try discriminate; [reflexivity|].
  unfold tile, rep_each in *. cbn [repeat concat flat_map].
  rewrite combine_app by (rewrite repeat_length; exact Hk). rewrite combine_repeat_r by exact Hk. f_equal. apply IH. cbn in E; lia.
Qed.

Lemma tile_length {A} (l : list A) n : length (tile l n) = (n * length l)%nat.
Proof. unfold tile. induction n as [|n IH]; [reflexivity|]. cbn. rewrite app_length, IH. reflexivity. Qed.
Lemma rep_length {A} (l : list A) n : length (rep_each l n) = (length l * n)%nat.
Proof. unfold rep_each. induction l as [|a l IH]; [reflexivity|]. cbn. rewrite app_length, repeat_length, IH. reflexivity. Qed.

Lemma combine_scale B1 B2 (l m : list nat) : combine (scale B1 l) (scale B2 m) = map (fun p => lattice B1 B2 (fst p) (snd p)) (combine l m).
Proof. unfold scale. revert m; induction l as [|a l IH]; intros [|b m]; try reflexivity. cbn. f_equal. apply IH. Qed.

Lemma rect_pts N1 N2 : combine (rect_x N1 N2) (rect_y N1 N2) = grid N1 N2.
Proof. unfold rect_x, rect_y. apply combine_tile; apply seq_length. Qed.

Lemma in_rows {A} (l : nat -> list A) m i j : In (i, j) (flat_map (fun j => map (fun i => (i, j)) (l j)) m) <-> In i (l j) /\ In j m.
Proof.
  rewrite in_flat_map. split.
  - intros (k & Hk & H). apply in_map_iff in H as (a & E & Ha). injection E as -> ->. now split.
  - intros [H1 H2]. exists j. split; [exact H2|]. apply in_map_iff. now exists i.
Qed.

Lemma NoDup_app_intro {A} (l m : list A) : NoDup l -> NoDup m -> (forall x, In x l -> ~ In x m) -> NoDup (l ++ m).
Proof.
  intros Hl Hm Hd. induction Hl as [|a l Ha Hl IH]; [exact Hm|]. cbn. constructor.
  - rewrite in_app_iff. intros [H|H]; [now apply Ha|]. apply (Hd a); [now left|exact H].
  - apply IH. intros x Hx. apply Hd. now right.
Qed.

Lemma NoDup_map_inj {A B} (f : A -> B) l : (forall x y, In x l -> In y l -> f x = f y -> x = y) -> NoDup l -> NoDup (map f l).
Proof.
  intros Hf Hl. induction Hl as [|a l Ha Hl IH]; cbn; constructor.
  - intros H. apply in_map_iff in H as (x & E & Hx). apply Ha. rewrite (Hf a x); [exact Hx|now left|now right|now symmetry].
  - apply IH. intros x y Hx Hy. apply Hf; now right.
Qed.

Lemma NoDup_rows {A} (l : nat -> list A) m : (forall j, In j m -> NoDup (l j)) -> NoDup m ->
  NoDup (flat_map (fun j => map (fun i => (i, j)) (l j)) m).
Proof.
  intros Hl Hm. induction Hm as [|j m Hj Hm IH]; cbn [flat_map]; [constructor|].
  apply NoDup_app_intro.
  - apply NoDup_map_inj; [intros x y _ _ E; now injection E|]. apply Hl; now left.
  - apply IH. intros k Hk. apply Hl. now right.
  - intros [i k] Hx Hy. apply in_map_iff in Hx as (a & E & _). injection E as _ ->. apply in_rows in Hy as [_ Hy]. contradiction.
Qed.

Lemma flat_rows_length {A} (l : list A) (m : list nat) : length (flat_map (fun j => map (fun i => (i, j)) l) m) = (length l * length m)%nat.
Proof. induction m as [|j m IH]; cbn; [lia|]. rewrite app_length, map_length, IH. lia. Qed.

Lemma grid_spec N1 N2 : NoDup (grid N1 N2) /\ (forall i j, In (i, j) (grid N1 N2) <-> (i < N1)%nat /\ (j < N2)%nat)
  /\ length (grid N1 N2) = (N1 * N2)%nat.
Proof.
  unfold grid. split; [|split].
  - apply (NoDup_rows (fun _ => seq 0 N1)); intros; apply seq_NoDup.
  - intros i j. rewrite (in_rows (fun _ => seq 0 N1)), !in_seq. lia.
  - rewrite flat_rows_length, !seq_length. reflexivity.
Qed.

Lemma grid_nth N1 N2 i j : (i < N1)%nat -> (j < N2)%nat -> nth (j * N1 + i) (grid N1 N2) (0, 0)%nat = (i, j).
Proof.
  intros Hi Hj. unfold grid.
  assert (G : forall n a, (j < n)%nat -> nth (j * N1 + i) (flat_map (fun j => map (fun i => (i, j)) (seq 0 N1)) (seq a n)) (0, 0)%nat = (i, a + j)%nat).
  { clear Hj. induction j as [|k IH]; intros [|n] a Hn; try lia; cbn [seq flat_map].
    - rewrite app_nth1 by (rewrite map_length, seq_length; lia). cbn [Nat.mul Nat.add]. rewrite nth_map_seq by exact Hi. f_equal. lia.
    - rewrite app_nth2 by (rewrite map_length, seq_length; cbn; lia). rewrite map_length, seq_length.
      replace (S k * N1 + i - N1)%nat with (k * N1 + i)%nat by (cbn; lia). rewrite IH by lia. f_equal. lia. }
  rewrite G by exact Hj. reflexivity.
Qed.

(** * Spacing *)
Lemma sqrt_ge d s : 0 <= d -> d * d <= s -> d <= sqrt s.
Proof. intros. rewrite <- (sqrt_square d) by assumption. now apply sqrt_le_1_alt. Qed.

Lemma INR_diff i k : i <> k -> 1 <= (INR i - INR k) ^ 2.
Proof.
  intros H. destruct (Nat.lt_total i k) as [L|[L|L]]; [|contradiction|].
  - assert (INR i + 1 <= INR k) by (rewrite <- S_INR; apply le_INR; lia). nra.
  - assert (INR k + 1 <= INR i) by (rewrite <- S_INR; apply le_INR; lia). nra.
Qed.

Lemma lattice_apart B1 B2 i j k l : 0 < B1 -> 0 < B2 -> (i, j) <> (k, l) ->
  Rmin B1 B2 <= sqrt ((fst (lattice B1 B2 i j) - fst (lattice B1 B2 k l)) ^ 2 + (snd (lattice B1 B2 i j) - snd (lattice B1 B2 k l)) ^ 2).
Proof.
  intros H1 H2 Hne. unfold lattice. cbn [fst snd].
  replace (INR i * B1 - INR k * B1) with ((INR i - INR k) * B1) by ring.
  replace (INR j * B2 - INR l * B2) with ((INR j - INR l) * B2) by ring. rewrite !Rpow_mult_distr.
  apply sqrt_ge; [apply Rmin_glb; lra|].
  assert (M : 0 < Rmin B1 B2) by (apply Rmin_glb_lt; assumption).
  pose proof (Rmin_l B1 B2). pose proof (Rmin_r B1 B2).
  assert (Rmin B1 B2 * Rmin B1 B2 <= B1 ^ 2) by nra. assert (Rmin B1 B2 * Rmin B1 B2 <= B2 ^ 2) by nra.
  pose proof (pow2_ge_0 (INR i - INR k)). pose proof (pow2_ge_0 (INR j - INR l)).
  destruct (Nat.eq_dec i k) as [->|N].
  - assert (N : j <> l) by congruence. pose proof (INR_diff j l N). nra.
  - pose proof (INR_diff i k N). nra.
Qed.

Lemma layout_spaced emb P l d : layout emb P l ->
  (forall i j k m, P i j -> P k m -> (i, j) <> (k, m) ->
     d <= sqrt ((fst (emb i j) - fst (emb k m)) ^ 2 + (snd (emb i j) - snd (emb k m)) ^ 2)) -> spaced d l.
Proof.
  intros (pts & E & ND & HP) Hd a b Ha Hb Hab.
  assert (L : length pts = length l) by (apply (f_equal (@length _)) in E; rewrite !map_length in E; lia).
  assert (Q : forall c, (c < length l)%nat -> position (nth c l b0) = emb (fst (nth c pts (0, 0)%nat)) (snd (nth c pts (0, 0)%nat))).
  { intros c Hc. rewrite <- (nth_map position l c b0 (0, 0)) by exact Hc. rewrite E.
    now rewrite (nth_map _ pts c (0, 0)%nat (0, 0)) by lia. }
  pose proof (Q a Ha) as Qa. pose proof (Q b Hb) as Qb.
  assert (Pa : P (fst (nth a pts (0, 0)%nat)) (snd (nth a pts (0, 0)%nat))) by (apply HP; rewrite <- surjective_pairing; apply nth_In; lia).
  assert (Pb : P (fst (nth b pts (0, 0)%nat)) (snd (nth b pts (0, 0)%nat))) by (apply HP; rewrite <- surjective_pairing; apply nth_In; lia).
  specialize (Hd _ _ _ _ Pa Pb). rewrite <- Qa, <- Qb in Hd. apply Hd.
  rewrite <- !surjective_pairing. intros Heq. apply Hab. apply (proj1 (NoDup_nth pts (0, 0)%nat) ND); lia || exact Heq.
Qed.

(** * L, U and box *)
Definition L_pts (N1 N2 : nat) := map (fun i => (i, O)) (seq 0 N1) ++ map (fun j => (O, j)) (seq 1 (N2 - 1)).
Definition sides (N1 : nat) : list nat := map (fun i => (i * (N1 - 1))%nat) (seq 0 (Nat.min N1 2)).
Definition side_pts (N1 a n : nat) := flat_map (fun j => map (fun i => (i, j)) (sides N1)) (seq a n).
Definition U_pts (N1 N2 : nat) := map (fun i => (i, O)) (seq 0 N1) ++ side_pts N1 1 (N2 - 1).
Definition box_pts (N1 N2 : nat) := map (fun i => (i, O)) (seq 0 N1) ++ side_pts N1 1 (N2 - 2)
  ++ map (fun i => (i, N2 - 1)%nat) (seq 0 (box_top N1 N2)).

Lemma L_pts_eq N1 N2 : combine (L_x N1 N2) (L_y N1 N2) = L_pts N1 N2.
Proof.
  unfold L_x, L_y, L_pts. rewrite combine_app by (now rewrite seq_length, repeat_length).
  now rewrite combine_repeat_r, combine_repeat_l by apply seq_length.
Qed.

Lemma tile_map {A B} (g : A -> B) l n : map g (tile l n) = tile (map g l) n.
Proof. unfold tile. induction n as [|n IH]; [reflexivity|]. cbn. now rewrite map_app, IH. Qed.

Lemma sides_length N1 : length (sides N1) = Nat.min N1 2.
Proof. unfold sides. now rewrite map_length, seq_length. Qed.

Lemma side_combine N1 a n k : k = n -> combine (map (fun i => (i * (N1 - 1))%nat) (tile (seq 0 (Nat.min N1 2)) k)) (rep_each (seq a n) (Nat.min N1 2))
  = side_pts N1 a n.
Proof. intros ->. rewrite tile_map. apply combine_tile; [apply sides_length|apply seq_length]. Qed.

Lemma U_pts_eq N1 N2 : combine (U_x N1 N2) (U_y N1 N2) = U_pts N1 N2.
Proof.
  unfold U_x, U_y, U_pts. rewrite combine_app by (now rewrite seq_length, repeat_length).
  rewrite combine_repeat_r by apply seq_length. now rewrite side_combine.
Qed.

Lemma box_pts_eq N1 N2 : combine (box_x N1 N2) (box_y N1 N2) = box_pts N1 N2.
Proof.
  unfold box_x, box_y, box_pts. rewrite combine_app by (now rewrite seq_length, repeat_length).
  rewrite combine_repeat_r by apply seq_length. f_equal.
  rewrite combine_app.
  - rewrite side_combine by lia. rewrite combine_repeat_r by apply seq_length. now replace (N2 - 1 - 1)%nat with (N2 - 2)%nat by lia.
  - rewrite map_length, tile_length, rep_length, !seq_length. replace (Nat.max 0 (N2 - 2)) with (N2 - 1 - 1)%nat by lia. lia.
Qed.

Lemma in_sides N1 i : In i (sides N1) <-> (i < N1)%nat /\ (i = 0 \/ i = N1 - 1)%nat.
Proof.
  unfold sides. rewrite in_map_iff. split.
  - intros (k & <- & H). apply in_seq in H. assert (k = 0 \/ k = 1)%nat as [->| ->] by lia; lia.
  - intros [H [->| ->]].
    + exists O. split; [lia|]. apply in_seq. lia.
    + destruct (Nat.eq_dec N1 1) as [->|N]; [exists O; split; [lia|apply in_seq; lia]|].
      exists 1%nat. split; [lia|]. apply in_seq. lia.
Qed.

Lemma sides_NoDup N1 : NoDup (sides N1).
Proof.
  unfold sides. apply NoDup_map_inj; [|apply seq_NoDup]. intros a b Ha Hb E. apply in_seq in Ha, Hb.
  assert (a = 0 \/ a = 1)%nat as [->| ->] by lia; assert (b = 0 \/ b = 1)%nat as [->| ->] by lia; lia.
Qed.

Lemma in_side_pts N1 a n i j : In (i, j) (side_pts N1 a n) <-> ((i < N1)%nat /\ (i = 0 \/ i = N1 - 1)%nat) /\ (a <= j < a + n)%nat.
Proof. unfold side_pts. rewrite (in_rows (fun _ => sides N1)), in_sides, in_seq. reflexivity. Qed.
Lemma side_pts_NoDup N1 a n : NoDup (side_pts N1 a n).
Proof. apply (NoDup_rows (fun _ => sides N1)); [intros; apply sides_NoDup|apply seq_NoDup]. Qed.
Lemma side_pts_length N1 a n : length (side_pts N1 a n) = (Nat.min N1 2 * n)%nat.
Proof. unfold side_pts. now rewrite flat_rows_length, sides_length, seq_length. Qed.

Lemma in_row n (c i j : nat) : In (i, j) (map (fun i => (i, c)) (seq 0 n)) <-> (i < n)%nat /\ j = c.
Proof.
  rewrite in_map_iff. split.
  - intros (k & E & H). injection E as -> ->. apply in_seq in H. lia.
  - intros [H ->]. exists i. split; [reflexivity|]. apply in_seq. lia.
Qed.
Lemma row_NoDup (c : nat) l : NoDup l -> NoDup (map (fun i : nat => (i, c)) l).
Proof. intros. apply NoDup_map_inj; [|assumption]. intros x y _ _ E. now injection E. Qed.

Lemma L_pts_spec N1 N2 : (1 <= N1)%nat -> (1 <= N2)%nat -> NoDup (L_pts N1 N2)
  /\ (forall i j, In (i, j) (L_pts N1 N2) <-> ((i < N1 /\ j = 0) \/ (i = 0 /\ j < N2))%nat)
  /\ length (L_pts N1 N2) = (N1 + N2 - 1)%nat.
Proof.
  intros H1 H2. unfold L_pts.
  assert (C : forall i j, In (i, j) (map (fun j => (O, j)) (seq 1 (N2 - 1))) <-> (i = 0 /\ 1 <= j < N2)%nat).
  { intros i j. rewrite in_map_iff. split.
    - intros (k & E & H). injection E as <- ->. apply in_seq in H. lia.
    - intros [-> H]. exists j. split; [reflexivity|]. apply in_seq. lia. }
  split; [|split].
  - apply NoDup_app_intro.
    + apply row_NoDup, seq_NoDup.
    + apply NoDup_map_inj; [|apply seq_NoDup]. intros x y _ _ E. now injection E.
    + intros [i j] Ha Hb. apply in_row in Ha. apply C in Hb. lia.
  - intros i j. rewrite in_app_iff, in_row, C. lia.
  - rewrite app_length, !map_length, !seq_length. lia.
Qed.

Lemma U_pts_spec N1 N2 : (1 <= N1)%nat -> (1 <= N2)%nat -> NoDup (U_pts N1 N2)
  /\ (forall i j, In (i, j) (U_pts N1 N2) <-> ((i < N1 /\ j < N2) /\ (j = 0 \/ i = 0 \/ i = N1 - 1))%nat)
  /\ length (U_pts N1 N2) = (N1 + Nat.min N1 2 * (N2 - 1))%nat.
Proof.
  intros H1 H2. unfold U_pts. split; [|split].
  - apply NoDup_app_intro; [apply row_NoDup, seq_NoDup|apply side_pts_NoDup|].
    intros [i j] Ha Hb. apply in_row in Ha. apply in_side_pts in Hb. lia.
  - intros i j. rewrite in_app_iff, in_row, in_side_pts. lia.
  - rewrite app_length, map_length, seq_length, side_pts_length. reflexivity.
Qed.

Lemma box_pts_spec N1 N2 : (1 <= N1)%nat -> (1 <= N2)%nat -> NoDup (box_pts N1 N2)
  /\ (forall i j, In (i, j) (box_pts N1 N2) <-> ((i < N1 /\ j < N2) /\ (j = 0 \/ j = N2 - 1 \/ i = 0 \/ i = N1 - 1))%nat)
  /\ length (box_pts N1 N2) = (N1 + Nat.min N1 2 * (N2 - 2) + (if (1 <? N2) then N1 else 0))%nat.
Proof.
  intros H1 H2. unfold box_pts, box_top. split; [|split].
  - apply NoDup_app_intro; [apply row_NoDup, seq_NoDup| |].
    + apply NoDup_app_intro; [apply side_pts_NoDup|apply row_NoDup, seq_NoDup|].
      intros [i j] Ha Hb. apply in_row in Hb. apply in_side_pts in Ha. lia.
    + intros [i j] Ha Hb. apply in_row in Ha. apply in_app_iff in Hb as [Hb|Hb]; [apply in_side_pts in Hb; lia|].
      apply in_row in Hb. destruct (Nat.ltb_spec 1 N2); lia.
  - intros i j. rewrite !in_app_iff, !in_row, in_side_pts. destruct (Nat.ltb_spec 1 N2); lia.
  - rewrite !app_length, !map_length, !seq_length, side_pts_length. lia.
Qed.

(** * Fields from lattice points *)
Lemma pts_field B1 B2 xs ys pts H D r tilt o : length xs = length ys -> combine xs ys = pts ->
  exists f, build (scale B1 xs) (scale B2 ys) H D r tilt o = Some f /\ field_ok f
    /\ to_boreholes f = map (fun p => new_bore H D r tilt o (lattice B1 B2 (fst p) (snd p))) pts.
Proof.
  intros E <-. destruct (build_eq (scale B1 xs) (scale B2 ys) H D r tilt o) as (f & A & B & C).
  { unfold scale. now rewrite !map_length. }
  exists f. split; [exact A|]. split; [exact B|]. rewrite C, combine_scale, map_map. reflexivity.
Qed.

Lemma built_intro emb P n H D r tilt o res f pts : res = Some f -> field_ok f ->
  to_boreholes f = map (fun p => new_bore H D r tilt o (emb (fst p) (snd p))) pts ->
  NoDup pts -> (forall i j, In (i, j) pts <-> P i j) -> length pts = n -> built emb P n H D r tilt o res.
Proof.
  intros E Hf T ND HP L. exists f. split; [exact E|]. split; [exact Hf|]. rewrite T. split; [now rewrite map_length|]. split.
  - exists pts. split; [|now split]. rewrite map_map. apply map_ext. intros p. apply new_bore_spec.
  - intros b Hb. apply in_map_iff in Hb as (p & <- & _). apply new_bore_spec.
Qed.

Lemma L_len N1 N2 : length (L_x N1 N2) = length (L_y N1 N2).
Proof. unfold L_x, L_y. rewrite !app_length, !seq_length, !repeat_length. reflexivity. Qed.
Lemma U_len N1 N2 : length (U_x N1 N2) = length (U_y N1 N2).
Proof. unfold U_x, U_y. rewrite !app_length, map_length, tile_length, rep_length, !seq_length, repeat_length. reflexivity. Qed.
Lemma box_len N1 N2 : length (box_x N1 N2) = length (box_y N1 N2).
Proof.
  unfold box_x, box_y. rewrite !app_length, map_length, tile_length, rep_length, !seq_length, !repeat_length.
  replace (Nat.max 0 (N2 - 2)) with (N2 - 1 - 1)%nat by lia. reflexivity.
Qed.
Lemma rect_len N1 N2 : length (rect_x N1 N2) = length (rect_y N1 N2).
Proof. unfold rect_x, rect_y. now rewrite tile_length, rep_length, !seq_length. Qed.

Lemma rectangle_built N1 N2 B1 B2 H D r tilt o :
  built (lattice B1 B2) (fun i j => i < N1 /\ j < N2)%nat (N1 * N2) H D r tilt (center N1 N2 B1 B2 o) (rectangle_field N1 N2 B1 B2 H D r tilt o).
Proof.
  destruct (pts_field B1 B2 _ _ _ H D r tilt (center N1 N2 B1 B2 o) (rect_len N1 N2) (rect_pts N1 N2)) as (f & A & B & C).
  destruct (grid_spec N1 N2) as (G1 & G2 & G3). eapply built_intro; eassumption.
Qed.

Lemma rectangle_order N1 N2 B1 B2 H D r tilt o f i j : rectangle_field N1 N2 B1 B2 H D r tilt o = Some f ->
  (i < N1)%nat -> (j < N2)%nat -> position (nth (j * N1 + i) (to_boreholes f) b0) = lattice B1 B2 i j.
Proof.
  intros E Hi Hj. destruct (pts_field B1 B2 _ _ _ H D r tilt (center N1 N2 B1 B2 o) (rect_len N1 N2) (rect_pts N1 N2)) as (g & A & _ & C).
  unfold rectangle_field in E. rewrite A in E. injection E as <-. rewrite C.
  destruct (grid_spec N1 N2) as (_ & _ & G3).
  rewrite (nth_map _ (grid N1 N2) _ (0, 0)%nat b0) by (rewrite G3; nia). rewrite grid_nth by assumption. apply new_bore_spec.
Qed.

Lemma L_built N1 N2 B1 B2 H D r tilt o : (1 <= N1)%nat -> (1 <= N2)%nat ->
  built (lattice B1 B2) (fun i j => (i < N1 /\ j = 0) \/ (i = 0 /\ j < N2))%nat (N1 + N2 - 1) H D r tilt (center N1 N2 B1 B2 o)
    (L_field N1 N2 B1 B2 H D r tilt o).
Proof.
  intros H1 H2. unfold L_field. destruct (Nat.eqb_spec N2 0); [lia|].
  destruct (pts_field B1 B2 _ _ _ H D r tilt (center N1 N2 B1 B2 o) (L_len N1 N2) (L_pts_eq N1 N2)) as (f & A & B & C).
  destruct (L_pts_spec N1 N2 H1 H2) as (G1 & G2 & G3). eapply built_intro; eassumption.
Qed.

Lemma U_built N1 N2 B1 B2 H D r tilt o : (1 <= N1)%nat -> (1 <= N2)%nat ->
  built (lattice B1 B2) (fun i j => (i < N1 /\ j < N2) /\ (j = 0 \/ i = 0 \/ i = N1 - 1))%nat (N1 + Nat.min N1 2 * (N2 - 1)) H D r tilt
    (center N1 N2 B1 B2 o) (U_field N1 N2 B1 B2 H D r tilt o).
Proof.
  intros H1 H2. unfold U_field. destruct (Nat.eqb_spec N2 0); [lia|].
  destruct (pts_field B1 B2 _ _ _ H D r tilt (center N1 N2 B1 B2 o) (U_len N1 N2) (U_pts_eq N1 N2)) as (f & A & B & C).
  destruct (U_pts_spec N1 N2 H1 H2) as (G1 & G2 & G3). eapply built_intro; eassumption.
Qed.

Lemma box_built N1 N2 B1 B2 H D r tilt o : (1 <= N1)%nat -> (1 <= N2)%nat ->
  built (lattice B1 B2) (fun i j => (i < N1 /\ j < N2) /\ (j = 0 \/ j = N2 - 1 \/ i = 0 \/ i = N1 - 1))%nat
    (N1 + Nat.min N1 2 * (N2 - 2) + (if (1 <? N2) then N1 else 0))%nat H D r tilt
    (center N1 N2 B1 B2 o) (box_field N1 N2 B1 B2 H D r tilt o).
Proof.
  intros H1 H2.
  destruct (pts_field B1 B2 _ _ _ H D r tilt (center N1 N2 B1 B2 o) (box_len N1 N2) (box_pts_eq N1 N2)) as (f & A & B & C).
  destruct (box_pts_spec N1 N2 H1 H2) as (G1 & G2 & G3). eapply built_intro; eassumption.
Qed.

Lemma lattice_spaced B1 B2 P l : 0 < B1 -> 0 < B2 -> layout (lattice B1 B2) P l -> spaced (Rmin B1 B2) l.
Proof. intros H1 H2 HL. eapply layout_spaced; [exact HL|]. intros. now apply lattice_apart. Qed.

(** Leaning boreholes have their toe further out on the same radius. *)
Lemma lean_out H D r tilt o b : as_specified H D r tilt o b ->
  let d := sqrt ((bx b - fst o) ^ 2 + (by_ b - snd o) ^ 2) in
  r <= d -> tilted tilt = true ->
  fst (fst (toe b)) - fst o = (d + H * sin tilt) * cos (bori b)
  /\ snd (fst (toe b)) - snd o = (d + H * sin tilt) * sin (bori b)
  /\ sqrt ((fst (fst (toe b)) - fst o) ^ 2 + (snd (fst (toe b)) - snd o) ^ 2) = Rabs (d + H * sin tilt).
Proof.
  intros (E1 & E2 & E3 & _ & Hf). cbn zeta in *. intros Hd Ht. destruct (Hf Hd) as (Et & _ & Hl). destruct (Hl Ht) as (A & B & _).
  set (d := sqrt _) in *. unfold toe, axis. cbn [fst snd]. rewrite E1, Et.
  assert (X : bx b + H * (sin tilt * cos (bori b)) - fst o = (d + H * sin tilt) * cos (bori b)) by (rewrite Rmult_plus_distr_r, A; ring).
  assert (Y : by_ b + H * (sin tilt * sin (bori b)) - snd o = (d + H * sin tilt) * sin (bori b)) by (rewrite Rmult_plus_distr_r, B; ring).
  rewrite X, Y. split; [reflexivity|]. split; [reflexivity|].
  rewrite <- sqrt_Rsqr_abs. f_equal. pose proof (sin2_cos2 (bori b)) as S. unfold Rsqr in *. set (q := d + H * sin tilt).
  replace ((q * cos (bori b)) ^ 2 + (q * sin (bori b)) ^ 2) with (q * q * (sin (bori b) * sin (bori b) + cos (bori b) * cos (bori b))) by ring.
  rewrite S. ring.
Qed.
