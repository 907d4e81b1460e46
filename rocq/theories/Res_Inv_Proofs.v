(* Thermal resistances do not depend on turns, mirror images or the unit of length. *)
From Coq Require Import Reals Lra Lia List Bool FunctionalExtensionality Psatz.
From Verif Require Import Base LinAlg Bore_Model Net_Model Pipe_Model Res_Model Res_Spec Res_Proofs Res_Mult_Proofs.
From Coquelicot Require Import Coquelicot.
Import ListNotations.
Local Open Scope R_scope.

Lemma nth_map0 {A B} (f : A -> B) l i d e : f d = e -> nth i (map f l) e = f (nth i l d).
Proof. intros <-. apply map_nth. Qed.

Lemma sqrt_scale c x : 0 < c -> 0 <= x -> sqrt (c ^ 2 * x) = c * sqrt x.
Proof. intros Hc Hx. rewrite sqrt_mult by (auto; apply pow2_ge_0). rewrite sqrt_pow2 by lra. reflexivity. Qed.

Lemma line_source_like c a b : 0 < c ->
  (forall i, p_x b i ^ 2 + p_y b i ^ 2 = c ^ 2 * (p_x a i ^ 2 + p_y a i ^ 2)) ->
  (forall i j, (p_x b i - p_x b j) ^ 2 + (p_y b i - p_y b j) ^ 2 = c ^ 2 * ((p_x a i - p_x a j) ^ 2 + (p_y a i - p_y a j) ^ 2)) ->
  a_rb b = c * a_rb a -> (forall i, nth i (a_rout b) 0 = c * nth i (a_rout a) 0) ->
  a_ks b = a_ks a -> a_kg b = a_kg a -> a_Rfp b = a_Rfp a ->
  line_source b = line_source a.
Proof.
  intros Hc P D Rb Ro Ks Kg Rf. apply functional_extensionality. intros i. apply functional_extensionality. intros j.
  unfold line_source, ls_sigma. rewrite Ks, Kg, Rf, Rb, Ro, !P, D.
  assert (N : forall x y, 0 <= x ^ 2 + y ^ 2) by (intros x y; pose proof (pow2_ge_0 x); pose proof (pow2_ge_0 y); lra).
  rewrite !sqrt_scale by auto.
  assert (Q : forall x y, c * x / (c * y) = x / y).
  { intros x y. unfold Rdiv. rewrite Rinv_mult. transitivity (c * / c * (x * / y)); [ring|]. rewrite Rinv_r by lra. ring. }
  assert (Q2 : forall x y, (c * x) ^ 2 / (c * y) ^ 2 = x ^ 2 / y ^ 2).
  { intros x y. replace ((c * x) ^ 2) with (c * (c * x ^ 2)) by ring. replace ((c * y) ^ 2) with (c * (c * y ^ 2)) by ring. rewrite !Q. reflexivity. }
  cbv zeta. rewrite !Q, !Q2. reflexivity.
Qed.

Lemma matrix_like a b : line_source b = line_source a -> a_J b = a_J a -> length (a_pos b) = length (a_pos a) ->
  (forall q m, fst (fst (fst (multipole (section_of b) 0 q (a_J a)))) m = fst (fst (fst (multipole (section_of a) 0 q (a_J a)))) m) ->
  thermal_resistances b = thermal_resistances a.
Proof.
  intros L J N M. unfold thermal_resistances, resistance_matrix. rewrite J, N.
  destruct (Nat.eqb (a_J a) 0); [rewrite L; reflexivity|].
  assert (E : (fun i m => fst (fst (fst (multipole (section_of b) 0 (unit_flow m) (a_J a)))) i)
            = (fun i m => fst (fst (fst (multipole (section_of a) 0 (unit_flow m) (a_J a)))) i)).
  { apply functional_extensionality. intros i. apply functional_extensionality. intros m. apply M. }
  rewrite E. reflexivity.
Qed.

Lemma turned_resistances t a : thermal_resistances (turned t a) = thermal_resistances a.
Proof.
  assert (Cs : cos t ^ 2 + sin t ^ 2 = 1) by (pose proof (sin2_cos2 t) as X; unfold Rsqr in X; lra).
  assert (T0 : turn t (0, 0) = (0, 0)) by (unfold turn; cbn; f_equal; ring).
  assert (Px : forall i, (p_x (turned t a) i, p_y (turned t a) i) = turn t (p_x a i, p_y a i)).
  { intros i. unfold p_x, p_y, turned. cbn [a_pos]. rewrite (nth_map0 (turn t) _ i (0, 0) (0, 0) T0). destruct (nth i (a_pos a) (0, 0)); reflexivity. }
  assert (P1 : forall i, p_x (turned t a) i = cos t * p_x a i - sin t * p_y a i) by (intros i; specialize (Px i); injection Px; auto).
  assert (P2 : forall i, p_y (turned t a) i = sin t * p_x a i + cos t * p_y a i) by (intros i; specialize (Px i); injection Px; auto).
  apply matrix_like; [|reflexivity|unfold turned; cbn; apply map_length|].
  - apply (line_source_like 1); try reflexivity; [lra|..].
    + intros i. rewrite P1, P2. replace ((cos t * p_x a i - sin t * p_y a i) ^ 2 + (sin t * p_x a i + cos t * p_y a i) ^ 2)
        with ((cos t ^ 2 + sin t ^ 2) * (p_x a i ^ 2 + p_y a i ^ 2)) by ring. rewrite Cs. ring.
    + intros i j. rewrite !P1, !P2.
      replace ((cos t * p_x a i - sin t * p_y a i - (cos t * p_x a j - sin t * p_y a j)) ^ 2 + (sin t * p_x a i + cos t * p_y a i - (sin t * p_x a j + cos t * p_y a j)) ^ 2)
        with ((cos t ^ 2 + sin t ^ 2) * ((p_x a i - p_x a j) ^ 2 + (p_y a i - p_y a j) ^ 2)) by ring. rewrite Cs. ring.
    + cbn. ring.
    + intros i. cbn. ring.
  - intros q m.
    assert (U : Cmult (cos t, sin t) (Cconj (cos t, sin t)) = RtoC 1) by (apply C_ext; cbn; lra).
    assert (H := multipole_sim (section_of a) 1 (cos t, sin t) ltac:(lra) U 0 q (a_J a)).
    assert (E : section_of (turned t a) = mksection (s_n (section_of a)) (fun i => Cmult (Cmult (RtoC 1) (cos t, sin t)) (s_z (section_of a) i))
      (fun i => 1 * s_r (section_of a) i) (s_Rfp (section_of a)) (1 * s_rb (section_of a)) (s_ks (section_of a)) (s_kg (section_of a))).
    { unfold section_of. cbn [s_n s_z s_r s_Rfp s_rb s_ks s_kg]. f_equal.
      - unfold turned. cbn. apply map_length.
      - apply functional_extensionality. intros i. unfold turned. cbn [a_pos]. rewrite (nth_map0 (turn t) _ i (0, 0) (0, 0) T0).
        apply C_ext; cbn; ring.
      - apply functional_extensionality. intros i. cbn. ring.
      - cbn. ring. }
    rewrite E. destruct (multipole (section_of a) 0 q (a_J a)) as [[[T f] it] e].
    destruct (multipole (mksection _ _ _ _ _ _ _) 0 q (a_J a)) as [[[T' f'] it'] e']. exact (proj1 H m).
Qed.

Lemma scaled_resistances c a : 0 < c -> thermal_resistances (scaled c a) = thermal_resistances a.
Proof.
  intros Hc.
  assert (P1 : forall i, p_x (scaled c a) i = c * p_x a i).
  { intros i. unfold p_x, scaled. cbn [a_pos]. rewrite (nth_map0 (fun p => (c * fst p, c * snd p)) _ i (0, 0)) by (cbn; f_equal; ring). reflexivity. }
  assert (P2 : forall i, p_y (scaled c a) i = c * p_y a i).
  { intros i. unfold p_y, scaled. cbn [a_pos]. rewrite (nth_map0 (fun p => (c * fst p, c * snd p)) _ i (0, 0)) by (cbn; f_equal; ring). reflexivity. }
  assert (P3 : forall i, nth i (a_rout (scaled c a)) 0 = c * nth i (a_rout a) 0).
  { intros i. unfold scaled. cbn [a_rout]. apply nth_map0. ring. }
  apply matrix_like; [|reflexivity|unfold scaled; cbn; apply map_length|].
  - apply (line_source_like c); try reflexivity; auto.
    + intros i. rewrite P1, P2. ring.
    + intros i j. rewrite !P1, !P2. ring.
  - intros q m.
    assert (U : Cmult (RtoC 1) (Cconj (RtoC 1)) = RtoC 1) by (apply C_ext; cbn; ring).
    assert (H := multipole_sim (section_of a) c (RtoC 1) Hc U 0 q (a_J a)).
    assert (E : section_of (scaled c a) = mksection (s_n (section_of a)) (fun i => Cmult (Cmult (RtoC c) (RtoC 1)) (s_z (section_of a) i))
      (fun i => c * s_r (section_of a) i) (s_Rfp (section_of a)) (c * s_rb (section_of a)) (s_ks (section_of a)) (s_kg (section_of a))).
    { unfold section_of. cbn [s_n s_z s_r s_Rfp s_rb s_ks s_kg]. f_equal.
      - unfold scaled. cbn. apply map_length.
      - apply functional_extensionality. intros i. unfold scaled. cbn [a_pos]. rewrite (nth_map0 (fun p => (c * fst p, c * snd p)) _ i (0, 0)) by (cbn; f_equal; ring).
        apply C_ext; cbn; ring.
      - apply functional_extensionality. exact P3. }
    rewrite E. destruct (multipole (section_of a) 0 q (a_J a)) as [[[T f] it] e].
    destruct (multipole (mksection _ _ _ _ _ _ _) 0 q (a_J a)) as [[[T' f'] it'] e']. exact (proj1 H m).
Qed.

Lemma mirrored_resistances a : thermal_resistances (mirrored a) = thermal_resistances a.
Proof.
  assert (P1 : forall i, p_x (mirrored a) i = p_x a i).
  { intros i. unfold p_x, mirrored. cbn [a_pos]. rewrite (nth_map0 (fun p => (fst p, - snd p)) _ i (0, 0)) by (cbn; f_equal; ring). reflexivity. }
  assert (P2 : forall i, p_y (mirrored a) i = - p_y a i).
  { intros i. unfold p_y, mirrored. cbn [a_pos]. rewrite (nth_map0 (fun p => (fst p, - snd p)) _ i (0, 0)) by (cbn; f_equal; ring). reflexivity. }
  apply matrix_like; [|reflexivity|unfold mirrored; cbn; apply map_length|].
  - apply (line_source_like 1); try reflexivity; [lra|..].
    + intros i. rewrite P1, P2. ring.
    + intros i j. rewrite !P1, !P2. ring.
    + cbn. ring.
    + intros i. cbn. ring.
  - intros q m.
    assert (H := multipole_mir (section_of a) 0 q (a_J a)).
    assert (E : section_of (mirrored a) = mksection (s_n (section_of a)) (fun i => Cconj (s_z (section_of a) i))
      (s_r (section_of a)) (s_Rfp (section_of a)) (s_rb (section_of a)) (s_ks (section_of a)) (s_kg (section_of a))).
    { unfold section_of. cbn [s_n s_z s_r s_Rfp s_rb s_ks s_kg]. f_equal.
      - unfold mirrored. cbn. apply map_length.
      - apply functional_extensionality. intros i. unfold mirrored. cbn [a_pos]. rewrite (nth_map0 (fun p => (fst p, - snd p)) _ i (0, 0)) by (cbn; f_equal; ring).
        apply C_ext; cbn; ring. }
    rewrite E. destruct (multipole (section_of a) 0 q (a_J a)) as [[[T f] it] e].
    destruct (multipole (mksection _ _ _ _ _ _ _) 0 q (a_J a)) as [[[T' f'] it'] e']. exact (proj1 H m).
Qed.
