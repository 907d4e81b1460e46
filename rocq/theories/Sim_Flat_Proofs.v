(** Two horizontal boreholes of different lengths, of two segments each. *)
From Coq Require Import Reals Lra Lia List Bool Psatz.
From Verif Require Import Base FLS_Model FLS_Spec FLS_Proofs FLS_Incl_Proofs FLS_Exact_Proofs.
From Verif Require Import Bore_Model Solve_Model Detailed_Model Detailed_Spec Detailed_Proofs Sim_Model Sim_Spec Sim_Incl_Proofs Sim_Skew_Proofs.
Local Open Scope R_scope.

Definition flat (H y : R) : bore := Bore H 4 (3 / 40) 0 y (PI / 2) 0.
Definition flat_field : list bore := [flat 100 0; flat 50 10].
Definition flat_ns : list nat := [2; 2]%nat.
Definition flat_rs : list (list R) := [[1 / 2; 1 / 2]; [1 / 2; 1 / 2]].

Lemma flat_tilted : tilted (PI / 2) = true.
Proof. apply Rltb_true. pose proof PI2_3_2. rewrite Rabs_right by lra. lra. Qed.

Definition flat_seg (H y x : R) : bore := Bore (H / 2) 4 (3 / 40) x y (PI / 2) 0.

Lemma flat_segs H y : segments (flat H y) 2 (Some [1 / 2; 1 / 2]) = [flat_seg H y 0; flat_seg H y (H / 2)].
Proof.
  cbn. unfold mk_bore, flat_seg. rewrite flat_tilted, cos_PI2, sin_PI2, cos_0, sin_0. f_equal; [|f_equal]; f_equal; field.
Qed.

Lemma flat_cmp H y a b c d : compare_inclined skew_tol skew_dis (flat_seg H y a, flat_seg H y b) (flat_seg H y c, flat_seg H y d)
  = Rltb (Rabs (Rabs (a - b) - Rabs (c - d)) / (Rabs (Rabs (a - b)) + tiny)) skew_dis
    && Rltb (Rabs (cos_from (a - b) 0 0 - cos_from (c - d) 0 0) / (Rabs (cos_from (a - b) 0 0) + tiny)) skew_tol.
Proof.
  assert (0 < skew_tol) by (unfold skew_tol; lra).
  unfold compare_inclined, cond_H. cbn [fst snd flat_seg bH bD bx by_ btilt bori].
  replace (y - y) with 0 by ring. rewrite !near_true' by auto. rewrite (near_true 4 4), (near_true (Rabs (PI / 2)) (Rabs (PI / 2))) by auto.
  replace (0 ^ 2) with ((0 - 0) ^ 2) by ring. rewrite !line_dist, sin_PI2, !Rmult_1_l. rewrite andb_diag. cbn [andb]. rewrite ?andb_true_r, andb_diag. auto.
Qed.

Lemma from_self : cos_from 0 0 0 = 1.
Proof. unfold cos_from. replace (Reqb 0 0) with true by (symmetry; apply Reqb_true; auto). apply cos_0. Qed.

Lemma from_line x : x <> 0 -> cos_from x 0 0 = x / Rabs x.
Proof.
  intros N. unfold cos_from. replace (Reqb x 0) with false by (symmetry; apply Reqb_false; auto). cbn [andb]. rewrite cos_0, sin_0.
  replace (x ^ 2 + 0 ^ 2) with ((x - 0) ^ 2 + (0 - 0) ^ 2) by ring. rewrite line_dist. f_equal; [ring|f_equal; ring].
Qed.

Lemma flat_unique H y : 1 <= H -> exists U,
  unique_pairs (compare_inclined skew_tol skew_dis) (list_prod [flat_seg H y 0; flat_seg H y (H / 2)] [flat_seg H y 0; flat_seg H y (H / 2)]) []
  = (U, [0; 1; 2; 0]%nat) /\ length U = 3%nat.
Proof.
  intros HH. set (h := H / 2). assert (Hh : 1 / 2 <= h) by (unfold h; lra). pose proof tiny_pos as T. assert (0 < skew_tol /\ 0 < skew_dis) as [T1 T2] by (unfold skew_tol, skew_dis; lra).
  assert (Far : forall a, Rabs a = h -> Rltb (Rabs (Rabs a - Rabs (0 - 0)) / (Rabs (Rabs a) + tiny)) skew_dis = false).
  { intros a Ea. apply Rltb_false. rewrite Ea, (Rminus_eq_0 0), Rabs_R0, Rminus_0_r, Rabs_right by lra. unfold skew_dis.
    apply Rmult_le_reg_r with (h + tiny); [lra|]. unfold Rdiv at 2. rewrite Rmult_assoc, Rinv_l by lra. lra. }
  assert (F1 : compare_inclined skew_tol skew_dis (flat_seg H y 0, flat_seg H y h) (flat_seg H y 0, flat_seg H y 0) = false).
  { rewrite flat_cmp, Far; auto. rewrite Rabs_left1; lra. }
  assert (F2 : compare_inclined skew_tol skew_dis (flat_seg H y h, flat_seg H y 0) (flat_seg H y 0, flat_seg H y 0) = false).
  { rewrite flat_cmp, Far; auto. rewrite Rabs_right; lra. }
  assert (F3 : compare_inclined skew_tol skew_dis (flat_seg H y h, flat_seg H y 0) (flat_seg H y 0, flat_seg H y h) = false).
  { rewrite flat_cmp. apply andb_false_iff. right. apply Rltb_false. rewrite !from_line by lra.
    rewrite (Rabs_right (h - 0)), (Rabs_left1 (0 - h)) by lra. replace ((h - 0) / (h - 0)) with 1 by (field; lra).
    replace ((0 - h) / - (0 - h)) with (- (1)) by (field; lra). rewrite !Rabs_right by lra. unfold skew_tol.
    apply Rmult_le_reg_r with (1 + tiny); [lra|]. unfold Rdiv. rewrite Rmult_assoc, Rinv_l by lra. lra. }
  assert (F4 : compare_inclined skew_tol skew_dis (flat_seg H y h, flat_seg H y h) (flat_seg H y 0, flat_seg H y 0) = true).
  { rewrite flat_cmp. rewrite (Rminus_eq_0 h), (Rminus_eq_0 0). rewrite !near_true; auto. }
  cbn [list_prod map app unique_pairs find_index]. cbn [length]. rewrite F1. cbn [option_map app find_index]. rewrite F2. cbn [option_map]. rewrite F3. cbn [option_map app find_index]. rewrite F4.
  eexists. split; [reflexivity|reflexivity].
Qed.

Lemma flat_self : self_groups skew_tol flat_field flat_ns flat_rs = ([], [[0]; [1]]%nat).
Proof.
  unfold self_groups. cbn [length flat_field Nat.ltb Nat.leb seq fold_left]. unfold self_step. cbn [nth flat_field]. unfold vertical. cbn [btilt flat].
  rewrite flat_tilted. cbn [negb fst snd add_group]. unfold self_similar. cbn [nth flat_field].
  replace (compare_boreholes skew_tol (flat 50 10) (flat 100 0)) with false; [reflexivity|].
  symmetry. unfold compare_boreholes. replace (Rltb (Rabs ((bH (flat 50 10) - bH (flat 100 0)) / bH (flat 50 10))) skew_tol) with false; [reflexivity|].
  symmetry. apply Rltb_false. cbn [flat bH]. unfold skew_tol. replace ((50 - 100) / 50) with (- (1)) by field. rewrite Rabs_left1 by lra. lra.
Qed.

Lemma flat_none kv ki : sim_matrix skew_tol skew_dis flat_field flat_ns flat_rs kv ki = None.
Proof.
  unfold sim_matrix, self_vertical, self_inclined. rewrite flat_self. cbn [fst snd map fold_left].
  destruct (flat_unique 100 0) as [U [EU LU]]; [lra|]. destruct (flat_unique 50 10) as [V [EV LV]]; [lra|].
  unfold inclined_step. cbn [hd]. unfold map_pairs. cbn [nth flat_field flat_ns flat_rs]. rewrite !flat_segs, EU, EV.
  cbn [s_dp s_k s_k0 s_i s_j app]. unfold k_segments. cbn [length repeat concat app map].
  match goal with |- context [gather ?h ?k] => assert (G : gather (map (fun c : R * pair => ki (snd c)) (map (fun p : pair => (0, p)) U ++ map (fun p : pair => (0, p)) V)) [0 + 0; 1 + 0; 2 + 0; 0 + 0; 0 + (0 + 4); 1 + (0 + 4); 2 + (0 + 4); 0 + (0 + 4)]%nat = None) end.
  { unfold gather. rewrite map_length, app_length, !map_length. unfold pair in *. rewrite LU, LV. reflexivity. }
  rewrite G. reflexivity.
Qed.
