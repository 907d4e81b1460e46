(** One vertical borehole: the energy of any loads grows with time, hence the first value
    of the g-function at a uniform wall temperature does. *)
From Coq Require Import String Reals Lra Lia List.
From Coquelicot Require Import Coquelicot.
From Verif Require Import Base LinAlg FLS_Model FLS_Spec FLS_Proofs FLS_Sol_Proofs.
From Verif Require Import Bore_Model Net_Model Solve_Model Solve_Spec Detailed_Model Detailed_Spec Detailed_Proofs Detailed_Sol_Proofs
  Sim_Model Sim_Spec Eq_Model Eq_Spec GFun_Model GFun_Spec Def_Spec Def_Psd_Proofs Def_Kernel_Proofs Def_Field_Proofs Def_Object_Proofs Refine_Spec Refine_Proofs.
Import ListNotations.
Local Open Scope R_scope.

Lemma lower_pos alpha t : 0 < alpha -> 0 < t -> 0 < FLS_Model.lower alpha t.
Proof. intros. unfold FLS_Model.lower. apply Rdiv_lt_0_compat; [lra|]. apply sqrt_lt_R0. nra. Qed.
Lemma lower_le alpha t1 t2 : 0 < alpha -> 0 < t1 -> t1 <= t2 -> FLS_Model.lower alpha t2 <= FLS_Model.lower alpha t1.
Proof.
  intros. unfold FLS_Model.lower, Rdiv. apply Rmult_le_compat_l; [lra|]. apply Rinv_le_contravar; [apply sqrt_lt_R0; nra|]. apply sqrt_le_1_alt. nra.
Qed.

Section One.
Variables (b : bore) (ns : list nat) (rs : list (list R)) (alpha : R) (uw : list (R * R)).
Hypothesis W : segmented [b] ns rs.
Hypothesis V : vertical_field [b].
Hypothesis G : good_ratios rs.
Hypothesis Ha : 0 < alpha.
Local Notation seg k := (nth k (bore_segments [b] ns rs) no_bore).
Local Notation n := (list_sum ns).
Local Notation A t := (detailed_matrix (line_kernel alpha t uw) [b] ns rs).

Lemma one_spaced : well_spaced [b].
Proof. intros i j k Hi Hj Hk N. cbn [length] in *. lia. Qed.

Lemma one_radius : 0 < br b.
Proof. apply (proj1 V b). now left. Qed.

Lemma one_place k : (k < n)%nat -> br (seg k) = br b /\ bx (seg k) = bx b /\ by_ (seg k) = by_ b.
Proof.
  intros Lk. destruct (own_lt [b] ns rs W k Lk) as [L Ow]. cbn [length] in L. replace (owner ns k) with O in * by lia.
  exact (seg_place [b] ns rs W V O k ltac:(cbn; lia) Ow).
Qed.

Lemma one_integrand i j : (i < n)%nat -> (j < n)%nat -> Rmax (planar (seg j) (seg i)) (br (seg j)) = br b.
Proof.
  intros Li Lj. destruct (one_place i Li) as (_ & X1 & Y1). destruct (one_place j Lj) as (-> & X2 & Y2). unfold planar. rewrite X1, X2, Y1, Y2.
  replace ((bx b - bx b) ^ 2 + (by_ b - by_ b) ^ 2) with 0 by ring. rewrite sqrt_0. apply Rmax_right. left. exact one_radius.
Qed.

Lemma energy_rises (x : nat -> R) t1 t2 : 0 < t1 -> t1 <= t2 ->
  sumn n (fun i => segment_length [b] ns rs i * x i * sumn n (fun j => A t1 i j * x j)) <= sumn n (fun i => segment_length [b] ns rs i * x i * sumn n (fun j => A t2 i j * x j)).
Proof.
  intros P1 L12. set (H := fun k => bH (seg k)). set (D := fun k => bD (seg k)).
  set (f := fun i j s => fls_integrand (br b) (H i) (D i) (H j) (D j) true true s).
  assert (Me : forall t i j, 0 < t -> (i < n)%nat -> (j < n)%nat -> H i * A t i j = 1 / 2 * quad_inf (f i j) (FLS_Model.lower alpha t)).
  { intros t i j Pt Li Lj. rewrite (matrix_response [b] ns rs W V G alpha t uw i j Li Lj). unfold response, fls.
    destruct (seg_ok [b] ns rs W V G i Li) as [Hi _]. rewrite (one_integrand i j Li Lj). fold (H i) (H j) (D i) (D j). fold (H i) in Hi.
    rewrite (quad_ext _ (f i j)); [unfold f; field; lra|]. intros s _. apply integrand_swap. }
  assert (En : forall t, 0 < t -> sumn n (fun i => segment_length [b] ns rs i * x i * sumn n (fun j => A t i j * x j)) = 1 / 2 * form n (fun i j => quad_inf (f i j) (FLS_Model.lower alpha t)) x).
  { intros t Pt. unfold form. rewrite <- sumn_scal. apply sumn_ext; intros i Li. rewrite <- !sumn_scal. apply sumn_ext; intros j Lj.
    change (segment_length [b] ns rs i) with (H i).
    replace (H i * x i * (A t i j * x j)) with (x i * x j * (H i * A t i j)) by ring. rewrite (Me t i j Pt Li Lj). ring. }
  rewrite (En t1 P1), (En t2 ltac:(lra)). set (a1 := FLS_Model.lower alpha t1). set (a2 := FLS_Model.lower alpha t2).
  assert (Pa : 0 < a2) by (apply lower_pos; lra). assert (La : a2 <= a1) by (apply lower_le; lra).
  pose proof one_radius as Pr.
  destruct (conv_form n f x a2) as [C2 E2]; [intros i j _ _; apply integrand_conv; lra|].
  destruct (conv_form n f x a1) as [C1 E1]; [intros i j _ _; apply integrand_conv; lra|].
  rewrite <- E1, <- E2. destruct (quad_chasles _ a2 a1 La C2) as [_ E]. rewrite E.
  assert (0 <= RInt (fun s => form n (fun i j => f i j s) x) a2 a1); [|lra].
  apply RInt_ge_0; [exact La| |].
  - apply (ex_RInt_continuous (V := R_CompleteNormedModule)). intros s. rewrite Rmin_left, Rmax_right by exact La. intros Hs.
    apply (cont_form n f x s). intros i j _ _. apply integrand_cont. lra.
  - intros s Hs. rewrite (form_ext n _ (fun i j => / s * (exp (- br b ^ 2 * s ^ 2) * sw (H i) (D i) (H j) (D j) s))) by (intros i j _ _; unfold f; apply integrand_sw; lra).
    rewrite form_scal. apply Rmult_le_pos; [left; apply Rinv_0_lt_compat; lra|].
    apply (uform_nonneg n (fun _ _ => exp (- br b ^ 2 * s ^ 2)) H D x s); [|lra].
    apply (psd_ext n (fun i j => exp (- br b ^ 2 * s ^ 2) * 1)); [intros; ring|]. apply psd_scal; [left; apply exp_pos|apply psd_ones].
Qed.

Lemma temperature_rises x1 x2 T1 T2 t1 t2 : 0 < t1 -> t1 <= t2 -> (0 < n)%nat ->
  (forall i, (i < n)%nat -> sumn n (fun j => A t1 i j * x1 j) = T1) -> (forall i, (i < n)%nat -> sumn n (fun j => A t2 i j * x2 j) = T2) ->
  sumn n (fun i => segment_length [b] ns rs i * x1 i) = sumn n (segment_length [b] ns rs) ->
  sumn n (fun i => segment_length [b] ns rs i * x2 i) = sumn n (segment_length [b] ns rs) -> T1 <= T2.
Proof.
  intros P1 L12 Pn S1 S2 N1 N2. assert (Es : n_sources [b] ns rs = n) by exact (sources_sum [b] ns rs W).
  pose proof (lengths_pos [b] ns rs W V G ltac:(rewrite Es; exact Pn)) as PL. rewrite Es in PL.
  pose proof (field_definite [b] ns rs W V G one_spaced alpha t1 uw Ha P1) as Df. rewrite Es in Df.
  pose proof (field_reciprocal [b] ns rs W V G one_spaced alpha t1 uw) as Rc. rewrite Es in Rc.
  pose proof (least_energy n _ _ x1 x2 T1 Df Rc S1 ltac:(rewrite N1, N2; reflexivity)) as Le. rewrite N1 in Le.
  pose proof (energy_rises x2 t1 t2 P1 L12) as Ri.
  assert (E2 : sumn n (fun i => segment_length [b] ns rs i * x2 i * sumn n (fun j => A t2 i j * x2 j)) = T2 * sumn n (segment_length [b] ns rs)).
  { rewrite <- N2, Rmult_comm, <- sumn_scal_r. apply sumn_ext. intros i Hi. rewrite (S2 i Hi). reflexivity. }
  rewrite E2 in Ri. apply (Rmult_le_reg_r (sumn n (segment_length [b] ns rs))); [exact PL|lra].
Qed.
End One.

Section Object.
Variables (link : list R -> tree) (uw : list (R * R)) (c : call) (thr : R) (b : bore).
Hypothesis Alpha : 0 < c_alpha c.
Hypothesis Bs : boreholes_of c = [b].
Hypothesis Th : threshold_of c thr.
Hypothesis Tp : 0 < thr.
Hypothesis Me : c_method c = "detailed"%string.
Hypothesis Sg : segmented (boreholes_of c) (segments_of c) (ratios_of c).
Hypothesis Vf : vertical_field (boreholes_of c).
Hypothesis Gr : good_ratios (ratios_of c).
Local Notation U l := (with_time (with_bc c (Some "UBWT"%string)) (VArr l)).
Hypothesis Co : construct (U []) <> None.

Lemma value_rises t1 t2 v1 v2 : thr <= t1 -> t1 <= t2 -> gfunction link uw (U [t1]) = Some (G1 [v1]) -> gfunction link uw (U [t2]) = Some (G1 [v2]) -> v1 <= v2.
Proof.
  intros L1 L12 E1 E2. assert (P1 : 0 < t1) by lra.
  destruct (ubwt_one link uw c thr Th Tp Me Co t1 v1 L1 E1) as [Q1 S1]. destruct (ubwt_one link uw c thr Th Tp Me Co t2 v2 ltac:(lra) E2) as [Q2 S2].
  pose proof (sources_pos c Sg Co) as Pn. 
  destruct (ubwt_loads _ _ _ t1 Q1 [v1] Pn P1 S1) as (x1 & X1 & X2). destruct (ubwt_loads _ _ _ t2 Q2 [v2] Pn ltac:(lra) S2) as (x2 & Y1 & Y2).
  rewrite (sources_sum _ _ _ Sg) in Pn, X1, X2, Y1, Y2. unfold fresp in X1, Y1. cbn [nth] in *.
  rewrite Bs in X1, X2, Y1, Y2. pose proof Sg as Sg'. pose proof Vf as Vf'. rewrite Bs in Sg', Vf'.
  exact (temperature_rises b _ _ (c_alpha c) uw Sg' Vf' Gr Alpha x1 x2 v1 v2 t1 t2 P1 L12 Pn X1 Y1 X2 Y2).
Qed.

Lemma start_rises l1 l2 g1 g2 : 0 < nth 0 l1 0 -> nth 0 l1 0 <= nth 0 l2 0 -> gfunction link uw (U l1) = Some (G1 g1) -> gfunction link uw (U l2) = Some (G1 g2) ->
  0 < nth 0 g1 0 -> nth 0 g1 0 <= nth 0 g2 0.
Proof.
  intros P1 L12 E1 E2 Pg.
  destruct (first_alone thr Tp link uw c l1 g1) as (v1 & V1 & W1); auto; [intros ->; cbn in P1; lra|].
  destruct (first_alone thr Tp link uw c l2 g2) as (v2 & V2 & W2); auto; [lra|intros ->; cbn in L12; lra|].
  set (t1 := nth 0 l1 0) in *. set (t2 := nth 0 l2 0) in *.
  assert (Lm : Rmax t1 thr <= Rmax t2 thr) by (apply Rle_max_compat_r; exact L12).
  pose proof (value_rises _ _ v1 v2 (Rmax_r _ _) Lm V1 V2) as Lv.
  assert (M1 : 0 < Rmin t1 thr) by (apply Rmin_glb_lt; lra). assert (M12 : Rmin t1 thr <= Rmin t2 thr) by (apply Rle_min_compat_r; exact L12).
  assert (I : 0 < / thr) by (apply Rinv_0_lt_compat; exact Tp).
  rewrite W1, W2. unfold Rdiv. rewrite W1 in Pg. unfold Rdiv in Pg.
  assert (F : 0 < Rmin t1 thr * / thr) by nra. assert (Pv : 0 < v1) by nra.
  apply Rmult_le_compat; [lra|lra|exact Lv|]. apply Rmult_le_compat_r; lra.
Qed.
End Object.
