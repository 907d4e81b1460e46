(** Boreholes added to a field: the loads of the field, with none in the boreholes that
    are added, are loads of the larger field. *)
From Coq Require Import String Reals Lra Lia List.
From Verif Require Import Base LinAlg FLS_Model FLS_Spec FLS_Sol_Proofs FLS_Line_Proofs.
From Verif Require Import Bore_Model Net_Model Solve_Model Solve_Spec Solve_Loop_Proofs Solve_Eq_Proofs Solve_Sol_Proofs Solve_Extra_Proofs
  Detailed_Model Detailed_Spec Detailed_Proofs Detailed_Sol_Proofs
  Sim_Model Sim_Spec Eq_Model Eq_Spec GFun_Model GFun_Spec GFun_Causal_Proofs GFun_Eval_Proofs GFun_Methods_Proofs GFun_Field_Proofs GFun_Uniform_Proofs GFun_Start_Proofs Def_Spec Def_Field_Proofs Def_Object_Proofs Refine_Proofs.
Import ListNotations.
Local Open Scope R_scope.

Lemma lengths_total bs ns rs : segmented bs ns rs -> vertical_field bs -> good_ratios rs ->
  sumn (n_sources bs ns rs) (segment_length bs ns rs) = Rsum (map bH bs).
Proof.
  intros W V G. destruct W as [L1 [L2 L3]]. unfold segment_length, n_sources, bore_segments. change (Bore 0 0 0 0 0 0 0) with no_bore. rewrite (sumn_list no_bore bH).
  apply (sum_segments bH bH); auto. intros b n rt Hb Hr. apply sum_length; [apply (proj1 V b Hb)|apply (G rt Hr)].
Qed.

Lemma segments_app xs ms qs : forall bs ns rs, length ns = length bs -> length rs = length bs ->
  borehole_segments (bs ++ xs) (ns ++ ms) (rs ++ qs) = borehole_segments bs ns rs ++ borehole_segments xs ms qs.
Proof.
  induction bs as [|b bs IH]; intros [|n ns] [|r rs] L1 L2; cbn in L1, L2; try lia; [reflexivity|].
  cbn [app borehole_segments]. rewrite IH by lia. apply app_assoc.
Qed.

Lemma vertical_part bs xs : vertical_field (bs ++ xs) -> vertical_field bs.
Proof.
  intros [V1 V2]. split; [intros b Hb; apply V1, in_or_app; auto|]. intros a b La Lb N.
  specialize (V2 a b). rewrite app_length in V2. rewrite !app_nth1 in V2 by auto. apply V2; auto; lia.
Qed.

Section Field.
Variables (bs xs : list bore) (ns ms : list nat) (rs qs : list (list R)) (alpha t : R) (uw : list (R * R)).
Hypothesis W : segmented bs ns rs.
Hypothesis W' : segmented (bs ++ xs) (ns ++ ms) (rs ++ qs).
Hypothesis V' : vertical_field (bs ++ xs).
Hypothesis G' : good_ratios (rs ++ qs).
Hypothesis Sp' : well_spaced (bs ++ xs).
Hypothesis Ha : 0 < alpha.
Hypothesis Ht : 0 < t.
Local Notation n := (n_sources bs ns rs).
Local Notation n' := (n_sources (bs ++ xs) (ns ++ ms) (rs ++ qs)).
Local Notation L := (segment_length bs ns rs).
Local Notation L' := (segment_length (bs ++ xs) (ns ++ ms) (rs ++ qs)).
Local Notation A := (fun i j => detailed_matrix (line_kernel alpha t uw) bs ns rs i j).
Local Notation A' := (fun i j => detailed_matrix (line_kernel alpha t uw) (bs ++ xs) (ns ++ ms) (rs ++ qs) i j).

Lemma part_good : good_ratios rs.
Proof. intros r Hr. apply G', in_or_app. auto. Qed.
Lemma part_sources : exists m, n' = (n + m)%nat.
Proof.
  exists (length (borehole_segments xs ms qs)). unfold n_sources, bore_segments. destruct W as (L1 & L2 & _). rewrite (segments_app _ _ _ _ _ _ L1 L2), app_length. reflexivity.
Qed.
Lemma part_segment k : (k < n)%nat -> nth k (bore_segments (bs ++ xs) (ns ++ ms) (rs ++ qs)) no_bore = nth k (bore_segments bs ns rs) no_bore.
Proof. intros Hk. unfold bore_segments. destruct W as (L1 & L2 & _). rewrite (segments_app _ _ _ _ _ _ L1 L2). apply app_nth1. exact Hk. Qed.
Lemma part_length k : (k < n)%nat -> L' k = L k.
Proof. intros Hk. unfold segment_length. exact (f_equal bH (part_segment k Hk)). Qed.
Lemma part_matrix i j : (i < n)%nat -> (j < n)%nat -> A' i j = A i j.
Proof.
  intros Hi Hj. destruct part_sources as [m Em]. cbv beta.
  rewrite (matrix_response (bs ++ xs) (ns ++ ms) (rs ++ qs) W' V' G') by (rewrite <- (sources_sum _ _ _ W'), Em; lia).
  rewrite (matrix_response bs ns rs W (vertical_part _ _ V') part_good) by (rewrite <- (sources_sum _ _ _ W); auto).
  rewrite !part_segment by auto. reflexivity.
Qed.

Lemma added_energy x x' T T' : (0 < n)%nat ->
  (forall i, (i < n)%nat -> sumn n (fun j => A i j * x j) = T) -> (forall i, (i < n')%nat -> sumn n' (fun j => A' i j * x' j) = T') ->
  sumn n (fun i => L i * x i) = sumn n L -> sumn n' (fun i => L' i * x' i) = sumn n' L' ->
  T' / Rsum (map bH (bs ++ xs)) <= T / Rsum (map bH bs).
Proof.
  intros Pn Sx Sx' Nx Nx'. destruct part_sources as [m Em].
  pose proof (vertical_part _ _ V') as V. pose proof part_good as G.
  pose proof (lengths_total bs ns rs W V G) as Q. pose proof (lengths_total _ _ _ W' V' G') as Q'.
  assert (PL : 0 < sumn n L) by (apply (lengths_pos bs ns rs W V G Pn)).
  assert (PL' : 0 < sumn n' L') by (apply (lengths_pos _ _ _ W' V' G'); rewrite Em; lia).
  rewrite <- Q, <- Q'. set (h := sumn n L) in *. set (h' := sumn n' L') in *.
  set (y := fun k => if Nat.ltb k n then x k * (h' / h) else 0).
  assert (Y1 : forall k, (k < n)%nat -> y k = x k * (h' / h)) by (intros k Hk; unfold y; destruct (Nat.ltb_spec k n); [auto|lia]).
  assert (Y2 : forall k, y (n + k)%nat = 0) by (intros k; unfold y; destruct (Nat.ltb_spec (n + k) n); [lia|auto]).
  assert (Su : forall f : nat -> R, sumn n' (fun k => f k * y k) = sumn n (fun k => f k * x k) * (h' / h)).
  { intros f. rewrite Em, sumn_split. rewrite (sumn_zero m) by (intros k Hk; rewrite Y2; ring).
    rewrite Rplus_0_r, <- sumn_scal_r. apply sumn_ext. intros k Hk. rewrite (Y1 k Hk). ring. }
  assert (Ny : sumn n' (fun i => L' i * y i) = h').
  { rewrite Su. rewrite (sumn_ext n _ (fun i => L i * x i)) by (intros i Hi; rewrite part_length by auto; reflexivity). rewrite Nx. field. lra. }
  assert (Nxy : sumn n' (fun i => L' i * x' i) = sumn n' (fun i => L' i * y i)) by (rewrite Ny; exact Nx').
  pose proof (least_energy n' L' A' x' y T' (field_definite _ _ _ W' V' G' Sp' alpha t uw Ha Ht) (field_reciprocal _ _ _ W' V' G' Sp' alpha t uw) Sx' Nxy) as Le.
  rewrite Nx' in Le.
  assert (Ey : sumn n' (fun i => L' i * y i * sumn n' (fun j => A' i j * y j)) = T * h' * (h' / h)).
  { rewrite (sumn_ext n' _ (fun i => (L' i * sumn n' (fun j => A' i j * y j)) * y i)) by (intros; ring). rewrite Su.
    rewrite (sumn_ext n _ (fun i => (L i * x i) * (T * (h' / h)))).
    - rewrite sumn_scal_r, Nx. fold h. field. lra.
    - intros i Hi. rewrite (Su (fun j => A' i j)). rewrite (sumn_ext n (fun k => A' i k * x k) (fun k => A i k * x k)) by (intros k Hk; rewrite part_matrix by auto; reflexivity).
      rewrite (Sx i Hi), part_length by auto. ring. }
  rewrite Ey in Le. fold h' in Le.
  apply (Rmult_le_reg_r (h' * h')); [nra|]. replace (T' / h' * (h' * h')) with (T' * h') by (field; lra). replace (T / h * (h' * h')) with (T * h' * (h' / h)) by (field; lra). exact Le.
Qed.
End Field.

Section Object.
Variables (link link' : list R -> tree) (uw uw' : list (R * R)) (c c' : call) (thr : R) (xs : list bore) (ms : list nat) (qs : list (list R)).
Hypothesis Alpha : 0 < c_alpha c.
Hypothesis Alpha' : c_alpha c' = c_alpha c.
Hypothesis Bs : boreholes_of c' = boreholes_of c ++ xs.
Hypothesis Ns : segments_of c' = segments_of c ++ ms.
Hypothesis Rs : ratios_of c' = ratios_of c ++ qs.
Hypothesis Th : threshold_of c thr.
Hypothesis Th' : threshold_of c' thr.
Hypothesis Tp : 0 < thr.
Hypothesis Me : c_method c = "detailed"%string.
Hypothesis Me' : c_method c' = "detailed"%string.
Hypothesis Sg : segmented (boreholes_of c) (segments_of c) (ratios_of c).
Hypothesis Sg' : segmented (boreholes_of c') (segments_of c') (ratios_of c').
Hypothesis Vf' : vertical_field (boreholes_of c').
Hypothesis Gr' : good_ratios (ratios_of c').
Hypothesis Sp' : well_spaced (boreholes_of c').
Local Notation U c l := (with_time (with_bc c (Some "UBWT"%string)) (VArr l)).
Hypothesis Co : construct (U c []) <> None.
Hypothesis Co' : construct (U c' []) <> None.

Lemma added_value t v v' : thr <= t -> gfunction link uw (U c [t]) = Some (G1 [v]) -> gfunction link' uw' (U c' [t]) = Some (G1 [v']) ->
  v' / Rsum (map bH (boreholes_of c')) <= v / Rsum (map bH (boreholes_of c)).
Proof.
  intros L E E'. assert (Pt : 0 < t) by lra.
  destruct (ubwt_one link uw c thr Th Tp Me Co t v L E) as [Q Eq].
  destruct (ubwt_one link' uw' c' thr Th' Tp Me' Co' t v' L E') as [Q' Eq'].
  pose proof (sources_pos c Sg Co) as Pn. pose proof (sources_pos c' Sg' Co') as Pn'.
  destruct (ubwt_loads _ _ _ t Q [v] Pn Pt Eq) as (x & X1 & X2). destruct (ubwt_loads _ _ _ t Q' [v'] Pn' Pt Eq') as (x' & Y1 & Y2).
  unfold fresp in X1, Y1. clear Eq Eq' Pn'. pose proof Sg' as Sg2. pose proof Vf' as Vf2. pose proof Gr' as Gr2. pose proof Sp' as Sp2. rewrite Bs, Ns, Rs, Alpha' in *. cbn [nth] in *.
  apply (added_energy _ _ _ _ _ _ (c_alpha c) t uw Sg Sg2 Vf2 Gr2 Sp2 Alpha Pt x x' v v'); auto.
  intros i Hi. rewrite <- (Y1 i Hi). apply sumn_ext. intros j Hj. rewrite !(matrix_response _ _ _ Sg2 Vf2 Gr2) by (rewrite <- (sources_sum _ _ _ Sg2); auto). reflexivity.
Qed.

Lemma added_start l l' g g' : 0 < nth 0 l 0 -> nth 0 l' 0 = nth 0 l 0 ->
  gfunction link uw (U c l) = Some (G1 g) -> gfunction link' uw' (U c' l') = Some (G1 g') ->
  nth 0 g' 0 / Rsum (map bH (boreholes_of c')) <= nth 0 g 0 / Rsum (map bH (boreholes_of c)).
Proof.
  intros P0 El E E'.
  destruct (first_alone thr Tp link uw c l g) as (v & V1 & V2); auto; [intros ->; cbn in P0; lra|].
  destruct (first_alone thr Tp link' uw' c' l' g') as (v' & V1' & V2'); auto; [rewrite El; auto|intros ->; cbn in El; lra|].
  rewrite El in *. rewrite V2, V2'. set (q := Rmin (nth 0 l 0) thr / thr).
  assert (Pq : 0 <= q) by (apply Rmult_le_pos; [apply Rmin_glb; lra|left; apply Rinv_0_lt_compat; auto]).
  pose proof (added_value _ v v' (Rmax_r _ _) V1 V1') as K. unfold Rdiv in *.
  replace (v' * q * / Rsum (map bH (boreholes_of c'))) with (v' * / Rsum (map bH (boreholes_of c')) * q) by ring.
  replace (v * q * / Rsum (map bH (boreholes_of c))) with (v * / Rsum (map bH (boreholes_of c)) * q) by ring.
  apply Rmult_le_compat_r; auto.
Qed.
End Object.

(** ** Uniform heat extraction rates *)
Lemma pair_sums_pos alpha t us vs : 0 < alpha -> 0 < t ->
  (forall b, In b us -> btilt b = 0 /\ 0 < bH b /\ 0 <= bD b /\ 0 < br b) -> (forall b, In b vs -> btilt b = 0 /\ 0 < bH b /\ 0 <= bD b /\ 0 < br b) ->
  us <> [] -> vs <> [] -> 0 < Rsum (map (fun r => bH r * Rsum (map (fun e => response alpha t e r) us)) vs).
Proof.
  intros Ha Ht Pu Pv Nu Nv.
  replace 0 with (Rsum (map (fun _ : bore => 0) vs)) by (clear; induction vs; cbn; auto; rewrite IHvs; ring).
  apply Rsum_lt; auto. intros r Hr. destruct (Pv r Hr) as [V1 [V2 [V3 V4]]]. apply Rmult_lt_0_compat; auto.
  replace 0 with (Rsum (map (fun _ : bore => 0) us)) by (clear; induction us; cbn; auto; rewrite IHus; ring).
  apply Rsum_lt; auto. intros e He. destruct (Pu e He) as [W1 [W2 [W3 W4]]]. unfold response. apply fls_pos; auto. apply distance_pos; auto.
Qed.

Lemma mean_superadditive alpha t us vs : 0 < alpha -> 0 < t -> us <> [] -> vs <> [] ->
  (forall b, In b (us ++ vs) -> btilt b = 0 /\ 0 < bH b /\ 0 <= bD b /\ 0 < br b) ->
  Rsum (map bH us) * field_mean alpha t us + Rsum (map bH vs) * field_mean alpha t vs < Rsum (map bH (us ++ vs)) * field_mean alpha t (us ++ vs).
Proof.
  intros Ha Ht Nu Nv P.
  assert (Pu : forall b, In b us -> btilt b = 0 /\ 0 < bH b /\ 0 <= bD b /\ 0 < br b) by (intros; apply P, in_or_app; auto).
  assert (Pv : forall b, In b vs -> btilt b = 0 /\ 0 < bH b /\ 0 <= bD b /\ 0 < br b) by (intros; apply P, in_or_app; auto).
  pose proof (field_length us Nu ltac:(intros b Hb; apply (Pu b Hb))) as Lu. pose proof (field_length vs Nv ltac:(intros b Hb; apply (Pv b Hb))) as Lv.
  assert (M : forall l, 0 < Rsum (map bH l) -> Rsum (map bH l) * field_mean alpha t l = Rsum (map (fun r => bH r * Rsum (map (fun e => response alpha t e r) l)) l)).
  { intros l Hl. unfold field_mean. field. lra. }
  rewrite !M by (try rewrite map_app, Rsum_app; lra). rewrite map_app, Rsum_app.
  assert (S : forall l, Rsum (map (fun r => bH r * Rsum (map (fun e => response alpha t e r) (us ++ vs))) l)
    = Rsum (map (fun r => bH r * Rsum (map (fun e => response alpha t e r) us)) l) + Rsum (map (fun r => bH r * Rsum (map (fun e => response alpha t e r) vs)) l)).
  { intros l. induction l as [|r l IH]; cbn [map]; [cbn; ring|]. unfold Rsum in *. cbn [fold_right] in *. rewrite IH, map_app. fold (Rsum (map (fun e => response alpha t e r) us ++ map (fun e => response alpha t e r) vs)). rewrite Rsum_app. unfold Rsum. ring. }
  rewrite !S. pose proof (pair_sums_pos alpha t us vs Ha Ht Pu Pv Nu Nv). pose proof (pair_sums_pos alpha t vs us Ha Ht Pv Pu Nv Nu). lra.
Qed.
