(** Cutting the segments of a field into shorter ones: the loads at a uniform temperature of
    the longer segments are loads of the shorter ones with the same mean temperature. *)
From Coq Require Import String Reals Lra Lia List.
From Verif Require Import Base LinAlg FLS_Model FLS_Spec FLS_Sol_Proofs.
From Verif Require Import Bore_Model Net_Model Solve_Model Solve_Spec Solve_Loop_Proofs Solve_Eq_Proofs Solve_Sol_Proofs Solve_Extra_Proofs
  Detailed_Model Detailed_Spec Detailed_Proofs Detailed_Sol_Proofs
  Sim_Model Sim_Spec Eq_Model Eq_Spec GFun_Model GFun_Spec GFun_Causal_Proofs GFun_Eval_Proofs GFun_Methods_Proofs GFun_Field_Proofs GFun_Uniform_Proofs GFun_Start_Proofs Def_Spec Def_Field_Proofs Def_Object_Proofs Refine_Spec.
Import ListNotations.
Local Open Scope R_scope.

(** the loads of one step at a uniform temperature *)
Lemma ubwt_loads n (H : vec) resp t Q g : (0 < n)%nat -> 0 < t -> solve_ubwt n H (Solve_Spec.on_grid resp) [t] 0 = Some (Q, g) ->
  exists x : nat -> R, (forall i, (i < n)%nat -> sumn n (fun j => resp i j t * x j) = nth 0 g 0) /\ sumn n (fun i => H i * x i) = sumn n H.
Proof.
  intros Hn Ht E. assert (G : grid [t]) by (split; [discriminate|]; intros [|k] Hk; unfold at_time; cbn in *; [lra|lia]).
  set (x := nth 0 Q zero_vec). exists x. split.
  - intros i Hi. pose proof (ubwt_superposed n H resp [t] Q g 0 i Hn G E ltac:(cbn; lia) Hi) as S.
    rewrite (superposed_constant n resp [t] Q 0 i _ x G (proj1 (ubwt_lengths _ _ _ _ _ _ _ E)) ltac:(cbn; lia)) with (2 := S).
    + apply sumn_ext. intros j Hj. unfold at_time. cbn [nth]. ring.
    + intros k j Hk Hj. replace k with O by lia. reflexivity.
  - exact (ubwt_normal _ _ _ _ _ _ _ 0 E ltac:(cbn; lia)).
Qed.

(** loads of a uniform temperature have the least energy among those of the same total *)
Lemma least_energy n (H : nat -> R) A (x y : nat -> R) T : definite n H A ->
  (forall i j, (i < n)%nat -> (j < n)%nat -> H i * A i j = H j * A j i) ->
  (forall i, (i < n)%nat -> sumn n (fun j => A i j * x j) = T) -> sumn n (fun i => H i * x i) = sumn n (fun i => H i * y i) ->
  T * sumn n (fun i => H i * x i) <= sumn n (fun i => H i * y i * sumn n (fun j => A i j * y j)).
Proof.
  intros D Sy W N. set (q := fun a b : nat -> R => sumn n (fun i => H i * a i * sumn n (fun j => A i j * b j))).
  set (e := fun i => y i - x i).
  assert (S0 : sumn n (fun i => H i * e i) = 0).
  { unfold e. rewrite (sumn_ext n _ (fun i => H i * y i - H i * x i)) by (intros; ring). rewrite sumn_minus, N. ring. }
  assert (S1 : forall a, q a x = T * sumn n (fun i => H i * a i)).
  { intros a. unfold q. rewrite (sumn_ext n _ (fun i => (H i * a i) * T)) by (intros i Hi; rewrite W by auto; ring). rewrite sumn_scal_r. ring. }
  assert (S3 : q x e = q e x).
  { unfold q. rewrite (sumn_ext n _ (fun i => sumn n (fun j => H i * x i * (A i j * e j)))) by (intros; rewrite sumn_scal; auto).
    rewrite sumn_swap. apply sumn_ext. intros j Hj. rewrite <- sumn_scal. apply sumn_ext. intros i Hi. pose proof (Sy i j Hi Hj) as K.
    transitivity (x i * e j * (H i * A i j)); [ring|]. rewrite K. ring. }
  assert (S4 : 0 <= q e e).
  { destruct (List.Exists_dec (fun i => e i <> 0) (seq 0 n)) as [X|X].
    - intros i. destruct (Req_EM_T (e i) 0); [right|left]; auto.
    - left. apply D. apply List.Exists_exists in X. destruct X as [i [Hi Ei]]. apply in_seq in Hi. exists i. split; auto. lia.
    - right. symmetry. apply sumn_zero. intros i Hi. assert (e i = 0) as ->; [|ring].
      destruct (Req_dec (e i) 0); auto. exfalso. apply X. apply List.Exists_exists. exists i. split; auto. apply in_seq. lia. }
  assert (S5 : q y y = q x x + q x e + q e x + q e e).
  { unfold q. rewrite <- !sumn_plus. apply sumn_ext. intros i Hi.
    rewrite (sumn_ext n (fun j => A i j * e j) (fun j => A i j * y j - A i j * x j)) by (intros; unfold e; ring).
    rewrite sumn_minus. unfold e. ring. }
  change (T * sumn n (fun i => H i * x i) <= q y y). rewrite <- (S1 x). rewrite S5, S3, (S1 e), S0. lra.
Qed.

(** ** sums over groups *)
Lemma owner_shift a l k : owner (a :: l) (a + k) = S (owner l k).
Proof. cbn [owner]. destruct (Nat.ltb_spec (a + k) a); [lia|]. f_equal. f_equal. lia. Qed.
Lemma owner_low a l k : (k < a)%nat -> owner (a :: l) k = O.
Proof. intros L. cbn [owner]. destruct (Nat.ltb_spec k a); [auto|lia]. Qed.

Lemma sumn_groups {A} (d : A) (Gs : list (list A)) : forall phi : nat -> A -> R,
  sumn (length (concat Gs)) (fun k => phi (owner (map (@length A) Gs) k) (nth k (concat Gs) d))
  = sumn (length Gs) (fun b => Rsum (map (phi b) (nth b Gs []))).
Proof.
  induction Gs as [|G Gs IH]; intros phi; [reflexivity|].
  cbn [concat map length]. rewrite app_length, sumn_split, sumn_S_l. f_equal.
  - transitivity (sumn (length G) (fun i => phi O (nth i G d))); [|exact (sumn_list d (phi O) G)]. apply sumn_ext. intros i Hi. rewrite owner_low by auto. rewrite app_nth1 by auto. reflexivity.
  - rewrite (sumn_ext _ _ (fun k => phi (S (owner (map (@length A) Gs) k)) (nth k (concat Gs) d))).
    + rewrite (IH (fun b => phi (S b))). reflexivity.
    + intros k Hk. rewrite owner_shift. rewrite app_nth2 by lia. do 2 f_equal. lia.
Qed.

(** ** the parts of a segment *)
Section Parts.
Variables (alpha t : R).
Hypothesis Ha : 0 < alpha.
Hypothesis Ht : 0 < t.

(* G are the parts of the segment s *)
Definition parts_of (s : bore) (G : list bore) : Prop :=
  (forall r, Rsum (map (fun e => response alpha t e r) G) = response alpha t s r) /\
  (forall e, 0 < br e -> Rsum (map (fun r => bH r * response alpha t e r) G) = bH s * response alpha t e s) /\
  Rsum (map bH G) = bH s.
Definition like (b : bore) (s : bore) (c : R * R) : Prop :=
  bD s = fst c /\ bH s = snd c /\ br s = br b /\ bx s = bx b /\ by_ s = by_ b /\ btilt s = 0.

Lemma split_sum D hs : Rsum (map snd (split_at D hs)) = Rsum hs.
Proof. revert D. induction hs as [|h hs IH]; intros D; [reflexivity|]. cbn [split_at map]. unfold Rsum in *. cbn [fold_right snd]. now rewrite IH. Qed.
Lemma split_app D l1 l2 : split_at D (l1 ++ l2) = split_at D l1 ++ split_at (D + Rsum l1) l2.
Proof.
  revert D. induction l1 as [|h l IH]; intros D.
  - cbn. now rewrite Rplus_0_r.
  - cbn [app split_at]. rewrite IH. cbn [app]. do 3 f_equal. unfold Rsum. cbn [fold_right]. ring.
Qed.

Lemma parts_ok b s G D hs : like b s (D, Rsum hs) -> 0 < br b -> 0 < Rsum hs -> (forall h, In h hs -> 0 < h) ->
  Forall2 (like b) G (split_at D hs) -> parts_of s G.
Proof.
  intros (E1 & E2 & E3 & E4 & E5 & E6) Pb Ps Ph F. cbn [fst snd] in *. split; [|split].
  - intros r. rewrite (Forall2_sum _ _ _ _ (fun c => fls t alpha (Rmax (planar b r) (br b)) (snd c) (fst c) (bH r) (bD r) true true) F).
    + rewrite <- split_emitter by (auto; apply distance_pos; auto). unfold response. rewrite E1, E2.
      f_equal. symmetry. apply place_distance; repeat split; auto.
    + intros u c (U1 & U2 & U3 & U4 & U5 & U6). unfold response. rewrite U1, U2. f_equal. apply place_distance; repeat split; auto.
  - intros e Pe. rewrite (Forall2_sum _ _ _ _ (fun c => snd c * fls t alpha (Rmax (planar e b) (br e)) (bH e) (bD e) (snd c) (fst c) true true) F).
    + rewrite <- split_receiver; auto; [|apply distance_pos; auto|lra|intros h Hh; specialize (Ph h Hh); lra].
      rewrite <- E2. f_equal. unfold response. rewrite E1, E2. f_equal. apply place_distance; repeat split; auto.
    + intros u c (U1 & U2 & U3 & U4 & U5 & U6). unfold response. rewrite U1, U2. do 2 f_equal. apply place_distance; repeat split; auto.
  - rewrite (Forall2_sum _ _ _ bH snd F); [rewrite split_sum; auto|]. intros u c U. apply U.
Qed.

(* the segments of one borehole *)
Lemma bore_parts b H : 0 < br b -> 0 < H -> forall r parts, Forall2 (fun x p => Rsum p = x) r parts -> (forall x, In x r -> 0 < x) ->
  (forall x, In x (concat parts) -> 0 < x) -> forall D C F, Forall2 (like b) C (split_at D (map (fun x => x * H) r)) ->
  Forall2 (like b) F (split_at D (map (fun x => x * H) (concat parts))) ->
  exists Gs, F = concat Gs /\ Forall2 parts_of C Gs.
Proof.
  intros Pb PH. induction 1 as [|x p r ps Ep F2 IH]; intros Pr Pp D C F FC FF.
  - cbn in FC, FF. inversion FC. inversion FF. exists []. split; [reflexivity|constructor].
  - cbn [map split_at] in FC. inversion FC as [|s c C' l Ls FC' E1 E2]. subst. clear FC.
    cbn [concat] in FF, Pp. rewrite map_app, split_app in FF. apply Forall2_app_inv_r in FF. destruct FF as (F1 & F2' & K1 & K2 & ->).
    rewrite Rsum_scaled in K2.
    assert (X0 : 0 < Rsum p) by (apply Pr; left; reflexivity).
    destruct (IH ltac:(intros y Hy; apply Pr; right; auto) ltac:(intros y Hy; apply Pp, in_or_app; auto) (D + Rsum p * H) C' F2' FC' K2) as (Gs & -> & K).
    exists (F1 :: Gs). split; [reflexivity|]. constructor; auto.
    apply (parts_ok b s F1 D (map (fun y => y * H) p)); auto.
    + rewrite Rsum_scaled. exact Ls.
    + rewrite Rsum_scaled. nra.
    + intros h Hh. apply in_map_iff in Hh. destruct Hh as (y & <- & Hy). assert (0 < y) by (apply Pp, in_or_app; auto). nra.
Qed.

(* the segments of the field *)
Lemma field_parts bs : (forall b, In b bs -> btilt b = 0 /\ 0 < bH b /\ 0 <= bD b /\ 0 < br b) -> forall ns ns' rs rs', length ns = length bs -> length ns' = length bs ->
  length rs = length bs -> Forall2 refines rs rs' -> good_ratios rs -> good_ratios rs' ->
  exists Gs, borehole_segments bs ns' rs' = concat Gs /\ Forall2 parts_of (borehole_segments bs ns rs) Gs.
Proof.
  induction bs as [|b bs IH]; intros V ns ns' rs rs' L1 L2 L3 Rf G G'.
  - exists []. split; [reflexivity|constructor].
  - destruct ns as [|n ns]; [discriminate|]. destruct ns' as [|n' ns']; [discriminate|].
    inversion Rf as [|r r' rs1 rs1' (parts & -> & F) Rf' E1 E2]; subst; [discriminate|].
    destruct (V b (or_introl eq_refl)) as (T0 & H0 & D0 & R0).
    destruct (IH ltac:(intros c Hc; apply V; right; auto) ns ns' rs1 rs1' ltac:(cbn in L1; lia) ltac:(cbn in L2; lia) ltac:(cbn in L3; lia) Rf'
      ltac:(intros x Hx; apply G; right; auto) ltac:(intros x Hx; apply G'; right; auto)) as (Gs & E & K).
    destruct (bore_parts b (bH b) R0 H0 r parts F (proj2 (G r (or_introl eq_refl))) (proj2 (G' _ (or_introl eq_refl))) (bD b)
      (segments b n (Some r)) (segments b n' (Some (concat parts))) (segments_vertical b n r T0) (segments_vertical b n' _ T0)) as (Gs0 & E0 & K0).
    exists (Gs0 ++ Gs). cbn [borehole_segments]. rewrite E, E0, concat_app. split; [reflexivity|]. apply Forall2_app; auto.
Qed.

Lemma Forall2_nth {A B} (P : A -> B -> Prop) l l' d d' i : Forall2 P l l' -> (i < length l)%nat -> P (nth i l d) (nth i l' d').
Proof. intros F. revert i. induction F as [|a b l l' Pab F IH]; intros [|i] L; cbn in *; try lia; auto. apply IH. lia. Qed.
Lemma Forall2_len {A B} (P : A -> B -> Prop) l l' : Forall2 P l l' -> length l = length l'.
Proof. induction 1; cbn; auto. Qed.

Lemma Rsum_map_scal_r {A} (f : A -> R) c l : Rsum (map (fun x => f x * c) l) = Rsum (map f l) * c.
Proof. induction l as [|a l IH]; unfold Rsum in *; cbn [map fold_right]; [ring|]. rewrite IH. ring. Qed.

(* lifted loads: same total and same energy *)
Lemma lifted C Gs (q : nat -> R) : Forall2 parts_of C Gs -> (forall s, In s C -> 0 < br s) ->
  let F := concat Gs in let own := owner (map (@length bore) Gs) in
  sumn (length F) (fun k => bH (nth k F no_bore) * q (own k)) = sumn (length C) (fun i => bH (nth i C no_bore) * q i) /\
  sumn (length F) (fun k => bH (nth k F no_bore) * q (own k) * sumn (length F) (fun l => response alpha t (nth l F no_bore) (nth k F no_bore) * q (own l)))
  = sumn (length C) (fun i => bH (nth i C no_bore) * q i * sumn (length C) (fun j => response alpha t (nth j C no_bore) (nth i C no_bore) * q j)).
Proof.
  intros P Pb F own. pose proof (Forall2_len _ _ _ P) as L. split.
  - unfold F, own. rewrite (sumn_groups no_bore Gs (fun b s => bH s * q b)). rewrite <- L. apply sumn_ext. intros i Hi.
    rewrite Rsum_map_scal_r. destruct (Forall2_nth _ _ _ no_bore [] i P Hi) as (_ & _ & E). rewrite E. reflexivity.
  - unfold F, own.
    rewrite (sumn_ext _ _ (fun k => (fun b s => bH s * q b * sumn (length C) (fun j => response alpha t (nth j C no_bore) s * q j)) (owner (map (@length bore) Gs) k) (nth k (concat Gs) no_bore))).
    2: { intros k Hk. cbv beta. f_equal. rewrite (sumn_groups no_bore Gs (fun b s => response alpha t s (nth k (concat Gs) no_bore) * q b)). rewrite <- L. apply sumn_ext. intros j Hj.
      rewrite Rsum_map_scal_r. destruct (Forall2_nth _ _ _ no_bore [] j P Hj) as (E & _). rewrite E. reflexivity. }
    rewrite (sumn_groups no_bore Gs (fun b s => bH s * q b * sumn (length C) (fun j => response alpha t (nth j C no_bore) s * q j))). rewrite <- L. apply sumn_ext. intros i Hi.
    destruct (Forall2_nth _ _ _ no_bore [] i P Hi) as (_ & E & _).
    rewrite (Rsum_ext_in _ (fun s => sumn (length C) (fun j => q i * q j * (bH s * response alpha t (nth j C no_bore) s)))).
    2: { intros s Hs. rewrite <- sumn_scal. apply sumn_ext. intros. ring. }
    rewrite <- sumn_scal.
    assert (Sw : forall m (f : nat -> bore -> R) l, Rsum (map (fun s => sumn m (fun j => f j s)) l) = sumn m (fun j => Rsum (map (f j) l))).
    { intros m f l. induction l as [|a l IHl]; [unfold Rsum; cbn; rewrite sumn_zero; auto|]. unfold Rsum in *. cbn [map fold_right]. rewrite IHl, <- sumn_plus. reflexivity. }
    rewrite Sw. apply sumn_ext. intros j Hj. rewrite Rsum_map_scal, E.
    + ring.
    + apply Pb, nth_In; auto.
Qed.
End Parts.

Section Field.
Variables (bs : list bore) (ns ns' : list nat) (rs rs' : list (list R)) (alpha t : R) (uw : list (R * R)).
Hypothesis W : segmented bs ns rs.
Hypothesis W' : segmented bs ns' rs'.
Hypothesis V : vertical_field bs.
Hypothesis G : good_ratios rs.
Hypothesis G' : good_ratios rs'.
Hypothesis Sp : well_spaced bs.
Hypothesis Rf : Forall2 refines rs rs'.
Hypothesis Ha : 0 < alpha.
Hypothesis Ht : 0 < t.
Local Notation A n r := (fun i j => detailed_matrix (line_kernel alpha t uw) bs n r i j).

Lemma sources_sum n r : segmented bs n r -> n_sources bs n r = list_sum n.
Proof. intros S. unfold n_sources, bore_segments. now destruct (segments_all _ _ _ S). Qed.

Lemma refined_energy x x' T T' : (0 < n_sources bs ns rs)%nat ->
  (forall i, (i < n_sources bs ns rs)%nat -> sumn (n_sources bs ns rs) (fun j => A ns rs i j * x j) = T) ->
  (forall i, (i < n_sources bs ns' rs')%nat -> sumn (n_sources bs ns' rs') (fun j => A ns' rs' i j * x' j) = T') ->
  sumn (n_sources bs ns rs) (fun i => segment_length bs ns rs i * x i) = sumn (n_sources bs ns rs) (segment_length bs ns rs) ->
  sumn (n_sources bs ns' rs') (fun i => segment_length bs ns' rs' i * x' i) = sumn (n_sources bs ns' rs') (segment_length bs ns' rs') ->
  T' <= T.
Proof.
  intros Pn Sx Sx' Nx Nx'.
  destruct (field_parts alpha t Ha Ht bs (proj1 V) ns ns' rs rs' (proj1 W) (proj1 W') (proj1 (proj2 W)) Rf G G') as (Gs & EF & P).
  assert (Pb : forall s, In s (borehole_segments bs ns rs) -> 0 < br s) by (intros s Hs; apply (seg_props bs ns rs V G s Hs)).
  destruct (lifted alpha t _ Gs x P Pb) as [L1 L2]. destruct (lifted alpha t _ Gs (fun _ => 1) P Pb) as [L3 _].
  rewrite <- EF in L1, L2, L3. set (y := fun k => x (owner (map (@length bore) Gs) k)).
  assert (Len : sumn (n_sources bs ns' rs') (segment_length bs ns' rs') = sumn (n_sources bs ns rs) (segment_length bs ns rs)).
  { rewrite (sumn_ext _ _ (fun k => segment_length bs ns' rs' k * 1)) by (intros; ring). rewrite (sumn_ext (n_sources bs ns rs) _ (fun k => segment_length bs ns rs k * 1)) by (intros; ring). exact L3. }
  assert (Ny : sumn (n_sources bs ns' rs') (fun i => segment_length bs ns' rs' i * y i) = sumn (n_sources bs ns' rs') (segment_length bs ns' rs')).
  { rewrite Len, <- Nx. exact L1. }
  assert (PL : 0 < sumn (n_sources bs ns rs) (segment_length bs ns rs)) by (apply (lengths_pos bs ns rs W V G Pn)).
  assert (Nxy : sumn (n_sources bs ns' rs') (fun i => segment_length bs ns' rs' i * x' i) = sumn (n_sources bs ns' rs') (fun i => segment_length bs ns' rs' i * y i)) by (rewrite Nx', Ny; reflexivity).
  pose proof (least_energy _ _ _ x' y T' (field_definite bs ns' rs' W' V G' Sp alpha t uw Ha Ht) (field_reciprocal bs ns' rs' W' V G' Sp alpha t uw) Sx' Nxy) as Le.
  assert (Ey : sumn (n_sources bs ns' rs') (fun i => segment_length bs ns' rs' i * y i * sumn (n_sources bs ns' rs') (fun j => A ns' rs' i j * y j)) = T * sumn (n_sources bs ns rs) (segment_length bs ns rs)).
  { transitivity (sumn (length (borehole_segments bs ns' rs')) (fun k => bH (nth k (borehole_segments bs ns' rs') no_bore) * y k * sumn (length (borehole_segments bs ns' rs')) (fun l => response alpha t (nth l (borehole_segments bs ns' rs') no_bore) (nth k (borehole_segments bs ns' rs') no_bore) * y l))).
    - apply sumn_ext. intros i Hi. f_equal. change (length (borehole_segments bs ns' rs')) with (n_sources bs ns' rs').
      apply sumn_ext. intros j Hj. rewrite (matrix_response bs ns' rs' W' V G') by (rewrite <- (sources_sum _ _ W'); auto). reflexivity.
    - etransitivity; [exact L2|]. rewrite <- Nx, Rmult_comm, <- sumn_scal_r. apply sumn_ext. intros i Hi. change (length (borehole_segments bs ns rs)) with (n_sources bs ns rs) in *.
      rewrite <- (Sx i Hi). change (bH (nth i (borehole_segments bs ns rs) no_bore)) with (segment_length bs ns rs i). f_equal.
      apply sumn_ext. intros j Hj. rewrite (matrix_response bs ns rs W V G) by (rewrite <- (sources_sum _ _ W); auto). reflexivity. }
  rewrite Ey, Nx', Len in Le. apply Rmult_le_reg_r with (sumn (n_sources bs ns rs) (segment_length bs ns rs)); auto.
Qed.
End Field.

Section Object.
Variables (link link' : list R -> tree) (uw uw' : list (R * R)) (c c' : call) (thr : R).
Hypothesis Alpha : 0 < c_alpha c.
Hypothesis Alpha' : c_alpha c' = c_alpha c.
Hypothesis Bs : boreholes_of c' = boreholes_of c.
Hypothesis Th : threshold_of c thr.
Hypothesis Th' : threshold_of c' thr.
Hypothesis Tp : 0 < thr.
Hypothesis Me : c_method c = "detailed"%string.
Hypothesis Me' : c_method c' = "detailed"%string.
Hypothesis Sg : segmented (boreholes_of c) (segments_of c) (ratios_of c).
Hypothesis Sg' : segmented (boreholes_of c) (segments_of c') (ratios_of c').
Hypothesis Vf : vertical_field (boreholes_of c).
Hypothesis Gr : good_ratios (ratios_of c).
Hypothesis Gr' : good_ratios (ratios_of c').
Hypothesis Sp : well_spaced (boreholes_of c).
Hypothesis Rf : Forall2 refines (ratios_of c) (ratios_of c').
Local Notation U c l := (with_time (with_bc c (Some "UBWT"%string)) (VArr l)).
Hypothesis Co : construct (U c []) <> None.
Hypothesis Co' : construct (U c' []) <> None.

Lemma refined_value t v v' : thr <= t -> gfunction link uw (U c [t]) = Some (G1 [v]) -> gfunction link' uw' (U c' [t]) = Some (G1 [v']) -> v' <= v.
Proof.
  intros L E E'. assert (Pt : 0 < t) by lra.
  destruct (ubwt_one link uw c thr Th Tp Me Co t v L E) as [Q Eq].
  pose proof Sg' as Sg2. rewrite <- Bs in Sg2.
  destruct (ubwt_one link' uw' c' thr Th' Tp Me' Co' t v' L E') as [Q' Eq'].
  pose proof (sources_pos c Sg Co) as Pn. pose proof (sources_pos c' Sg2 Co') as Pn'.
  destruct (ubwt_loads _ _ _ t Q [v] Pn Pt Eq) as (x & X1 & X2). destruct (ubwt_loads _ _ _ t Q' [v'] Pn' Pt Eq') as (x' & Y1 & Y2).
  unfold fresp in X1, Y1. rewrite Bs, Alpha' in *. cbn [nth] in *.
  eapply (refined_energy _ _ _ _ _ (c_alpha c) t uw Sg Sg' Vf Gr Gr' Sp Rf Alpha Pt x x' v v'); auto.
  intros i Hi. rewrite <- (Y1 i Hi). apply sumn_ext. intros j Hj. rewrite !(matrix_response _ _ _ Sg' Vf Gr') by (rewrite <- (sources_sum _ _ _ Sg'); auto). reflexivity.
Qed.
(* the first of several values, also before the threshold *)
Lemma first_alone lk u d l g : 0 < nth 0 l 0 -> l <> [] -> threshold_of d thr -> gfunction lk u (U d l) = Some (G1 g) ->
  exists v, gfunction lk u (U d [Rmax (nth 0 l 0) thr]) = Some (G1 [v]) /\ nth 0 g 0 = v * (Rmin (nth 0 l 0) thr / thr).
Proof.
  intros P0 Nl Td E. destruct l as [|t r]; [contradiction|]. cbn [nth] in *.
  assert (E1 : gfunction lk u (U d [t]) = Some (G1 (firstn 1 g))).
  { apply (gfunction_causal lk u (with_bc d (Some "UBWT"%string)) [t] r g); [discriminate|exact E]. }
  assert (Lg : exists v, firstn 1 g = [v] /\ nth 0 g 0 = v).
  { pose proof (gfunction_length lk u (with_bc d (Some "UBWT"%string)) [t] _ E1) as K. destruct g as [|v g']; [cbn in K; lia|]. exists v. auto. }
  destruct Lg as (v & Ev & ->). rewrite Ev in E1. destruct (Rle_dec t thr) as [El|El].
  - destruct (gfunction_start lk u (with_bc d (Some "UBWT"%string)) [t] [v] thr E1 Td Tp El) as (v0 & E0 & K).
    specialize (K O ltac:(cbn; lia) El). cbn [nth] in K. rewrite (Rmax_left t 0) in K by lra. exists v0. rewrite Rmax_right, Rmin_left by lra. split; auto. rewrite K. field. lra.
  - exists v. rewrite Rmax_left, Rmin_right by lra. split; auto. field. lra.
Qed.

Lemma refined_start l l' g g' : 0 < nth 0 l 0 -> nth 0 l' 0 = nth 0 l 0 ->
  gfunction link uw (U c l) = Some (G1 g) -> gfunction link' uw' (U c' l') = Some (G1 g') -> nth 0 g' 0 <= nth 0 g 0.
Proof.
  intros P0 El E E'.
  destruct (first_alone link uw c l g) as (v & V1 & V2); auto; [intros ->; cbn in P0; lra|].
  destruct (first_alone link' uw' c' l' g') as (v' & V1' & V2'); auto; [rewrite El; auto|intros ->; cbn in El; lra|].
  rewrite El in *. rewrite V2, V2'. apply Rmult_le_compat_r.
  - apply Rmult_le_pos; [apply Rmin_glb; lra|left; apply Rinv_0_lt_compat; auto].
  - exact (refined_value _ v v' (Rmax_r _ _) V1 V1').
Qed.
End Object.
