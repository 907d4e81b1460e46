(* Temperature profiles of a U-tube from its edge functions. *)
From Coq Require Import Reals Lra Lia List Bool Psatz.
From Coquelicot Require Import Coquelicot.
From Verif Require Import Base LinAlg Bore_Model Bore_Proofs Net_Model Net_Spec
  Pipe_Model Pipe_Spec Pipe_Alg_Proofs.
Import ListNotations.
Local Open Scope R_scope.

(* Rules of Coquelicot with the operations of R *)
Lemma der_scal (f : R -> R) (x l c : R) : is_derive f x l -> is_derive (fun y => c * f y) x (c * l).
Proof. exact (is_derive_scal f x c l). Qed.
Lemma der_plus (f h : R -> R) (x l k : R) : is_derive f x l -> is_derive h x k ->
  is_derive (fun y => f y + h y) x (l + k).
Proof. exact (is_derive_plus f h x l k). Qed.
Lemma der_minus (f h : R -> R) (x l k : R) : is_derive f x l -> is_derive h x k ->
  is_derive (fun y => f y - h y) x (l - k).
Proof. exact (is_derive_minus f h x l k). Qed.
Lemma der_eq (f h : R -> R) (x l k : R) : is_derive f x l -> (forall y, f y = h y) -> l = k ->
  is_derive h x k.
Proof. intros D E <-. exact (is_derive_ext f h x l E D). Qed.

Lemma cont_scal (f : R -> R) (x c : R) : continuous f x -> continuous (fun y => c * f y) x.
Proof. intros Hf. exact (continuous_mult (fun _ => c) f x (continuous_const c x) Hf). Qed.
Lemma cont_scal_r (f : R -> R) (x c : R) : continuous f x -> continuous (fun y => f y * c) x.
Proof. intros Hf. exact (continuous_mult f (fun _ => c) x Hf (continuous_const c x)). Qed.
Lemma cont_plus (f h : R -> R) (x : R) : continuous f x -> continuous h x -> continuous (fun y => f y + h y) x.
Proof. exact (continuous_plus f h x). Qed.
Lemma cont_minus (f h : R -> R) (x : R) : continuous f x -> continuous h x -> continuous (fun y => f y - h y) x.
Proof. exact (continuous_minus f h x). Qed.

Lemma is_derive_sumn n (f : nat -> R -> R) (d : nat -> R) (x : R) :
  (forall i, (i < n)%nat -> is_derive (f i) x (d i)) ->
  is_derive (fun y => sumn n (fun i => f i y)) x (sumn n d).
Proof.
  induction n as [|n IH]; intros Hf; cbn [sumn].
  - apply (is_derive_const 0 x).
  - apply (is_derive_plus (fun y => sumn n (fun i => f i y)) (f n)); auto.
Qed.

Lemma continuous_sumn n (f : nat -> R -> R) (x : R) :
  (forall i, (i < n)%nat -> continuous (f i) x) ->
  continuous (fun y => sumn n (fun i => f i y)) x.
Proof.
  induction n as [|n IH]; intros Hf; cbn [sumn].
  - apply continuous_const.
  - apply (continuous_plus (fun y => sumn n (fun i => f i y)) (f n)); auto.
Qed.

(* Two branches that meet are continuous. *)
Lemma continuous_glue (p m : R -> R) w z :
  (forall y, continuous p y) -> (forall y, continuous m y) -> p w = m w ->
  continuous (fun y => if Rleb 0 (y - w) then p y else m y) z.
Proof.
  intros Hp Hm E.
  apply (continuous_ext (fun y => p (1/2 * (y + w + Rabs (y - w)))
                                  + m (1/2 * (y + w - Rabs (y - w))) - p w)).
  - intros y. destruct (Rleb 0 (y - w)) eqn:L.
    + apply Rleb_true in L. rewrite Rabs_pos_eq by exact L.
      replace (1/2 * (y + w + (y - w))) with y by lra.
      replace (1/2 * (y + w - (y - w))) with w by lra. lra.
    + apply Rleb_false in L. rewrite Rabs_left by exact L.
      replace (1/2 * (y + w + - (y - w))) with w by lra.
      replace (1/2 * (y + w - - (y - w))) with y by lra. lra.
  - assert (Ha : continuous (fun y : R => Rabs (y - w)) z).
    { apply (continuous_comp (fun y : R => y - w) Rabs); [|apply continuous_Rabs].
      apply (continuous_minus (fun y : R => y) (fun _ => w)); [apply continuous_id|apply continuous_const]. }
    assert (Hl : continuous (fun y : R => y + w) z).
    { apply (continuous_plus (fun y : R => y) (fun _ => w)); [apply continuous_id|apply continuous_const]. }
    apply (continuous_minus (fun y => p (1/2 * (y + w + Rabs (y - w))) + m (1/2 * (y + w - Rabs (y - w)))) (fun _ => p w)); [|apply continuous_const].
    apply (continuous_plus (fun y => p (1/2 * (y + w + Rabs (y - w)))) (fun y => m (1/2 * (y + w - Rabs (y - w))))).
    + apply (continuous_comp (fun y => 1/2 * (y + w + Rabs (y - w))) p); [|apply Hp].
      apply (cont_scal (fun y => y + w + Rabs (y - w))), (cont_plus (fun y => y + w) (fun y => Rabs (y - w))); auto.
    + apply (continuous_comp (fun y => 1/2 * (y + w - Rabs (y - w))) m); [|apply Hm].
      apply (cont_scal (fun y => y + w - Rabs (y - w))), (cont_minus (fun y => y + w) (fun y => Rabs (y - w))); auto.
Qed.

Lemma derive_glue_r (p m : R -> R) w z l : w < z -> is_derive p z l ->
  is_derive (fun y => if Rleb 0 (y - w) then p y else m y) z l.
Proof.
  intros Hz Hp. apply is_derive_ext_loc with p; [|exact Hp].
  assert (P : 0 < z - w) by lra. exists (mkposreal _ P). intros y Hy.
  unfold ball in Hy; cbn in Hy. unfold AbsRing_ball, abs, minus, plus, opp in Hy; cbn in Hy.
  apply Rabs_def2 in Hy. destruct (Rleb 0 (y - w)) eqn:L; [reflexivity|].
  apply Rleb_false in L. lra.
Qed.

Lemma derive_glue_l (p m : R -> R) w z l : z < w -> is_derive m z l ->
  is_derive (fun y => if Rleb 0 (y - w) then p y else m y) z l.
Proof.
  intros Hz Hp. apply is_derive_ext_loc with m; [|exact Hp].
  assert (P : 0 < w - z) by lra. exists (mkposreal _ P). intros y Hy.
  unfold ball in Hy; cbn in Hy. unfold AbsRing_ball, abs, minus, plus, opp in Hy; cbn in Hy.
  apply Rabs_def2 in Hy. destruct (Rleb 0 (y - w)) eqn:L; [|reflexivity].
  apply Rleb_true in L. lra.
Qed.

Section Profile.
Variables (b1 b2 b12 H : R).
Hypothesis (Hs : 0 < b1 + b2).
Hypothesis (Hd : 0 < b1 * b2 + b12 * (b1 + b2)).
Hypothesis (HH : 0 <= H).
Let v := vars_of b1 b2 b12.
Let C := cC v H.

Lemma C_den : C * (cB v + cA v * exp (- 2 * vg v * H)) = 1.
Proof.
  unfold C, cC. field.
  pose proof (den_pos b1 b2 b12 H Hs Hd HH). fold v in H0. lra.
Qed.

Lemma t_edge_der w z : z <> w ->
  let s := if Rltb z w then 1 else 0 in
  let f0 := fun y => C * t_edge0 v H y w in
  let f1 := fun y => C * t_edge1 v H y w in
  is_derive f0 z (- (b1 + b12) * f0 z + b12 * f1 z + b1 * s)
  /\ is_derive f1 z (- b12 * f0 z + (b2 + b12) * f1 z - b2 * s).
Proof.
  intros Hz s f0 f1. unfold f0, f1, s.
  destruct (Rltb z w) eqn:L.
  - apply Rltb_true in L.
    destruct (me_der b1 b2 b12 H Hs Hd w z) as [D0 D1]. fold v in D0, D1.
    rewrite (t_edge0_eq v H z w), (t_edge1_eq v H z w).
    replace (Rleb 0 (z - w)) with false by (symmetry; apply Rleb_false; lra).
    pose proof C_den as CD.
    split.
    + pose proof (derive_glue_l (pe0 v H w) (me0 v H w) w z _ L D0 : is_derive (fun y => t_edge0 v H y w) z _) as G.
      apply (der_eq _ _ z _ _ (der_scal _ z _ C G)); [reflexivity|].
      replace (b1 * 1) with (b1 * (C * (cB v + cA v * exp (-2 * vg v * H)))) by (rewrite CD; ring). ring.
    + pose proof (derive_glue_l (pe1 v H w) (me1 v H w) w z _ L D1 : is_derive (fun y => t_edge1 v H y w) z _) as G.
      apply (der_eq _ _ z _ _ (der_scal _ z _ C G)); [reflexivity|].
      replace (b2 * 1) with (b2 * (C * (cB v + cA v * exp (-2 * vg v * H)))) by (rewrite CD; ring). ring.
  - apply Rltb_false in L.
    destruct (pe_der b1 b2 b12 H Hs Hd w z) as [D0 D1]. fold v in D0, D1.
    rewrite (t_edge0_eq v H z w), (t_edge1_eq v H z w).
    replace (Rleb 0 (z - w)) with true by (symmetry; apply Rleb_true; lra).
    assert (L' : w < z) by lra.
    split.
    + pose proof (derive_glue_r (pe0 v H w) (me0 v H w) w z _ L' D0 : is_derive (fun y => t_edge0 v H y w) z _) as G.
      apply (der_eq _ _ z _ _ (der_scal _ z _ C G)); [reflexivity|]. ring.
    + pose proof (derive_glue_r (pe1 v H w) (me1 v H w) w z _ L' D1 : is_derive (fun y => t_edge1 v H y w) z _) as G.
      apply (der_eq _ _ z _ _ (der_scal _ z _ C G)); [reflexivity|]. ring.
Qed.

Lemma t_edge_cont w z :
  continuous (fun y => t_edge0 v H y w) z /\ continuous (fun y => t_edge1 v H y w) z.
Proof.
  destruct (pe_me b1 b2 b12 H Hs Hd w) as [E0 E1]. fold v in E0, E1.
  split.
  - apply (continuous_ext (fun y => if Rleb 0 (y - w) then pe0 v H w y else me0 v H w y)).
    { intros y; symmetry; apply t_edge0_eq. }
    apply continuous_glue; [| |exact E0]; intros y; apply (ex_derive_continuous (V := R_NormedModule)).
    + destruct (pe_der b1 b2 b12 H Hs Hd w y) as [D _]. eexists; exact D.
    + destruct (me_der b1 b2 b12 H Hs Hd w y) as [D _]. eexists; exact D.
  - apply (continuous_ext (fun y => if Rleb 0 (y - w) then pe1 v H w y else me1 v H w y)).
    { intros y; symmetry; apply t_edge1_eq. }
    apply continuous_glue; [| |exact E1]; intros y; apply (ex_derive_continuous (V := R_NormedModule)).
    + destruct (pe_der b1 b2 b12 H Hs Hd w y) as [_ D]. eexists; exact D.
    + destruct (me_der b1 b2 b12 H Hs Hd w y) as [_ D]. eexists; exact D.
Qed.

(* Values of C * t_edge *)
Lemma edge_top w : 0 <= w -> C * t_edge0 v H 0 w = 1 /\ C * t_edge1 v H 0 w = 1 - out_edge v H w.
Proof.
  intros Hw. rewrite t_edge0_eq, t_edge1_eq.
  assert (E : (if Rleb 0 (0 - w) then pe0 v H w 0 else me0 v H w 0) = me0 v H w 0
     /\ (if Rleb 0 (0 - w) then pe1 v H w 0 else me1 v H w 0) = me1 v H w 0).
  { destruct (Rleb 0 (0 - w)) eqn:L; [|auto]. apply Rleb_true in L.
    replace w with 0 by lra. apply (pe_me b1 b2 b12 H Hs Hd 0). }
  destruct E as [-> ->].
  pose proof (me0_top b1 b2 b12 H Hs Hd w) as M0. pose proof (me1_top b1 b2 b12 H Hs Hd w) as M1.
  fold v in M0, M1. rewrite M0, M1. pose proof C_den as CD.
  split; [exact CD|]. unfold out_edge. fold C. rewrite <- CD. ring.
Qed.

Lemma edge_bottom w : w <= H -> C * t_edge0 v H H w = C * t_edge1 v H H w.
Proof.
  intros Hw. rewrite t_edge0_eq, t_edge1_eq.
  replace (Rleb 0 (H - w)) with true by (symmetry; apply Rleb_true; lra).
  f_equal. apply pe_bottom; assumption.
Qed.

Lemma edge_first z : 0 <= z -> C * t_edge0 v H z 0 = t_in0 v H z /\ C * t_edge1 v H z 0 = t_in1 v H z.
Proof.
  intros Hw. rewrite t_edge0_eq, t_edge1_eq.
  replace (Rleb 0 (z - 0)) with true by (symmetry; apply Rleb_true; lra).
  apply pe_zero; assumption.
Qed.

Lemma edge_last z : z <= H -> C * t_edge0 v H z H = 1 /\ C * t_edge1 v H z H = 1.
Proof.
  intros Hw. rewrite t_edge0_eq, t_edge1_eq. pose proof C_den as CD.
  destruct (Rleb 0 (z - H)) eqn:L.
  - apply Rleb_true in L. replace z with H by lra.
    destruct (pe_bottom_H b1 b2 b12 H Hs Hd) as [E0 E1]. fold v in E0, E1. rewrite E0, E1. auto.
  - destruct (me_bottom b1 b2 b12 H Hs Hd z) as [E0 E1]. fold v in E0, E1. rewrite E0, E1. auto.
Qed.

(* Segments *)
Variables (n : nat) (ed : list R).
Hypothesis (ed0 : nth 0 ed 0 = 0).
Hypothesis (edn : nth n ed 0 = H).
Hypothesis (edm : forall k, (k < n)%nat -> nth k ed 0 <= nth (S k) ed 0).

Lemma ed_mono j k : (j <= k <= n)%nat -> nth j ed 0 <= nth k ed 0.
Proof.
  intros [Hj Hk]. induction Hj as [|k Hj IH]; [lra|].
  apply Rle_trans with (nth k ed 0); [apply IH; lia|apply edm; lia].
Qed.
Lemma ed_range k : (k <= n)%nat -> 0 <= nth k ed 0 <= H.
Proof. intros Hk. pose proof (ed_mono 0 k). pose proof (ed_mono k n). rewrite ed0 in *. rewrite edn in *. split; auto with arith. Qed.

Variables (Tin : R) (Tb : nat -> R).
Let T0 z := t_in0 v H z * Tin + sumn n (fun k => t_b0 v H ed z k * Tb k).
Let T1 z := t_in1 v H z * Tin + sumn n (fun k => t_b1 v H ed z k * Tb k).

Lemma src_one k z : (k < n)%nat -> nth k ed 0 < z < nth (S k) ed 0 ->
  forall j, (j < n)%nat ->
  (if Rltb z (nth (S j) ed 0) then 1 else 0) - (if Rltb z (nth j ed 0) then 1 else 0)
  = if Nat.eqb j k then 1 else 0.
Proof.
  intros Hk Hz j Hj.
  destruct (lt_eq_lt_dec j k) as [[L|E]|L].
  - assert (nth (S j) ed 0 <= nth k ed 0) by (apply ed_mono; lia).
    assert (nth j ed 0 <= nth k ed 0) by (apply ed_mono; lia).
    replace (Rltb z (nth (S j) ed 0)) with false by (symmetry; apply Rltb_false; lra).
    replace (Rltb z (nth j ed 0)) with false by (symmetry; apply Rltb_false; lra).
    replace (Nat.eqb j k) with false by (symmetry; apply Nat.eqb_neq; lia). lra.
  - subst j.
    replace (Rltb z (nth (S k) ed 0)) with true by (symmetry; apply Rltb_true; lra).
    replace (Rltb z (nth k ed 0)) with false by (symmetry; apply Rltb_false; lra).
    rewrite Nat.eqb_refl. lra.
  - assert (nth (S k) ed 0 <= nth j ed 0) by (apply ed_mono; lia).
    assert (nth (S k) ed 0 <= nth (S j) ed 0) by (apply ed_mono; lia).
    replace (Rltb z (nth (S j) ed 0)) with true by (symmetry; apply Rltb_true; lra).
    replace (Rltb z (nth j ed 0)) with true by (symmetry; apply Rltb_true; lra).
    replace (Nat.eqb j k) with false by (symmetry; apply Nat.eqb_neq; lia). lra.
Qed.

Lemma not_edge k z j : (k < n)%nat -> nth k ed 0 < z < nth (S k) ed 0 -> (j <= n)%nat -> z <> nth j ed 0.
Proof.
  intros Hk Hz Hj. destruct (le_lt_dec j k) as [L|L].
  - assert (nth j ed 0 <= nth k ed 0) by (apply ed_mono; lia). lra.
  - assert (nth (S k) ed 0 <= nth j ed 0) by (apply ed_mono; lia). lra.
Qed.

Lemma sumn_pick k (f : nat -> R) : (k < n)%nat ->
  sumn n (fun j => (if Nat.eqb j k then 1 else 0) * f j) = f k.
Proof.
  intros Hk. rewrite (sumn_single n k) by
    (auto; intros i Hi Hne; replace (Nat.eqb i k) with false by (symmetry; apply Nat.eqb_neq; lia); ring).
  rewrite Nat.eqb_refl. ring.
Qed.

Lemma profile_der k z : (k < n)%nat -> nth k ed 0 < z < nth (S k) ed 0 ->
  is_derive T0 z (- (b1 + b12) * T0 z + b12 * T1 z + b1 * Tb k)
  /\ is_derive T1 z (- b12 * T0 z + (b2 + b12) * T1 z - b2 * Tb k).
Proof.
  intros Hk Hz.
  destruct (t_in_der b1 b2 b12 H Hs Hd z) as [I0 I1]. fold v in I0, I1.
  assert (DB : forall j, (j < n)%nat ->
     is_derive (fun y => t_b0 v H ed y j * Tb j) z
       ((- (b1 + b12) * t_b0 v H ed z j + b12 * t_b1 v H ed z j + b1 * (if Nat.eqb j k then 1 else 0)) * Tb j)
     /\ is_derive (fun y => t_b1 v H ed y j * Tb j) z
       ((- b12 * t_b0 v H ed z j + (b2 + b12) * t_b1 v H ed z j - b2 * (if Nat.eqb j k then 1 else 0)) * Tb j)).
  { intros j Hj.
    destruct (t_edge_der (nth (S j) ed 0) z) as [A0 A1]; [apply (not_edge k); auto; lia|].
    destruct (t_edge_der (nth j ed 0) z) as [B0 B1]; [apply (not_edge k); auto; lia|].
    pose proof (src_one k z Hk Hz j Hj) as S1. unfold t_b0, t_b1. fold C.
    split.
    - apply (der_eq _ _ z _ _ (der_scal _ z _ (Tb j) (der_minus _ _ z _ _ A0 B0))).
      + intros y. ring.
      + rewrite <- S1. ring.
    - apply (der_eq _ _ z _ _ (der_scal _ z _ (Tb j) (der_minus _ _ z _ _ A1 B1))).
      + intros y. ring.
      + rewrite <- S1. ring. }
  unfold T0, T1. split.
  - pose proof (is_derive_sumn n _ _ z (fun j Hj => proj1 (DB j Hj))) as DS.
    apply (der_eq _ _ z _ _ (der_plus _ _ z _ _ (der_scal _ z _ Tin I0) DS)); [intros y; ring|].
    rewrite (sumn_ext n _ (fun j => - (b1 + b12) * (t_b0 v H ed z j * Tb j) + b12 * (t_b1 v H ed z j * Tb j)
       + b1 * ((if Nat.eqb j k then 1 else 0) * Tb j))) by (intros; ring).
    rewrite !sumn_plus, !sumn_scal, (sumn_pick k) by exact Hk. ring.
  - pose proof (is_derive_sumn n _ _ z (fun j Hj => proj2 (DB j Hj))) as DS.
    apply (der_eq _ _ z _ _ (der_plus _ _ z _ _ (der_scal _ z _ Tin I1) DS)); [intros y; ring|].
    rewrite (sumn_ext n _ (fun j => - b12 * (t_b0 v H ed z j * Tb j) + (b2 + b12) * (t_b1 v H ed z j * Tb j)
       + (- b2) * ((if Nat.eqb j k then 1 else 0) * Tb j))) by (intros; ring).
    rewrite !sumn_plus, !sumn_scal, (sumn_pick k) by exact Hk. ring.
Qed.

Lemma profile_cont (z : R) : continuous T0 z /\ continuous T1 z.
Proof.
  destruct (t_in_der b1 b2 b12 H Hs Hd z) as [D0 D1]. fold v in D0, D1.
  assert (I0 := ex_derive_continuous (t_in0 v H) z (ex_intro _ _ D0)).
  assert (I1 := ex_derive_continuous (t_in1 v H) z (ex_intro _ _ D1)).
  unfold T0, T1. split.
  - apply (cont_plus (fun z => t_in0 v H z * Tin) (fun z => sumn n (fun k => t_b0 v H ed z k * Tb k))).
    + apply (cont_scal_r (t_in0 v H)), I0.
    + apply (continuous_sumn n (fun k z => t_b0 v H ed z k * Tb k)). intros i _.
      apply (cont_scal_r (fun z => t_b0 v H ed z i)).
      apply (cont_scal (fun z => t_edge0 v H z (nth (S i) ed 0) - t_edge0 v H z (nth i ed 0))).
      apply (cont_minus (fun z => t_edge0 v H z (nth (S i) ed 0)) (fun z => t_edge0 v H z (nth i ed 0)));
        [exact (proj1 (t_edge_cont (nth (S i) ed 0) z))|exact (proj1 (t_edge_cont (nth i ed 0) z))].
  - apply (cont_plus (fun z => t_in1 v H z * Tin) (fun z => sumn n (fun k => t_b1 v H ed z k * Tb k))).
    + apply (cont_scal_r (t_in1 v H)), I1.
    + apply (continuous_sumn n (fun k z => t_b1 v H ed z k * Tb k)). intros i _.
      apply (cont_scal_r (fun z => t_b1 v H ed z i)).
      apply (cont_scal (fun z => t_edge1 v H z (nth (S i) ed 0) - t_edge1 v H z (nth i ed 0))).
      apply (cont_minus (fun z => t_edge1 v H z (nth (S i) ed 0)) (fun z => t_edge1 v H z (nth i ed 0)));
        [exact (proj2 (t_edge_cont (nth (S i) ed 0) z))|exact (proj2 (t_edge_cont (nth i ed 0) z))].
Qed.

Lemma profile_ends :
  T0 0 = Tin /\ T0 H = T1 H
  /\ T1 0 = out_in v H * Tin + sumn n (fun k => out_b v H ed k * Tb k).
Proof.
  destruct (t_in_ends b1 b2 b12 H Hs Hd HH) as [E0 [EH E1]]. fold v in E0, EH, E1.
  unfold T0, T1. repeat split.
  - rewrite E0, sumn_zero; [ring|]. intros k Hk. unfold t_b0. fold C.
    rewrite Rmult_minus_distr_l.
    rewrite (proj1 (edge_top _ (proj1 (ed_range (S k) Hk)))).
    rewrite (proj1 (edge_top _ (proj1 (ed_range k (Nat.lt_le_incl _ _ Hk))))). ring.
  - rewrite EH. f_equal. apply sumn_ext. intros k Hk. f_equal. unfold t_b0, t_b1. fold C.
    rewrite !Rmult_minus_distr_l.
    rewrite (edge_bottom _ (proj2 (ed_range (S k) Hk))).
    rewrite (edge_bottom _ (proj2 (ed_range k (Nat.lt_le_incl _ _ Hk)))). ring.
  - rewrite E1. f_equal. apply sumn_ext. intros k Hk. f_equal. unfold t_b1, out_b. fold C.
    rewrite !Rmult_minus_distr_l.
    rewrite (proj2 (edge_top _ (proj1 (ed_range (S k) Hk)))).
    rewrite (proj2 (edge_top _ (proj1 (ed_range k (Nat.lt_le_incl _ _ Hk))))). ring.
Qed.

Lemma coef_sum z : 0 <= z <= H ->
  t_in0 v H z + sumn n (t_b0 v H ed z) = 1 /\ t_in1 v H z + sumn n (t_b1 v H ed z) = 1.
Proof.
  intros Hz.
  destruct (edge_first z (proj1 Hz)) as [F0 F1]. destruct (edge_last z (proj2 Hz)) as [L0 L1].
  unfold t_b0, t_b1. fold C. rewrite !sumn_scal.
  rewrite (sumn_telescope n (fun k => t_edge0 v H z (nth k ed 0))).
  rewrite (sumn_telescope n (fun k => t_edge1 v H z (nth k ed 0))).
  rewrite ed0, edn, !Rmult_minus_distr_l, F0, F1, L0, L1. split; ring.
Qed.

Lemma out_sum : out_in v H + sumn n (out_b v H ed) = 1.
Proof.
  destruct (t_in_ends b1 b2 b12 H Hs Hd HH) as [_ [_ E1]]. fold v in E1.
  rewrite <- E1. rewrite <- (proj2 (coef_sum 0 (conj (Rle_refl 0) HH))). f_equal.
  apply sumn_ext. intros k Hk. unfold t_b1, out_b. fold C. rewrite !Rmult_minus_distr_l.
  rewrite (proj2 (edge_top _ (proj1 (ed_range (S k) Hk)))).
  rewrite (proj2 (edge_top _ (proj1 (ed_range k (Nat.lt_le_incl _ _ Hk))))). ring.
Qed.

Lemma exp_le x y : x <= y -> exp x <= exp y.
Proof. intros [L|E]; [left; apply exp_increasing; exact L|rewrite E; lra]. Qed.

Lemma C_pos : 0 < C.
Proof. unfold C, cC. apply Rdiv_lt_0_compat; [lra|]. apply den_pos; assumption. Qed.

Lemma out_b_nonneg k : (k < n)%nat -> 0 <= out_b v H ed k.
Proof.
  intros Hk. unfold out_b, out_edge. fold C.
  pose proof (g_pos b1 b2 b12 Hd : 0 < vg v) as Pg.
  pose proof (bg_pos b1 b2 b12 Hd : 0 < vb v + vg v) as Pp.
  pose proof (bg_neg b1 b2 b12 Hd : vb v - vg v < 0) as Pn.
  pose proof (edm k Hk) as M. pose proof C_pos as CP.
  set (x := nth k ed 0) in *. set (y := nth (S k) ed 0) in *.
  assert (0 < (v1 v + v2 v) / vg v * C).
  { apply Rmult_lt_0_compat; [apply Rdiv_lt_0_compat|]; [exact Hs|exact Pg|exact CP]. }
  set (K := (v1 v + v2 v) / vg v * C) in *.
  assert (A1 : exp (- y * (vb v + vg v)) <= exp (- x * (vb v + vg v))) by (apply exp_le; nra).
  assert (A2 : exp (- x * (vb v - vg v) - 2 * vg v * H) <= exp (- y * (vb v - vg v) - 2 * vg v * H))
    by (apply exp_le; nra).
  nra.
Qed.

Lemma out_in_lt1 : 0 < H -> out_in v H < 1.
Proof.
  intros Hpos. unfold out_in.
  pose proof (den_pos b1 b2 b12 H Hs Hd HH) as D. fold v in D.
  pose proof (g_pos b1 b2 b12 Hd : 0 < vg v) as Pg.
  assert (E1 : exp (-2 * vg v * H) < 1) by (rewrite <- exp_0; apply exp_increasing; nra).
  set (E := exp (-2 * vg v * H)) in *.
  apply Rmult_lt_reg_r with (cB v + cA v * E); [exact D|].
  unfold Rdiv. rewrite Rmult_assoc, Rinv_l by lra.
  assert (cA v < cB v).
  { unfold cA, cB. assert (0 < 1/2 * (v1 v + v2 v) / vg v); [|lra].
    apply Rdiv_lt_0_compat; [|exact Pg]. change (v1 v) with b1; change (v2 v) with b2. lra. }
  nra.
Qed.

Lemma out_in_nonneg : 0 <= b12 -> 0 <= out_in v H.
Proof.
  intros Hb. unfold out_in.
  pose proof (den_pos b1 b2 b12 H Hs Hd HH) as D. fold v in D.
  pose proof (g_pos b1 b2 b12 Hd : 0 < vg v) as Pg.
  pose proof (g_sq b1 b2 b12 Hd : vg v * vg v = _) as Sq.
  assert (G : 1/2 * (b1 + b2) <= vg v) by nra.
  assert (A0 : 0 <= cA v).
  { unfold cA. change (v1 v) with b1; change (v2 v) with b2.
    assert (1/2 * (b1 + b2) / vg v <= 1); [|lra].
    apply Rmult_le_reg_r with (vg v); [exact Pg|]. unfold Rdiv. rewrite Rmult_assoc, Rinv_l by lra. lra. }
  assert (B0 : 0 <= cB v).
  { unfold cB. change (v1 v) with b1; change (v2 v) with b2.
    assert (0 < 1/2 * (b1 + b2) / vg v); [|lra]. apply Rdiv_lt_0_compat; lra. }
  pose proof (exp_pos (-2 * vg v * H)) as EP.
  apply Rmult_le_pos; [nra|]. left; apply Rinv_0_lt_compat; exact D.
Qed.
End Profile.
