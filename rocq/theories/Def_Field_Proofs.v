(** The responses of a field of vertical boreholes are those of a stable ground. *)
From Coq Require Import Reals Lra Lia List.
From Coquelicot Require Import Coquelicot.
From Verif Require Import Base LinAlg FLS_Model FLS_Spec FLS_Erf_Proofs FLS_Proofs FLS_Sol_Proofs Bore_Model Bore_Proofs Solve_Model Solve_Spec
  Detailed_Model Detailed_Spec Detailed_Proofs Detailed_Sol_Proofs Def_Spec Def_Psd_Proofs Def_Kernel_Proofs Def_Main_Proofs.
Import ListNotations.
Local Open Scope R_scope.

Fixpoint owner (ns : list nat) (k : nat) : nat :=
  match ns with
  | [] => O
  | n :: r => if (k <? n)%nat then O else S (owner r (k - n))
  end.

Lemma owner_owns ns k : (k < list_sum ns)%nat -> (owner ns k < length ns)%nat /\ owns ns (owner ns k) k.
Proof.
  revert k. induction ns as [|n r IH]; intros k Hk; [unfold list_sum in Hk; cbn in Hk; lia|].
  unfold list_sum in Hk; cbn [fold_right] in Hk; fold (list_sum r) in Hk.
  cbn [owner length]. destruct (Nat.ltb_spec k n).
  - split; [lia|]. unfold owns, first. cbn. lia.
  - destruct (IH (k - n)%nat ltac:(lia)) as [A B]. split; [lia|]. unfold owns, first in *. cbn [firstn nth].
    unfold list_sum; cbn [fold_right]; fold (list_sum (firstn (owner r (k - n)) r)). lia.
Qed.

Lemma conv_sumn n (f : nat -> R -> R) a : (forall i, (i < n)%nat -> converges (f i) a) ->
  converges (fun s => sumn n (fun i => f i s)) a /\ quad_inf (fun s => sumn n (fun i => f i s)) a = sumn n (fun i => quad_inf (f i) a).
Proof.
  induction n; intros Hf; cbn [sumn]; [apply conv_zero|].
  destruct IHn as [C E]; [intros; apply Hf; lia|]. rewrite <- E. apply (conv_plus (fun s => sumn n (fun i => f i s)) (f n)); auto.
Qed.

Lemma conv_form n (f : nat -> nat -> R -> R) x a : (forall i j, (i < n)%nat -> (j < n)%nat -> converges (f i j) a) ->
  converges (fun s => form n (fun i j => f i j s) x) a /\ quad_inf (fun s => form n (fun i j => f i j s) x) a = form n (fun i j => quad_inf (f i j) a) x.
Proof.
  intros Hf. unfold form.
  assert (I : forall i j, (i < n)%nat -> (j < n)%nat -> converges (fun s => x i * x j * f i j s) a /\ quad_inf (fun s => x i * x j * f i j s) a = x i * x j * quad_inf (f i j) a).
  { intros i j Hi Hj. apply conv_scal. auto. }
  assert (J : forall i, (i < n)%nat -> converges (fun s => sumn n (fun j => x i * x j * f i j s)) a /\
     quad_inf (fun s => sumn n (fun j => x i * x j * f i j s)) a = sumn n (fun j => x i * x j * quad_inf (f i j) a)).
  { intros i Hi. destruct (conv_sumn n (fun j s => x i * x j * f i j s) a) as [C E]; [intros; apply I; auto|]. split; auto.
    rewrite E. apply sumn_ext; intros j Hj. apply I; auto. }
  destruct (conv_sumn n (fun i s => sumn n (fun j => x i * x j * f i j s)) a) as [C E]; [intros; apply J; auto|]. split; auto.
  rewrite E. apply sumn_ext; intros i Hi. apply J; auto.
Qed.

Lemma cont_sumn n (f : nat -> R -> R) s : (forall i, (i < n)%nat -> continuous (f i) s) -> continuous (fun s => sumn n (fun i => f i s)) s.
Proof.
  induction n; intros Hf; cbn [sumn]; [apply continuous_const|].
  apply (continuous_plus (fun s => sumn n (fun i => f i s)) (f n)); auto.
Qed.

Lemma cont_form n (f : nat -> nat -> R -> R) x s : (forall i j, (i < n)%nat -> (j < n)%nat -> continuous (f i j) s) -> continuous (fun s => form n (fun i j => f i j s) x) s.
Proof.
  intros Hf. unfold form. apply (cont_sumn n (fun i s => sumn n (fun j => x i * x j * f i j s))). intros i Hi.
  apply (cont_sumn n (fun j s => x i * x j * f i j s)). intros j Hj.
  apply (continuous_scal_r (x i * x j) (f i j)). auto.
Qed.

Section Field.
Variables (bs : list bore) (ns : list nat) (rs : list (list R)).
Hypothesis W : segmented bs ns rs.
Hypothesis V : vertical_field bs.
Hypothesis G : good_ratios rs.
Hypothesis Sp : well_spaced bs.
Local Notation seg k := (nth k (bore_segments bs ns rs) no_bore).
Local Notation n := (list_sum ns).
Local Notation m := (length bs).
Local Notation bh b := (nth b bs no_bore).

Lemma own_lt k : (k < n)%nat -> (owner ns k < m)%nat /\ owns ns (owner ns k) k.
Proof. intros Hk. destruct (owner_owns ns k Hk). destruct W as [L _]. rewrite L in *. auto. Qed.

Lemma bh_props b : (b < m)%nat -> btilt (bh b) = 0 /\ 0 < bH (bh b) /\ 0 <= bD (bh b) /\ 0 < br (bh b).
Proof. intros L. apply (proj1 V). apply nth_In; auto. Qed.

Lemma seg_ok k : (k < n)%nat -> 0 < bH (seg k) /\ 0 <= bD (seg k).
Proof. intros L. pose proof (seg_props bs ns rs V G (seg k) (seg_in bs ns rs W k L)) as Q. tauto. Qed.

Lemma seg_depth b u : (b < m)%nat -> (u < nth b ns O)%nat ->
  bH (seg (first ns b + u)%nat) = nth u (nth b rs []) 0 * bH (bh b) /\ bD (seg (first ns b + u)%nat) = bD (bh b) + bH (bh b) * sumn u (fun k => nth k (nth b rs []) 0).
Proof.
  intros Lb Lu. destruct (segments_all _ _ _ W) as [_ S]. destruct W as [_ [_ Lr]]. unfold bore_segments. rewrite S by auto.
  rewrite <- (Lr b Lb) in Lu. pose proof (segments_nth (bh b) (nth b ns O) (Some (nth b rs [])) u Lu) as E.
  rewrite (nth_indep _ no_bore Bore_Spec.b0) by (rewrite Bore_Proofs.segments_length; exact Lu).
  rewrite E. cbn. destruct (bh_props b Lb) as [T _]. rewrite T, cos_0. split; ring.
Qed.

Lemma sumn_mono f u v : (u <= v)%nat -> (forall k, (k < v)%nat -> 0 <= f k) -> sumn u f <= sumn v f.
Proof.
  intros L P. replace v with (u + (v - u))%nat by lia. rewrite sumn_split.
  assert (0 <= sumn (v - u) (fun i => f (u + i)%nat)) by (apply sumn_nonneg; intros; apply P; lia). lra.
Qed.

Lemma seg_apart i j : (i < n)%nat -> (j < n)%nat -> i <> j -> owner ns i = owner ns j ->
  bD (seg i) + bH (seg i) <= bD (seg j) \/ bD (seg j) + bH (seg j) <= bD (seg i).
Proof.
  intros Li Lj N E. destruct (own_lt i Li) as [Lb Oi]. destruct (own_lt j Lj) as [_ Oj]. rewrite <- E in Oj. set (b := owner ns i) in *. clearbody b. clear E.
  assert (Ord : forall u v, (u < v)%nat -> (v < nth b ns O)%nat -> bD (seg (first ns b + u)%nat) + bH (seg (first ns b + u)%nat) <= bD (seg (first ns b + v)%nat)).
  { intros u v L1 L2. destruct (seg_depth b u Lb ltac:(lia)) as [-> ->]. destruct (seg_depth b v Lb L2) as [_ ->]. destruct (bh_props b Lb) as (_ & Hp & _).
    pose proof (sumn_mono (fun k => nth k (nth b rs []) 0) (S u) v L1) as M. cbn [sumn] in M.
    assert (sumn u (fun k => nth k (nth b rs []) 0) + nth u (nth b rs []) 0 <= sumn v (fun k => nth k (nth b rs []) 0)).
    { apply M. intros k Lk. destruct W as (W1 & W2 & Lr). assert (In (nth b rs []) rs) as I1 by (apply nth_In; lia).
      left. apply (proj2 (G _ I1)). apply nth_In. rewrite Lr by auto. lia. }
    nra. }
  unfold owns in Oi, Oj. replace i with (first ns b + (i - first ns b))%nat by lia. replace j with (first ns b + (j - first ns b))%nat by lia.
  destruct (Nat.lt_ge_cases i j); [left|right]; apply Ord; lia.
Qed.

Lemma widest : (0 < m)%nat -> exists c, (c < m)%nat /\ forall b, (b < m)%nat -> br (bh b) <= br (bh c).
Proof.
  assert (Q : forall k, (0 < k <= m)%nat -> exists c, (c < k)%nat /\ forall b, (b < k)%nat -> br (bh b) <= br (bh c)).
  { intros k. induction k; intros Hk; [lia|]. destruct k as [|k]; [exists O; split; [lia|]; intros b Lb; replace b with O by lia; lra|].
    destruct IHk as (c & Lc & Hc); [lia|]. destruct (Rle_dec (br (bh c)) (br (bh (S k)))) as [L|L].
    - exists (S k). split; [lia|]. intros b Lb. destruct (Nat.eq_dec b (S k)) as [->|]; [lra|]. specialize (Hc b ltac:(lia)). lra.
    - exists c. split; [lia|]. intros b Lb. destruct (Nat.eq_dec b (S k)) as [->|]; [lra|]. apply Hc. lia. }
  intros P. apply Q. lia.
Qed.

Lemma field_definite alpha t uw : 0 < alpha -> 0 < t ->
  definite (n_sources bs ns rs) (segment_length bs ns rs) (detailed_matrix (line_kernel alpha t uw) bs ns rs).
Proof.
  intros Pa Pt x (i0 & Li0 & Nz).
  assert (En : n_sources bs ns rs = n) by (unfold n_sources, bore_segments; now destruct (segments_all _ _ _ W)). rewrite En in *. clear En.
  set (a := lower alpha t). assert (P : 0 < a) by (apply lower_pos; auto).
  set (H := fun k => bH (seg k)). set (D := fun k => bD (seg k)). set (g := owner ns).
  set (px := fun b => bx (bh b)). set (py := fun b => by_ (bh b)). set (rho := fun b => br (bh b)).
  set (dis := fun i j => Rmax (planar (seg j) (seg i)) (br (seg j))).
  set (f := fun i j s => fls_integrand (dis i j) (H i) (D i) (H j) (D j) true true s).
  destruct (widest (Nat.le_lt_trans _ _ _ (Nat.le_0_l _) (proj1 (own_lt i0 Li0)))) as (c0 & Lc0 & Wd).
  assert (Rp : forall b, (b < m)%nat -> 0 < rho b) by (intros b L; apply (bh_props b L)).
  assert (Dp : forall i j, (i < n)%nat -> (j < n)%nat -> dis i j <> 0).
  { intros i j Li Lj. unfold dis. apply distance_pos. destruct (own_lt j Lj) as [L O1]. destruct (seg_place bs ns rs W V (owner ns j) j L O1) as (-> & _). apply Rp; auto. }
  (* the entries *)
  assert (Me : forall i j, (i < n)%nat -> (j < n)%nat -> H i * detailed_matrix (line_kernel alpha t uw) bs ns rs i j = 1 / 2 * quad_inf (f i j) a).
  { intros i j Li Lj. rewrite (matrix_response bs ns rs W V G alpha t uw i j Li Lj). unfold response, fls. destruct (seg_ok i Li) as [Hi _].
    fold a. fold (dis i j). fold (H i) (H j) (D i) (D j). fold (H i) in Hi.
    rewrite (quad_ext _ (f i j)); [unfold f; field; lra|]. intros s _. apply integrand_swap. }
  assert (Ig : forall s, 0 < s -> form n (fun i j => f i j s) x = ig n H D g px py rho x s).
  { intros s Hs. unfold ig, qf, uform. rewrite <- form_scal. apply form_ext. intros i j Li Lj. unfold f. rewrite integrand_sw by lra. f_equal. f_equal.
    destruct (own_lt i Li) as [Lb Oi]. destruct (own_lt j Lj) as [Lc Oj]. fold (g i) in Lb, Oi. fold (g j) in Lc, Oj.
    destruct (seg_place bs ns rs W V (g i) i Lb Oi) as (R1 & X1 & Y1). destruct (seg_place bs ns rs W V (g j) j Lc Oj) as (R2 & X2 & Y2).
    unfold plane, away, dis, planar. rewrite R2, X1, X2, Y1, Y2. fold (rho (g j)). fold (px (g i)) (px (g j)) (py (g i)) (py (g j)).
    destruct (Nat.eqb_spec (g i) (g j)) as [E|N].
    - rewrite E. replace ((px (g j) - px (g j)) ^ 2 + (py (g j) - py (g j)) ^ 2) with 0 by ring. rewrite sqrt_0, Rmax_right; auto. left; apply Rp; auto.
    - assert (Pl : rho (g j) <= sqrt ((px (g j) - px (g i)) ^ 2 + (py (g j) - py (g i)) ^ 2)).
      { pose proof (Sp (g j) (g i) (g j) Lc Lb Lc ltac:(auto)) as Q. unfold planar in Q. fold (rho (g j)) (px (g i)) (px (g j)) (py (g i)) (py (g j)) in Q. pose proof (Rp (g j) Lc). lra. }
      rewrite Rmax_left by auto. f_equal. rewrite <- (Rsqr_pow2 (sqrt _)), Rsqr_sqrt; [ring|].
      pose proof (pow2_ge_0 (px (g j) - px (g i))). pose proof (pow2_ge_0 (py (g j) - py (g i))). lra. }
  destruct (conv_form n f x a) as [Cv Eq]; [intros i j Li Lj; apply integrand_conv; auto|].
  assert (Tot : 0 < quad_inf (ig n H D g px py rho x) a).
  { apply (ig_total n m H D g px py rho (6 * rho c0)).
    - intros i Li. apply own_lt; auto.
    - intros i Li. apply seg_ok; auto.
    - intros i j Li Lj N E. apply seg_apart; auto.
    - pose proof (Rp c0 Lc0). lra.
    - intros b Lb. split; auto. pose proof (Wd b Lb) as Q. fold (rho b) (rho c0) in Q. lra.
    - intros b c Lb Lc N. pose proof (Sp b c c0 Lb Lc Lc0 N) as Q. fold (rho c0) in Q. unfold planar in Q. fold (px b) (px c) (py b) (py c) in Q.
      pose proof (Rp c0 Lc0). assert (Z : 0 <= (px b - px c) ^ 2 + (py b - py c) ^ 2) by (pose proof (pow2_ge_0 (px b - px c)); pose proof (pow2_ge_0 (py b - py c)); lra).
      rewrite <- (Rsqr_sqrt _ Z), Rsqr_pow2. apply pow_incr. lra.
    - intros s Hs. apply (continuous_ext_loc _ (fun s => form n (fun i j => f i j s) x)).
      + exists (mkposreal s Hs). intros y By. apply Ig. unfold ball in By; cbn in By. unfold AbsRing_ball, abs, minus, plus, opp in By; cbn in By.
        pose proof (Rle_abs (- (y + - s))) as Q. rewrite Rabs_Ropp in Q. lra.
      + apply (cont_form n f x s). intros i j _ _. apply integrand_cont; auto.
    - exists i0; auto.
    - auto.
    - apply (conv_ext (fun s => form n (fun i j => f i j s) x)); auto. intros s Hs. apply Ig. lra. }
  rewrite <- (quad_ext (fun s => form n (fun i j => f i j s) x)) in Tot by (intros s Hs; apply Ig; lra). rewrite Eq in Tot.
  replace (sumn n _) with (1 / 2 * form n (fun i j => quad_inf (f i j) a) x); [lra|].
  unfold form. rewrite <- sumn_scal. apply sumn_ext; intros i Li. rewrite <- !sumn_scal. apply sumn_ext; intros j Lj.
  change (segment_length bs ns rs i) with (H i).
  replace (H i * x i * (detailed_matrix (line_kernel alpha t uw) bs ns rs i j * x j)) with (x i * x j * (H i * detailed_matrix (line_kernel alpha t uw) bs ns rs i j)) by ring.
  rewrite Me by auto. ring.
Qed.
End Field.
