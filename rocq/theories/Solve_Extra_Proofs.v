(** Further properties of the results: equal steps, one source, several mass flow rates. *)
From Verif Require Import Base LinAlg LinInv Bore_Model Net_Model Solve_Model Solve_Spec Solve_Rec_Proofs Solve_Loop_Proofs Solve_Eq_Proofs Solve_Sol_Proofs.

Lemma equal_prefix tl d p : equal_steps tl d -> (p < length tl)%nat -> equal_steps (firstn (S p) tl) d.
Proof.
  intros E Hp k Hk. rewrite firstn_length in Hk. rewrite !firstn_at by lia. apply E. lia.
Qed.

Lemma interpolated_equal tl d f p v : grid tl -> equal_steps tl d -> (p < length tl)%nat -> interpolated tl f (at_time tl (S p) - at_time tl p) v -> v = f d.
Proof.
  intros G E Hp [k [Hk [B Hv]]]. rewrite (E p Hp) in B, Hv.
  pose proof (equal_at tl d k E ltac:(lia)) as K1. pose proof (equal_at tl d (S k) E ltac:(lia)) as K2.
  pose proof (grid_lt tl G O 1 ltac:(lia) ltac:(lia)) as D. rewrite at_zero in D. rewrite (equal_at tl d 1 E ltac:(lia)) in D. cbn [INR] in D.
  cbv zeta in Hv. rewrite S_INR in K2. rewrite K1, K2 in B, Hv. clear K1 K2. destruct k as [|[|k]].
  - cbn [INR] in *. rewrite Hv. replace ((0 + 1) * d) with d by ring. field. lra.
  - cbn [INR] in *. rewrite Hv. rewrite !Rmult_1_l. replace (d - d) with 0 by ring. unfold Rdiv. ring.
  - exfalso. rewrite !S_INR in B. pose proof (pos_INR k). nra.
Qed.

Lemma past_nth (Q : list (nat -> R)) p j k : (p <= length Q)%nat -> nth k (map (fun v => v j) (firstn p Q) ++ [0]) 0 = if (k <? p)%nat then nth k Q (fun _ => 0) j else 0.
Proof.
  intros Hp. assert (L : length (map (fun v : nat -> R => v j) (firstn p Q)) = p) by (rewrite map_length, firstn_length; lia).
  destruct (Nat.ltb_spec k p) as [Lk|Lk].
  - rewrite app_nth1 by lia. rewrite (nth_map _ _ k (fun _ => 0) 0) by (rewrite firstn_length; lia). rewrite nth_firstn by auto. auto.
  - rewrite app_nth2 by lia. rewrite L. destruct (k - p)%nat as [|[|x]]; auto.
Qed.

Lemma mean_equal tl d Q k : grid tl -> equal_steps tl d -> length Q = length tl -> (k < length tl)%nat -> mean_load tl Q k = nth k Q 0.
Proof.
  intros G E L Hk. symmetry. apply (rec_value tl Q Q k G L); auto. eapply rec_equal; eauto.
Qed.

Lemma superposed_duhamel n resp tl d Q p i T : grid tl -> equal_steps tl d -> length Q = length tl -> (p < length tl)%nat ->
  superposed n resp tl Q p i T -> T = duhamel n resp tl Q p i.
Proof.
  intros G E LQ Hp [now [N ->]]. destruct (firstn_grid tl p G Hp) as [Gp Lp]. pose proof (equal_prefix tl d p E Hp) as Ep.
  unfold duhamel. rewrite <- sumn_plus. apply sumn_ext. intros j Hj.
  rewrite (interpolated_equal tl d _ p _ G E Hp (N j Hj)).
  assert (M : forall k, (k <= p)%nat -> mean_load (firstn (S p) tl) (map (fun v => v j) (firstn p Q) ++ [0]) k = if (k <? p)%nat then nth k Q (fun _ => 0) j else 0).
  { intros k Hk. rewrite (mean_equal _ d); auto.
    - apply past_nth. lia.
    - rewrite app_length, map_length, firstn_length, Lp. cbn [length]. lia.
    - lia. }
  assert (RT : forall k, (k <= p)%nat -> reversed_time (firstn (S p) tl) k = at_time tl k).
  { intros k Hk. rewrite (equal_rev _ d) by (auto; lia). apply firstn_at; auto. }
  cbn [sumn].
  rewrite (sumn_ext p (fun k => (mean_load (firstn (S p) tl) (map (fun v => v j) (firstn p Q) ++ [0]) k - match k with O => 0 | S l => mean_load (firstn (S p) tl) (map (fun v => v j) (firstn p Q) ++ [0]) l end) * resp i j (at_time tl (S p) - reversed_time (firstn (S p) tl) k))
     (fun k => (nth k Q (fun _ => 0) j - match k with O => 0 | S l => nth l Q (fun _ => 0) j end) * resp i j (at_time tl (S p) - at_time tl k))).
  - rewrite M, RT by lia. rewrite Nat.ltb_irrefl. rewrite (E p Hp).
    assert (B : match p with O => 0 | S l => mean_load (firstn (S p) tl) (map (fun v => v j) (firstn p Q) ++ [0]) l end = match p with O => 0 | S l => nth l Q (fun _ => 0) j end).
    { destruct p as [|l]; auto. rewrite M by lia. destruct (Nat.ltb_spec l (S l)); auto; lia. }
    rewrite B. ring.
  - intros k Hk. rewrite M, RT by lia. destruct (Nat.ltb_spec k p); [|lia]. f_equal. f_equal.
    destruct k as [|l]; auto. rewrite M by lia. destruct (Nat.ltb_spec l p); auto; lia.
Qed.

(** one source *)
Lemma one_load (H : vec) resp time Q g p : H O <> 0 -> grid time -> solve_ubwt 1 H (on_grid resp) time 0 = Some (Q, g) -> (p < length time)%nat -> nth p Q zero_vec O = 1.
Proof.
  intros HH G E Hp. pose proof (ubwt_normal _ _ _ _ _ _ _ p E Hp) as N. cbn [sumn] in N.
  apply (Rmult_eq_reg_l (H O)); auto. lra.
Qed.

Lemma ubwt_lengths n H trf time thr Q g : solve_ubwt n H trf time thr = Some (Q, g) -> length Q = length time /\ length g = length time.
Proof.
  rewrite ubwt_run. destruct (grun _ _ _ _ _ _) as [[a b]|] eqn:E; [|discriminate]. intros EE. injection EE as <- <-.
  destruct (run_length _ _ _ _ _ _ 0 E) as [La [Lb _]]. pose proof (long_length time thr).
  rewrite lin_loads_length, lin_length, !app_length, !repeat_length. lia.
Qed.

Lemma ubwt_one_nonsing (H : vec) h : H O <> 0 -> nonsingular 2 (ubwt_A 1 H h).
Proof.
  intros HH x E i Hi. pose proof (E 0%nat ltac:(lia)) as E0. pose proof (E 1%nat ltac:(lia)) as E1. unfold ubwt_A in *. cbn in E0, E1.
  assert (X0 : x O = 0) by (apply (Rmult_eq_reg_l (H O)); auto; lra). rewrite X0 in E0.
  destruct i as [|[|i]]; auto; [lra|lia].
Qed.

Lemma ubwt_one_some (H : vec) resp time : H O <> 0 -> grid time -> exists Q g, solve_ubwt 1 H (on_grid resp) time 0 = Some (Q, g).
Proof.
  intros HH G. rewrite ubwt_zero by (apply grid_positive; auto).
  destruct (run_some 1 resp (ubwt_sol 1 H) time G) as [[Q g] E].
  - intros h T. unfold ubwt_sol. destruct (lin_solve_some 2 (ubwt_A 1 H h) (ubwt_B 1 H T) (ubwt_one_nonsing H h HH)) as [x E]. cbn [Nat.add]. rewrite E. eauto.
  - exists Q, g. exact E.
Qed.

(** ** Constant loads *)
Section Constant.
  Variables (tl : list R) (p : nat) (q : R).
  Hypothesis G : grid tl.
  Hypothesis Hp : (p < length tl)%nat.
  Local Notation tp := (firstn (S p) tl).
  Variable past : list R.
  Hypothesis Lp : length past = S p.
  Hypothesis P1 : forall k, (k < p)%nat -> nth k past 0 = q.
  Hypothesis P0 : nth p past 0 = 0.

  Lemma const_heat x : 0 <= x <= at_time tl (S p) -> heat_between tp past 0 x = q * Rmin x (at_time tl p).
  Proof.
    intros B. destruct (firstn_grid tl p G Hp) as [Gp Lt].
    assert (E : end_time tp = at_time tl (S p)) by (unfold end_time; rewrite Lt; apply firstn_at; auto).
    destruct (grid_cell tp x Gp ltac:(rewrite E; auto)) as [k [Hk Bk]]. rewrite Lt in Hk.
    rewrite (heat_cell tp past x k) by (auto; lia). rewrite !firstn_at in Bk by lia.
    rewrite (sumn_ext k _ (fun i => q * (at_time tl (S i) - at_time tl i))) by (intros i Hi; rewrite P1, !firstn_at by lia; auto).
    rewrite sumn_scal, (sumn_telescope k (at_time tl)), at_zero. rewrite firstn_at by lia.
    destruct (Nat.eq_dec k p) as [->|N].
    - rewrite P0. rewrite Rmin_right by lra. ring.
    - rewrite P1 by lia. pose proof (grid_le tl G (S k) p ltac:(lia) ltac:(lia)). rewrite Rmin_left by lra. ring.
  Qed.

  Lemma const_rev k : (k <= S p)%nat -> reversed_time tp k = at_time tl (S p) - at_time tl (S p - k).
  Proof.
    intros Hk. destruct (firstn_grid tl p G Hp) as [Gp Lt]. unfold reversed_time, end_time. rewrite Lt. rewrite !firstn_at by lia. auto.
  Qed.

  Lemma const_mean k : (k <= p)%nat ->
    mean_load tp past k = q * ((Rmin (at_time tl (S p) - at_time tl (p - k)) (at_time tl p) - Rmin (at_time tl (S p) - at_time tl (S p - k)) (at_time tl p))
                               / (at_time tl (S p - k) - at_time tl (p - k))).
  Proof.
    intros Hk. destruct (firstn_grid tl p G Hp) as [Gp Lt]. unfold mean_load.
    pose proof (rev_time_range tp k Gp ltac:(lia)) as R1. pose proof (rev_time_range tp (S k) Gp ltac:(lia)) as R2. pose proof (rev_time_lt tp k Gp ltac:(lia)) as R3.
    assert (E : end_time tp = at_time tl (S p)) by (unfold end_time; rewrite Lt; apply firstn_at; auto). rewrite E in R1, R2.
    rewrite heat_diff by (auto; lra). rewrite !const_heat by lra. rewrite !const_rev in * by lia.
    replace (S p - S k)%nat with (p - k)%nat in * by lia. field. lra.
  Qed.

  (** the mean loads in terms of the cell [c] of the length of the last step *)
  Variable c : nat.
  Hypothesis Hc : (c <= p)%nat.
  Hypothesis Bc : at_time tl c <= at_time tl (S p) - at_time tl p <= at_time tl (S c).
  Definition frac : R := (at_time tl (S c) - (at_time tl (S p) - at_time tl p)) / (at_time tl (S c) - at_time tl c).

  Lemma const_mean_cell k : (k <= p)%nat ->
    mean_load tp past k = q * (if (k <? p - c)%nat then 1 else if (k =? p - c)%nat then frac else 0).
  Proof.
    intros Hk. rewrite const_mean by auto. f_equal. pose proof (grid_lt tl G (p - k) (S p - k) ltac:(lia) ltac:(lia)) as D.
    destruct (Nat.ltb_spec k (p - c)) as [L|L].
    - pose proof (grid_le tl G (S c) (p - k) ltac:(lia) ltac:(lia)). rewrite !Rmin_left by lra. field. lra.
    - destruct (Nat.eqb_spec k (p - c)) as [->|N].
      + replace (p - (p - c))%nat with c in * by lia. replace (S p - (p - c))%nat with (S c) in * by lia. rewrite Rmin_right by lra. rewrite Rmin_left by lra.
        unfold frac. f_equal. lra.
      + pose proof (grid_le tl G (S p - k) c ltac:(lia) ltac:(lia)). rewrite !Rmin_right by lra. field. lra.
  Qed.

  Lemma const_sum (f : R -> R) :
    sumn (S p) (fun k => (mean_load tp past k - match k with O => 0 | S l => mean_load tp past l end) * f (at_time tl (S p) - reversed_time tp k))
    = q * (f (at_time tl (S p)) - ((1 - frac) * f (at_time tl (S c)) + frac * match c with O => 0 | S _ => f (at_time tl c) end)).
  Proof.
    set (h := fun k => match (S p - k)%nat with O => 0 | S _ => f (at_time tl (S p - k)) end).
    set (m := fun k => if (k <? p - c)%nat then 1 else if (k =? p - c)%nat then frac else 0).
    assert (A : forall j, (j <= p)%nat -> sumn (S j) (fun k => (mean_load tp past k - match k with O => 0 | S l => mean_load tp past l end) * f (at_time tl (S p) - reversed_time tp k))
                = q * (sumn (S j) (fun k => m k * (h k - h (S k))) + m j * h (S j))).
    { induction j as [|j IH]; intros Hj.
      - cbn [sumn]. rewrite const_mean_cell by lia. rewrite const_rev by lia. fold (m O). replace (at_time tl (S p) - (at_time tl (S p) - at_time tl (S p - 0))) with (at_time tl (S p - 0)) by ring.
        unfold h. replace (S p - 0)%nat with (S p) by lia. ring.
      - change (sumn (S (S j)) ?F) with (sumn (S j) F + F (S j)). cbv beta. rewrite IH by lia. rewrite !const_mean_cell by lia. fold (m j). fold (m (S j)). rewrite const_rev by lia.
        replace (at_time tl (S p) - (at_time tl (S p) - at_time tl (S p - S j))) with (at_time tl (S p - S j)) by ring.
        assert (Hh : f (at_time tl (S p - S j)) = h (S j)) by (unfold h; destruct (S p - S j)%nat eqn:E; [lia|auto]). rewrite Hh. ring. }
    rewrite (A p) by lia. f_equal.
    replace (h (S p)) with 0 by (unfold h; rewrite Nat.sub_diag; auto). rewrite Rmult_0_r, Rplus_0_r.
    replace (S p) with ((p - c) + S c)%nat by lia. rewrite sumn_split.
    rewrite (sumn_ext (p - c) _ (fun k => - (h (S k) - h k))) by (intros k Hk; unfold m; destruct (Nat.ltb_spec k (p - c)); [ring|lia]).
    rewrite sumn_opp, (sumn_telescope (p - c) h). rewrite sumn_S_l. rewrite Nat.add_0_r.
    rewrite (sumn_zero c) by (intros i Hi; unfold m; destruct (Nat.ltb_spec (p - c + S i) (p - c)); [lia|]; destruct (Nat.eqb_spec (p - c + S i) (p - c)); [lia|ring]).
    replace (m (p - c)%nat) with frac by (unfold m; rewrite Nat.ltb_irrefl, Nat.eqb_refl; auto).
    unfold h. replace (p - c + S c)%nat with (S p) by lia. replace (S p - 0)%nat with (S p) by lia. replace (S p - (p - c))%nat with (S c) by lia. replace (S p - S (p - c))%nat with c by lia.
    ring.
  Qed.
End Constant.

Lemma superposed_constant n resp tl Q p i T (q : nat -> R) : grid tl -> length Q = length tl -> (p < length tl)%nat ->
  (forall k j, (k <= p)%nat -> (j < n)%nat -> nth k Q (fun _ => 0) j = q j) ->
  superposed n resp tl Q p i T -> T = sumn n (fun j => q j * resp i j (at_time tl (S p))).
Proof.
  intros G LQ Hp HQ [now [N ->]]. rewrite <- sumn_plus. apply sumn_ext. intros j Hj. rewrite HQ by auto.
  set (past := map (fun v => v j) (firstn p Q) ++ [0]).
  assert (Lp : length past = S p) by (unfold past; rewrite app_length, map_length, firstn_length; cbn [length]; lia).
  assert (P1 : forall k, (k < p)%nat -> nth k past 0 = q j).
  { intros k Hk. unfold past. rewrite past_nth by lia. destruct (Nat.ltb_spec k p); [|lia]. apply HQ; auto. lia. }
  assert (P0 : nth p past 0 = 0) by (unfold past; rewrite past_nth by lia; rewrite Nat.ltb_irrefl; auto).
  destruct (N j Hj) as [c [Hc [Bc V]]]. cbv zeta in V.
  destruct (Nat.le_gt_cases c p) as [Lc|Lc].
  - rewrite (const_sum tl p (q j) G Hp past Lp P1 P0 c Lc Bc (resp i j)). rewrite V. unfold frac.
    pose proof (grid_lt tl G c (S c) ltac:(lia) ltac:(lia)). destruct c; field; lra.
  - (* the last step is the whole time *)
    pose proof (grid_le tl G (S p) c ltac:(lia) ltac:(lia)) as K1. pose proof (grid_le tl G O p ltac:(lia) ltac:(lia)) as K2. rewrite at_zero in K2.
    assert (Z : at_time tl p = 0) by lra. assert (p = O). { destruct p as [|p']; auto. pose proof (grid_lt tl G O (S p') ltac:(lia) ltac:(lia)) as K3. rewrite at_zero in K3. lra. }
    subst p. rewrite at_zero in *. cbn [sumn]. assert (C : at_time tl c = at_time tl 1) by lra.
    assert (M : mean_load (firstn 1 tl) past 0 = 0).
    { rewrite (const_mean tl O (q j) G Hp past Lp P1 P0 O ltac:(lia)). cbn [Nat.sub]. pose proof (grid_lt tl G O 1 ltac:(lia) ltac:(lia)) as K4. rewrite at_zero in *. rewrite !Rmin_right by lra. unfold Rdiv. ring. }
    rewrite M. rewrite V. destruct c as [|c]; [lia|]. rewrite C. replace (at_time tl 1 - 0 - at_time tl 1) with 0 by ring. unfold Rdiv. ring.
Qed.

Lemma solve_nonsingular n M b x : lin_solve n M b = Some x -> nonsingular n M.
Proof.
  intros E. destruct (lin_solve_nonsing n M b x E (fun _ => 0)) as [x' E']. 
  assert (I : exists X, inv_mx n M = Some X) by (unfold inv_mx, lin_solve_mx; rewrite E'; eauto).
  destruct I as [X I]. exact (inv_nonsingular n M X I).
Qed.

(** sources that all feel the same sum of responses *)
Lemma uniform_rows n (H : vec) resp time Q g : (0 < n)%nat -> grid time -> solve_ubwt n H (on_grid resp) time 0 = Some (Q, g) ->
  (forall k i, (k < length time)%nat -> (i < n)%nat -> sumn n (fun j => resp i j (nth k time 0)) = sumn n (fun j => resp O j (nth k time 0))) ->
  forall p, (p < length time)%nat -> (forall i, (i < n)%nat -> nth p Q zero_vec i = 1) /\ nth p g 0 = sumn n (fun j => resp O j (nth p time 0)).
Proof.
  intros Hn G E U. pose proof (ubwt_lengths _ _ _ _ _ _ _ E) as [LQ Lg].
  pose proof E as ER. rewrite ubwt_zero in ER by (apply grid_positive; auto). destruct (run_length _ _ _ _ _ _ 0 ER) as [_ [_ K]].
  intros p. induction p as [p IH] using lt_wf_ind. intros Hp.
  destruct (K p Hp) as [h [T [E1 E2]]].
  assert (T1 : forall i, (i < n)%nat -> sumn n (fun j => h i j * 1) + T i = sumn n (fun j => resp O j (nth p time 0))).
  { intros i Hi. set (Q' := firstn p Q ++ repeat (fun _ : nat => 1) (length time - p)).
    assert (LQ' : length Q' = length time) by (unfold Q'; rewrite app_length, firstn_length, repeat_length; lia).
    assert (N1 : forall k j, (k <= p)%nat -> (j < n)%nat -> nth k Q' (fun _ => 0) j = 1).
    { intros k j Hk Hj. unfold Q'. destruct (Nat.lt_ge_cases k p) as [L|L].
      - rewrite app_nth1 by (rewrite firstn_length; lia). rewrite nth_firstn by auto. apply (IH k L ltac:(lia)); auto.
      - rewrite app_nth2 by (rewrite firstn_length; lia). rewrite firstn_length. replace (k - Nat.min p (length Q))%nat with O by lia.
        destruct (length time - p)%nat eqn:D; [lia|]. reflexivity. }
    assert (F : firstn p Q' = firstn p Q). { unfold Q'. rewrite firstn_app, firstn_firstn, Nat.min_id, firstn_length. replace (p - Nat.min p (length Q))%nat with O by lia. cbn [firstn]. apply app_nil_r. }
    pose proof (step_superposed n resp time p Q' h T i Hn G Hp LQ' ltac:(rewrite F; exact E1)) as S.
    rewrite (sumn_ext n _ (fun j => h i j * 1)) in S by (intros j Hj; f_equal; apply N1; auto).
    pose proof (superposed_constant n resp time Q' p i _ (fun _ => 1) G LQ' Hp N1 S) as C. rewrite C. rewrite <- (U p i Hp Hi). apply sumn_ext. intros j Hj. rewrite at_Sn. ring. }
  unfold ubwt_sol in E2. destruct (lin_solve (n + 1) (ubwt_A n H h) (ubwt_B n H T)) as [X|] eqn:EX; [|discriminate]. injection E2 as EQ Eg.
  set (r := sumn n (fun j => resp O j (nth p time 0))) in *.
  assert (X1 : forall i, (i < n + 1)%nat -> X i = if (i <? n)%nat then 1 else r).
  { apply (solution_unique (n + 1) (ubwt_A n H h) (ubwt_B n H T)); [eapply solve_nonsingular; eauto|apply lin_solve_sound; auto|].
    intros i Hi. replace (n + 1)%nat with (S n) by lia. cbn [sumn]. unfold ubwt_A, ubwt_B. rewrite !Nat.ltb_irrefl.
    rewrite (sumn_ext n _ (fun j => (if (i <? n)%nat then h i j else H j) * 1)) by (intros j Hj; destruct (Nat.ltb_spec j n); [auto|lia]).
    destruct (Nat.ltb_spec i n) as [L|L].
    - specialize (T1 i L). lra.
    - unfold H_total. rewrite sumn_scal_r. ring. }
  split.
  - intros i Hi. rewrite <- EQ. destruct (Nat.ltb_spec i n); [|lia]. rewrite X1 by lia. destruct (Nat.ltb_spec i n); [auto|lia].
  - rewrite <- Eg. rewrite X1 by lia. rewrite Nat.ltb_irrefl. auto.
Qed.

(** the diagonal and the cross values of the g-function *)
Lemma cross_diagonal n (H : vec) k_s (Hi : vec) F (Q T : vec) Tin :
  k_s <> 0 -> (forall i, (i < n)%nat -> Hi i = H i /\ H i <> 0) -> f_net_in F <> 0 ->
  f_net_in F = sumn n (f_in F) -> (forall k, (k < n)%nat -> f_net_b F k = sumn n (fun i => f_b F i k)) ->
  sumn n (fun i => H i * Q i) = sumn n H ->
  (forall i, (i < n)%nat -> Q i + f_in F i / (2 * PI * k_s * Hi i) * Tin + sumn n (fun j => f_b F i j / (2 * PI * k_s * Hi i) * T j) = 0) ->
  effective n H k_s F Tin = cross n H k_s F T.
Proof.
  intros Hk HH Ha Ea Eb N E. unfold cross. f_equal. pose proof PI_RGT_0.
  apply (Rmult_eq_reg_r (f_net_in F)); auto. unfold Rdiv. rewrite Rmult_assoc, Rinv_l, Rmult_1_r by auto.
  assert (S : forall i, (i < n)%nat -> 2 * PI * k_s * (H i * Q i) + f_in F i * Tin + sumn n (fun j => f_b F i j * T j) = 0).
  { intros i Hi0. destruct (HH i Hi0) as [E1 E2]. specialize (E i Hi0). rewrite E1 in E.
    rewrite (sumn_ext n (fun j => f_b F i j / (2 * PI * k_s * H i) * T j) (fun j => / (2 * PI * k_s * H i) * (f_b F i j * T j))) in E by (intros; unfold Rdiv; ring).
    rewrite sumn_scal in E.
    assert (Z : 2 * PI * k_s * H i <> 0) by (apply Rmult_integral_contrapositive_currified; auto; apply Rmult_integral_contrapositive_currified; auto; lra).
    apply (f_equal (Rmult (2 * PI * k_s * H i))) in E. rewrite Rmult_0_r in E. rewrite <- E. field. repeat split; auto; lra. }
  pose proof (sumn_ext n _ (fun _ => 0) S) as SS. rewrite (sumn_zero n (fun _ => 0)) in SS by auto.
  rewrite !sumn_plus, !sumn_scal, N in SS. rewrite sumn_scal_r in SS. rewrite <- Ea in SS.
  rewrite (sumn_swap n n (fun i j => f_b F i j * T j)) in SS.
  rewrite (sumn_ext n (fun j => sumn n (fun i => f_b F i j * T j)) (fun j => f_net_b F j * T j)) in SS.
  - unfold H_total. lra.
  - intros j Hj. rewrite sumn_scal_r. rewrite Eb by auto. ring.
Qed.

(** several mass flow rates, one source *)
Lemma mift_one_nonsing (H : vec) k_s (Hi : vec) F h : H O <> 0 -> k_s <> 0 -> Hi O <> 0 -> f_in F O <> 0 -> nonsingular 3 (mift_A 1 H k_s Hi F h).
Proof.
  intros HH Hk HHi Ha x E i Hi0. pose proof (E 0%nat ltac:(lia)) as E0. pose proof (E 1%nat ltac:(lia)) as E1. pose proof (E 2%nat ltac:(lia)) as E2.
  unfold mift_A, id_mx in *. cbn in E0, E1, E2. pose proof PI_RGT_0.
  assert (X0 : x O = 0) by (apply (Rmult_eq_reg_l (H O)); auto; lra). rewrite X0 in *.
  assert (X1 : x 1%nat = 0) by lra. rewrite X1 in *.
  assert (Z : f_in F O / (2 * PI * k_s * Hi O) <> 0).
  { unfold Rdiv. apply Rmult_integral_contrapositive_currified; auto. apply Rinv_neq_0_compat.
    apply Rmult_integral_contrapositive_currified; auto. apply Rmult_integral_contrapositive_currified; auto. lra. }
  assert (X2 : x 2%nat = 0) by (apply (Rmult_eq_reg_l (f_in F O / (2 * PI * k_s * Hi O))); auto; lra).
  destruct i as [|[|[|i]]]; auto; lia.
Qed.

Lemma mift_one_some (H : vec) resp k_s (Hi : vec) Fs time : H O <> 0 -> k_s <> 0 -> Hi O <> 0 -> (forall F, In F Fs -> f_in F O <> 0) -> grid time ->
  exists rs, runs_of 1 H (on_grid resp) k_s Hi Fs time = Some rs.
Proof.
  intros HH Hk HHi Ha G. unfold runs_of. induction Fs as [|F Fs IH]; [exists []; auto|].
  destruct IH as [rs E]; [intros; apply Ha; right; auto|]. cbn [map all_some].
  destruct (run_some 1 resp (mift_sol 1 H k_s Hi F) time G) as [r Er].
  - intros h T. unfold mift_sol. destruct (lin_solve_some 3 (mift_A 1 H k_s Hi F h) (mift_B 1 H T) (mift_one_nonsing H k_s Hi F h HH Hk HHi (Ha F (or_introl eq_refl)))) as [x Ex].
    cbn [Nat.add Nat.mul]. rewrite Ex. eauto.
  - rewrite Er, E. eauto.
Qed.

(** ** Existence of the solution *)
Lemma run_some_if n resp {O} (sol : Mx -> vec -> option (vec * O)) tl : grid tl ->
  (forall p h T, (p < length tl)%nat -> (forall i j, interpolated tl (resp i j) (at_time tl (S p) - at_time tl p) (h i j)) -> exists r, sol h T = Some r) ->
  exists r, grun n (on_grid resp) sol tl (seq 0 (length tl)) ([], []) = Some r.
Proof.
  intros G S. assert (K : forall m p (qs : list vec) (os : list O), length qs = p -> (p + m <= length tl)%nat -> exists r, grun n (on_grid resp) sol tl (seq p m) (qs, os) = Some r).
  { induction m as [|m IH]; intros p qs os Lq Lm; cbn [seq grun]; [eauto|]. cbn [fst snd].
    destruct (step_some n resp tl p qs G ltac:(lia) Lq) as [h [T [E [I _]]]]. rewrite E. destruct (S p h T ltac:(lia) I) as [[q o] Eo]. rewrite Eo.
    apply IH; [rewrite app_length; simpl; lia|lia]. }
  apply (K (length tl) 0%nat [] []); simpl; lia.
Qed.

Lemma ubwt_nonsing n (H : vec) h : (0 < n)%nat -> definite n H h -> nonsingular (n + 1) (ubwt_A n H h).
Proof.
  intros Hn D x E. replace (n + 1)%nat with (S n) in * by lia.
  assert (E1 : forall i, (i < n)%nat -> sumn n (fun j => h i j * x j) = x n).
  { intros i Hi. specialize (E i ltac:(lia)). cbn [sumn] in E. unfold ubwt_A in E. destruct (Nat.ltb_spec i n); [|lia].
    rewrite (sumn_ext n _ (fun j => h i j * x j)) in E by (intros j Hj; destruct (Nat.ltb_spec j n); [auto|lia]). rewrite Nat.ltb_irrefl in E. lra. }
  assert (E2 : sumn n (fun i => H i * x i) = 0).
  { specialize (E n ltac:(lia)). cbn [sumn] in E. unfold ubwt_A in E. rewrite Nat.ltb_irrefl in E.
    rewrite (sumn_ext n _ (fun j => H j * x j)) in E by (intros j Hj; destruct (Nat.ltb_spec j n); [auto|lia]). lra. }
  assert (Z : forall i, (i < n)%nat -> x i = 0).
  { intros i Hi. destruct (Req_dec (x i) 0) as [|N]; auto. exfalso. pose proof (D x (ex_intro _ i (conj Hi N))) as P.
    rewrite (sumn_ext n _ (fun i => H i * x i * x n)) in P by (intros k Hk; rewrite E1 by auto; auto).
    rewrite sumn_scal_r, E2 in P. lra. }
  intros i Hi. destruct (Nat.eq_dec i n) as [->|]; [|apply Z; lia].
  rewrite <- (E1 O Hn). apply sumn_zero. intros j Hj. rewrite Z by auto. ring.
Qed.

(** a positive step, hence a weight in the cell *)
Lemma interpolated_definite n H resp tl d h : grid tl -> 0 < d -> 
  (forall t, In t tl -> definite n H (fun i j => resp i j t)) ->
  (exists c, (c < length tl)%nat /\ at_time tl c <= d <= at_time tl (S c) /\
     forall i j, h i j = (let f0 := match c with O => 0 | S _ => resp i j (at_time tl c) end in f0 + (resp i j (at_time tl (S c)) - f0) * ((d - at_time tl c) / (at_time tl (S c) - at_time tl c)))) ->
  definite n H h.
Proof.
  intros G Pd D [c [Hc [B V]]] x Hx. pose proof (grid_lt tl G c (S c) ltac:(lia) ltac:(lia)) as L.
  set (w := (d - at_time tl c) / (at_time tl (S c) - at_time tl c)) in *.
  assert (W : 0 <= w <= 1). { unfold w. split; [apply Rmult_le_pos; [lra|left; apply Rinv_0_lt_compat; lra]|]. apply (Rmult_le_reg_r (at_time tl (S c) - at_time tl c)); [lra|]. unfold Rdiv. rewrite Rmult_assoc, Rinv_l by lra. lra. }
  set (q := fun M : nat -> nat -> R => sumn n (fun i => H i * x i * sumn n (fun j => M i j * x j))).
  change (0 < q h).
  assert (I1 : In (at_time tl (S c)) tl) by (rewrite at_Sn; apply nth_In; auto).
  pose proof (D _ I1 x Hx) as P1. change (0 < q (fun i j => resp i j (at_time tl (S c)))) in P1.
  destruct c as [|c].
  - assert (Ww : 0 < w) by (unfold w; rewrite at_zero in *; apply Rdiv_lt_0_compat; lra).
    assert (Q : q h = w * q (fun i j => resp i j (at_time tl 1))).
    { unfold q. rewrite <- sumn_scal. apply sumn_ext. intros i Hi. rewrite (sumn_ext n _ (fun j => w * (resp i j (at_time tl 1) * x j))) by (intros j Hj; rewrite V; cbv zeta; ring). rewrite sumn_scal. ring. }
    rewrite Q. apply Rmult_lt_0_compat; auto.
  - assert (I2 : In (at_time tl (S c)) tl) by (rewrite at_Sn; apply nth_In; lia).
    pose proof (D _ I2 x Hx) as P2. change (0 < q (fun i j => resp i j (at_time tl (S c)))) in P2.
    assert (Q : q h = w * q (fun i j => resp i j (at_time tl (S (S c)))) + (1 - w) * q (fun i j => resp i j (at_time tl (S c)))).
    { unfold q. rewrite <- !sumn_scal, <- sumn_plus. apply sumn_ext. intros i Hi.
      rewrite (sumn_ext n _ (fun j => w * (resp i j (at_time tl (S (S c))) * x j) + (1 - w) * (resp i j (at_time tl (S c)) * x j))) by (intros j Hj; rewrite V; cbv zeta; ring).
      rewrite sumn_plus, !sumn_scal. ring. }
    rewrite Q. nra.
Qed.

Lemma same_cell tl f d c v : grid tl -> 0 < d -> (c < length tl)%nat -> at_time tl c <= d <= at_time tl (S c) -> interpolated tl f d v ->
  v = (let f0 := match c with O => 0 | S _ => f (at_time tl c) end in f0 + (f (at_time tl (S c)) - f0) * ((d - at_time tl c) / (at_time tl (S c) - at_time tl c))).
Proof.
  intros G Pd Hc B [k [Hk [Bk ->]]]. cbv zeta.
  assert (K : forall a b, (a < b)%nat -> (b < length tl)%nat -> at_time tl a <= d <= at_time tl (S a) -> at_time tl b <= d <= at_time tl (S b) -> b = S a /\ d = at_time tl b).
  { intros a b Lab Lb Ba Bb. pose proof (grid_le tl G (S a) b ltac:(lia) ltac:(lia)). assert (d = at_time tl b) by lra. split; auto.
    destruct (Nat.eq_dec b (S a)); auto. pose proof (grid_lt tl G (S a) b ltac:(lia) ltac:(lia)). lra. }
  destruct (Nat.lt_trichotomy k c) as [L|[->|L]]; auto.
  - destruct (K k c L Hc Bk B) as [-> Ed]. pose proof (grid_lt tl G k (S k) ltac:(lia) ltac:(lia)). pose proof (grid_lt tl G (S k) (S (S k)) ltac:(lia) ltac:(lia)). rewrite Ed. destruct k; field; lra.
  - destruct (K c k L Hk B Bk) as [-> Ed]. pose proof (grid_lt tl G c (S c) ltac:(lia) ltac:(lia)). pose proof (grid_lt tl G (S c) (S (S c)) ltac:(lia) ltac:(lia)). rewrite Ed. destruct c; field; lra.
Qed.

Lemma ubwt_some n (H : vec) resp time : (0 < n)%nat -> grid time -> (forall t, In t time -> definite n H (fun i j => resp i j t)) ->
  exists Q g, solve_ubwt n H (on_grid resp) time 0 = Some (Q, g).
Proof.
  intros Hn G D. rewrite ubwt_zero by (apply grid_positive; auto).
  destruct (run_some_if n resp (ubwt_sol n H) time G) as [[Q g] E].
  - intros p h T Hp I. pose proof (grid_lt time G p (S p) ltac:(lia) ltac:(lia)) as L.
    destruct (I O O) as [c [Hc [Bc _]]].
    assert (Dh : definite n H h).
    { apply (interpolated_definite n H resp time (at_time time (S p) - at_time time p) h G); [lra|auto|]. exists c. split; auto. split; auto.
      intros i j. apply (same_cell time (resp i j) _ c); auto. lra. }
    unfold ubwt_sol. destruct (lin_solve_some (n + 1) (ubwt_A n H h) (ubwt_B n H T) (ubwt_nonsing n H h Hn Dh)) as [x Ex]. rewrite Ex. eauto.
  - exists Q, g. exact E.
Qed.

(** one step: the loads with a uniform temperature are those with the smallest mean temperature *)
Lemma ubwt_below n (H : vec) resp t Q g : (0 < n)%nat -> 0 < t -> solve_ubwt n H (on_grid resp) [t] 0 = Some (Q, g) ->
  definite n H (fun i j => resp i j t) -> (forall i j, (i < n)%nat -> (j < n)%nat -> H i * resp i j t = H j * resp j i t) -> 0 < sumn n H ->
  nth 0 g 0 <= nth 0 (fst (solve_uhtr n H (on_grid resp) [t] 0)) 0.
Proof.
  intros Hn Ht E D Sy HH. assert (G : grid [t]) by (split; [discriminate|]; intros [|k] Hk; unfold at_time; cbn in *; [lra|lia]).
  set (x := nth 0 Q zero_vec).
  assert (W : forall i, (i < n)%nat -> sumn n (fun j => resp i j t * x j) = nth 0 g 0).
  { intros i Hi. pose proof (ubwt_superposed n H resp [t] Q g 0 i Hn G E ltac:(cbn; lia) Hi) as S.
    rewrite (superposed_constant n resp [t] Q 0 i _ x G (proj1 (ubwt_lengths _ _ _ _ _ _ _ E)) ltac:(cbn; lia)) with (2 := S).
    - apply sumn_ext. intros j Hj. unfold at_time. cbn [nth]. ring.
    - intros k j Hk Hj. replace k with O by lia. reflexivity. }
  pose proof (ubwt_normal _ _ _ _ _ _ _ 0 E ltac:(cbn; lia)) as N. fold x in N.
  pose proof (uhtr_values n H (on_grid resp) [t] 0 (proj1 (grid_positive [t] G)) ltac:(cbn; lia)) as V.
  destruct (solve_uhtr n H (on_grid resp) [t] 0) as [gu Tu]. destruct V as [V1 V2]. cbn [fst]. rewrite V2.
  set (q := fun a b : nat -> R => sumn n (fun i => H i * a i * sumn n (fun j => resp i j t * b j))).
  set (e := fun i => 1 - x i).
  assert (S0 : sumn n (fun i => H i * e i) = 0).
  { unfold e. rewrite (sumn_ext n _ (fun i => H i - H i * x i)) by (intros; ring). rewrite sumn_minus, N. change (fun i => H i) with H. ring. }
  assert (S1 : q x x = nth 0 g 0 * sumn n H).
  { unfold q. rewrite (sumn_ext n _ (fun i => (H i * x i) * nth 0 g 0)) by (intros i Hi; rewrite W by auto; ring). rewrite sumn_scal_r, N. ring. }
  assert (S2 : q e x = 0).
  { unfold q. rewrite (sumn_ext n _ (fun i => (H i * e i) * nth 0 g 0)) by (intros i Hi; rewrite W by auto; ring). rewrite sumn_scal_r, S0. ring. }
  assert (S3 : q x e = q e x).
  { unfold q. rewrite (sumn_ext n _ (fun i => sumn n (fun j => H i * x i * (resp i j t * e j)))) by (intros; rewrite sumn_scal; auto).
    rewrite sumn_swap. apply sumn_ext. intros j Hj. rewrite <- sumn_scal. apply sumn_ext. intros i Hi. pose proof (Sy i j Hi Hj) as K.
    transitivity (x i * e j * (H i * resp i j t)); [ring|]. rewrite K. ring. }
  assert (S4 : 0 <= q e e).
  { destruct (List.Exists_dec (fun i => e i <> 0) (seq 0 n)) as [X|X].
    - intros i. destruct (Req_EM_T (e i) 0); [right|left]; auto.
    - apply List.Exists_exists in X. destruct X as [i [Hi Ei]]. apply in_seq in Hi. left. apply D. exists i. split; auto. lia.
    - right. symmetry. apply sumn_zero. intros i Hi. assert (e i = 0); [|rewrite H0; ring]. destruct (Req_dec (e i) 0); auto. exfalso. apply X. apply List.Exists_exists. exists i. split; auto. apply in_seq. lia. }
  assert (S5 : sumn n (fun i => H i * nth 0 Tu zero_vec i) = q x x + q x e + (q e x + q e e)).
  { unfold q. rewrite <- !sumn_plus. apply sumn_ext. intros i Hi. rewrite V1. unfold on_grid. cbn [nth].
    rewrite (sumn_ext n (fun j => resp i j t) (fun j => resp i j t * x j + resp i j t * e j)) by (intros; unfold e; ring). rewrite sumn_plus. set (B := sumn n (fun j => resp i j t * e j)). unfold e. ring. }
  rewrite S5, S1, S2, S3, S2. apply (Rmult_le_reg_r (sumn n H)); auto. unfold Rdiv. rewrite Rmult_assoc, Rinv_l by lra. lra.
Qed.

Lemma effective_meets n H k_s F Tin g : f_mcp F <> 0 -> g = effective n H k_s F Tin -> effective_temperature n H k_s F Tin g.
Proof.
  intros N ->. exists (Tin - 2 * PI * k_s * H_total n H / f_mcp F). unfold effective, H_total. split; [field; auto|]. cbv zeta. lra.
Qed.
Lemma cross_meets n H k_s F T : f_mcp F <> 0 -> f_net_in F <> 0 ->
  exists Tin, effective_temperature n H k_s F Tin (cross n H k_s F T) /\ f_net_in F * Tin + sumn n (fun j => f_net_b F j * T j) = - (2 * PI * k_s * sumn n H).
Proof.
  intros N1 N2. unfold cross. eexists. split; [apply effective_meets; [auto|reflexivity]|]. unfold H_total. field. auto.
Qed.
