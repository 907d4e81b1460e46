(** The mixed inlet temperature of sources that are gathered into classes. *)
From Verif Require Import Base LinAlg Net_Model Solve_Model Solve_Spec Solve_Loop_Proofs Solve_Rec_Proofs Solve_Eq_Proofs Solve_Sol_Proofs Solve_Extra_Proofs Eq_Lump_Proofs.

Section MiftLump.
  Variables (N K : nat) (c : nat -> nat) (H H' Hi Hi' : vec) (resp resp' : nat -> nat -> R -> R) (time : list R) (k_s : R).
  Hypothesis Cl : forall x, (x < N)%nat -> (c x < K)%nat.
  Hypothesis Co : forall i, (i < K)%nat -> exists x, (x < N)%nat /\ c x = i.
  Hypothesis Lp : forall t y i, In t time -> (y < N)%nat -> (i < K)%nat -> cls N c (fun x => resp y x t) i = resp' (c y) i t.
  Hypothesis Lh : forall i, (i < K)%nat -> cls N c H i = H' i.
  Hypothesis Li : forall x, (x < N)%nat -> Hi x = Hi' (c x).
  Hypothesis G : grid time.
  Hypothesis Np : (0 < N)%nat.

  (** the coefficients of the network of the classes *)
  Definition lumped (F F' : flow) : Prop :=
    (forall x, (x < N)%nat -> f_in F x = f_in F' (c x)) /\
    (forall x i, (x < N)%nat -> (i < K)%nat -> cls N c (f_b F x) i = f_b F' (c x) i) /\
    f_net_in F = f_net_in F' /\ (forall i, (i < K)%nat -> cls N c (f_net_b F) i = f_net_b F' i) /\ f_mcp F = f_mcp F' /\ f_R F = f_R F'.

  (** what a vector of unknowns of the classes is for the sources *)
  Definition spread (x : nat -> R) (j : nat) : R := if Nat.ltb j N then x (c j) else if Nat.ltb j (2 * N) then x (K + c (j - N))%nat else x (2 * K)%nat.

  Lemma spread_lo x j : (j < N)%nat -> spread x j = x (c j).
  Proof. intros Hj. unfold spread. destruct (Nat.ltb_spec j N); [auto|lia]. Qed.
  Lemma spread_mid x j : (j < N)%nat -> spread x (N + j) = x (K + c j)%nat.
  Proof. intros Hj. unfold spread. destruct (Nat.ltb_spec (N + j) N); [lia|]. destruct (Nat.ltb_spec (N + j) (2 * N)); [f_equal; f_equal; f_equal; lia|lia]. Qed.
  Lemma spread_hi x : spread x (2 * N) = x (2 * K)%nat.
  Proof. unfold spread. destruct (Nat.ltb_spec (2 * N) N); [lia|]. rewrite Nat.ltb_irrefl. auto. Qed.

  (** rows of the system *)
  Lemma rows n (H0 Hi0 : vec) (F : flow) (h : Mx) (X : vec) :
    (forall i, (i < n)%nat -> sumn (2 * n + 1) (fun j => mift_A n H0 k_s Hi0 F h i j * X j) = sumn n (fun j => h i j * X j) - X (n + i)%nat) /\
    (forall i, (i < n)%nat -> sumn (2 * n + 1) (fun j => mift_A n H0 k_s Hi0 F h (n + i)%nat j * X j)
       = X i + / (2 * PI * k_s * Hi0 i) * sumn n (fun j => f_b F i j * X (n + j)%nat) + f_in F i / (2 * PI * k_s * Hi0 i) * X (2 * n)%nat) /\
    sumn (2 * n + 1) (fun j => mift_A n H0 k_s Hi0 F h (2 * n)%nat j * X j) = sumn n (fun j => H0 j * X j).
  Proof.
    unfold mift_A. split; [|split].
    - intros i Hn. destruct (Nat.ltb_spec i n); [|lia]. rewrite (mift_sum n (h i) (fun j => - id_mx i j) (fun _ => 0) X).
      rewrite (sumn_ext n (fun j => - id_mx i j * X (n + j)%nat) (fun j => -1 * (id_mx i j * (fun k => X (n + k)%nat) j))) by (intros; ring).
      rewrite sumn_scal, (id_sum n i (fun k => X (n + k)%nat)) by auto. ring.
    - intros i Hn. destruct (Nat.ltb_spec (n + i) n); [lia|]. destruct (Nat.ltb_spec (n + i) (2 * n)); [|lia]. replace (n + i - n)%nat with i by lia.
      rewrite (mift_sum n (id_mx i) (fun j => f_b F i j / (2 * PI * k_s * Hi0 i)) (fun _ => f_in F i / (2 * PI * k_s * Hi0 i)) X). rewrite id_sum by auto. f_equal. f_equal.
      rewrite <- sumn_scal. apply sumn_ext. intros; unfold Rdiv; ring.
    - destruct (Nat.ltb_spec (2 * n) n); [lia|]. rewrite Nat.ltb_irrefl.
      rewrite (sumn_ext (2 * n + 1) _ (fun j => (if (j <? n)%nat then H0 j else if (j <? 2 * n)%nat then (fun _ => 0) (j - n)%nat else (fun _ => 0) j) * X j)).
      + rewrite (mift_sum n H0 (fun _ => 0) (fun _ => 0) X). rewrite (sumn_zero n (fun j => 0 * X (n + j)%nat)) by (intros; ring). ring.
      + intros j Hj. destruct (j <? n)%nat; auto. destruct (j <? 2 * n)%nat; auto.
  Qed.

  (** a row of the sources is the row of its class *)
  Lemma spread_rows F F' h h' x : lumped F F' -> (forall y i, (y < N)%nat -> (i < K)%nat -> cls N c (h y) i = h' (c y) i) ->
    (forall i, (i < N)%nat -> sumn (2 * N + 1) (fun j => mift_A N H k_s Hi F h i j * spread x j) = sumn (2 * K + 1) (fun j => mift_A K H' k_s Hi' F' h' (c i) j * x j)) /\
    (forall i, (i < N)%nat -> sumn (2 * N + 1) (fun j => mift_A N H k_s Hi F h (N + i)%nat j * spread x j) = sumn (2 * K + 1) (fun j => mift_A K H' k_s Hi' F' h' (K + c i)%nat j * x j)) /\
    sumn (2 * N + 1) (fun j => mift_A N H k_s Hi F h (2 * N)%nat j * spread x j) = sumn (2 * K + 1) (fun j => mift_A K H' k_s Hi' F' h' (2 * K)%nat j * x j).
  Proof.
    intros [L1 [L2 _]] Eh. destruct (rows N H Hi F h (spread x)) as [A1 [A2 A3]]. destruct (rows K H' Hi' F' h' x) as [B1 [B2 B3]].
    split; [|split].
    - intros i Hn. rewrite A1, B1 by auto. rewrite spread_mid by auto. f_equal.
      rewrite (sumn_ext N _ (fun j => h i j * x (c j))) by (intros j Hj; rewrite spread_lo; auto). rewrite (cls_sum N K c Cl (h i) x). apply sumn_ext. intros j Hj. rewrite Eh; auto.
    - intros i Hn. rewrite A2, B2 by auto. rewrite spread_lo, spread_hi by auto. rewrite L1, Li by auto. f_equal. f_equal. f_equal.
      rewrite (sumn_ext N _ (fun j => f_b F i j * (fun k => x (K + k)%nat) (c j))) by (intros j Hj; rewrite spread_mid; auto).
      rewrite (cls_sum N K c Cl (f_b F i) (fun k => x (K + k)%nat)). apply sumn_ext. intros j Hj. rewrite L2; auto.
    - rewrite A3, B3. rewrite (sumn_ext N _ (fun j => H j * x (c j))) by (intros j Hj; rewrite spread_lo; auto). rewrite (cls_sum N K c Cl H x). apply sumn_ext. intros j Hj. rewrite Lh; auto.
  Qed.

  Lemma index_cases n i : (i < 2 * n + 1)%nat -> (i < n)%nat \/ (exists j, (j < n)%nat /\ i = (n + j)%nat) \/ i = (2 * n)%nat.
  Proof. intros. destruct (Nat.lt_ge_cases i n); auto. right. destruct (Nat.lt_ge_cases i (2 * n)); [left; exists (i - n)%nat; lia|right; lia]. Qed.

  Lemma spread_solves F F' h h' T T' x : lumped F F' -> (forall y i, (y < N)%nat -> (i < K)%nat -> cls N c (h y) i = h' (c y) i) -> (forall y, (y < N)%nat -> T y = T' (c y)) ->
    (forall i, (i < 2 * K + 1)%nat -> sumn (2 * K + 1) (fun j => mift_A K H' k_s Hi' F' h' i j * x j) = mift_B K H' T' i) ->
    forall i, (i < 2 * N + 1)%nat -> sumn (2 * N + 1) (fun j => mift_A N H k_s Hi F h i j * spread x j) = mift_B N H T i.
  Proof.
    intros Lu Eh ET S i Hn. destruct (spread_rows F F' h h' x Lu Eh) as [A1 [A2 A3]]. unfold mift_B in *.
    destruct (index_cases N i Hn) as [L|[[j [L ->]]| ->]].
    - rewrite A1 by auto. pose proof (Cl i L). rewrite S by lia. destruct (Nat.ltb_spec i N); [|lia]. destruct (Nat.ltb_spec (c i) K); [|lia]. rewrite ET; auto.
    - rewrite A2 by auto. pose proof (Cl j L). rewrite S by lia. destruct (Nat.ltb_spec (N + j) N); [lia|]. destruct (Nat.ltb_spec (N + j) (2 * N)); [|lia].
      destruct (Nat.ltb_spec (K + c j) K); [lia|]. destruct (Nat.ltb_spec (K + c j) (2 * K)); [auto|lia].
    - rewrite A3, S by lia. destruct (Nat.ltb_spec (2 * N) N); [lia|]. destruct (Nat.ltb_spec (2 * K) K); [pose proof (Cl O Np); lia|]. rewrite !Nat.ltb_irrefl. unfold H_total. symmetry. apply (lump_total N K c); auto.
  Qed.

  Lemma spread_nonsing F F' h h' : lumped F F' -> (forall y i, (y < N)%nat -> (i < K)%nat -> cls N c (h y) i = h' (c y) i) ->
    nonsingular (2 * N + 1) (mift_A N H k_s Hi F h) -> nonsingular (2 * K + 1) (mift_A K H' k_s Hi' F' h').
  Proof.
    intros Lu Eh NS x Sx i Hn. destruct (spread_rows F F' h h' x Lu Eh) as [A1 [A2 A3]].
    assert (Z : forall k, (k < 2 * N + 1)%nat -> sumn (2 * N + 1) (fun j => mift_A N H k_s Hi F h k j * spread x j) = 0).
    { intros k Hk. destruct (index_cases N k Hk) as [L|[[j [L ->]]| ->]]; [rewrite A1 by auto|rewrite A2 by auto|rewrite A3]; apply Sx; try (pose proof (Cl _ L)); lia. }
    pose proof (NS (spread x) Z) as All. destruct (index_cases K i Hn) as [L|[[j [L ->]]| ->]].
    - destruct (Co i L) as [y [Hy <-]]. rewrite <- spread_lo by auto. apply All. lia.
    - destruct (Co j L) as [y [Hy <-]]. rewrite <- spread_mid by auto. apply All. lia.
    - rewrite <- spread_hi. apply All. lia.
  Qed.

  (** the steps of a flow: loads, wall temperatures and g-function of the classes *)
  Lemma lump_run F F' a b : lumped F F' -> grun N (on_grid resp) (mift_sol N H k_s Hi F) time (seq 0 (length time)) ([], []) = Some (a, b) ->
    exists a' b', grun K (on_grid resp') (mift_sol K H' k_s Hi' F') time (seq 0 (length time)) ([], []) = Some (a', b') /\
      length b = length time /\ length b' = length time /\
      forall p, (p < length time)%nat -> (forall x, (x < N)%nat -> nth p a zero_vec x = nth p a' zero_vec (c x)) /\
        (forall x, (x < N)%nat -> fst (nth p b (zero_vec, 0)) x = fst (nth p b' (zero_vec, 0)) (c x)) /\ snd (nth p b (zero_vec, 0)) = snd (nth p b' (zero_vec, 0)).
  Proof.
    intros Lu E. destruct (run_length _ _ _ _ _ _ (zero_vec, 0) E) as [La [Lb A]].
    assert (Ex : exists r, grun K (on_grid resp') (mift_sol K H' k_s Hi' F') time (seq 0 (length time)) ([], []) = Some r).
    { apply run_some_if; auto. intros p h' T' Hp I'. destruct (A p Hp) as [h [T [E1 E2]]].
      destruct (step_some N resp time p (firstn p a) G Hp ltac:(rewrite firstn_length; lia)) as [h0 [T0 [E0 [I _]]]]. rewrite E1 in E0. injection E0 as <- <-.
      pose proof (lump_h N K c resp resp' time Lp G Np p h h' Hp I I') as Eh. unfold mift_sol in *. destruct (lin_solve (2 * N + 1) (mift_A N H k_s Hi F h) (mift_B N H T)) as [X|] eqn:EX; [|discriminate].
      pose proof (spread_nonsing F F' h h' Lu Eh (solve_nonsingular _ _ _ _ EX)) as NS. destruct (lin_solve_some _ _ (mift_B K H' T') NS) as [x ->]. eauto. }
    destruct Ex as [[a' b'] E']. exists a', b'. split; auto. destruct (run_length _ _ _ _ _ _ (zero_vec, 0) E') as [La' [Lb' A']]. split; auto. split; auto.
    induction p as [p IH] using lt_wf_ind. intros Hp. destruct (A p Hp) as [h [T [E1 E2]]]. destruct (A' p Hp) as [h' [T' [E1' E2']]].
    destruct (lump_T N K c resp resp' time Cl Lp G Np p (firstn p a) (firstn p a') h T h' T' Hp) as [Eh ET]; auto; try (rewrite firstn_length; lia).
    { intros k x Hk Hx. rewrite !nth_firstn by auto. apply (IH k Hk ltac:(lia)); auto. }
    unfold mift_sol in E2, E2'. destruct (lin_solve (2 * N + 1) (mift_A N H k_s Hi F h) (mift_B N H T)) as [X|] eqn:EX; [|discriminate].
    destruct (lin_solve (2 * K + 1) (mift_A K H' k_s Hi' F' h') (mift_B K H' T')) as [X'|] eqn:EX'; [|discriminate].
    pose proof (spread_solves F F' h h' T T' X' Lu Eh ET (lin_solve_sound _ _ _ _ EX')) as Sy.
    pose proof (solution_unique _ _ _ _ _ (solve_nonsingular _ _ _ _ EX) (lin_solve_sound _ _ _ _ EX) Sy) as U.
    injection E2 as <- <-. injection E2' as <- <-. cbn [fst snd]. split; [|split].
    - intros x Hx. pose proof (Cl x Hx). destruct (Nat.ltb_spec x N); [|lia]. destruct (Nat.ltb_spec (c x) K); [|lia]. rewrite U by lia. apply spread_lo; auto.
    - intros x Hx. pose proof (Cl x Hx). destruct (Nat.ltb_spec x N); [|lia]. destruct (Nat.ltb_spec (c x) K); [|lia]. rewrite U by lia. apply spread_mid; auto.
    - rewrite U by lia. rewrite spread_hi. unfold effective, H_total. destruct Lu as [_ [_ [_ [_ [-> ->]]]]]. rewrite (lump_total N K c H H') by auto. auto.
  Qed.

  Lemma lump_cross F F' T T' : lumped F F' -> (forall x, (x < N)%nat -> T x = T' (c x)) -> cross N H k_s F T = cross K H' k_s F' T'.
  Proof.
    intros [_ [_ [L3 [L4 [L5 L6]]]]] ET. unfold cross, effective, H_total. rewrite L3, L5, L6. rewrite (lump_total N K c H H') by auto.
    replace (sumn N (fun k => f_net_b F k * T k)) with (sumn K (fun k => f_net_b F' k * T' k)); auto.
    rewrite (sumn_ext N _ (fun j => f_net_b F j * T' (c j))) by (intros j Hj; rewrite ET; auto). rewrite (cls_sum N K c Cl (f_net_b F) T'). apply sumn_ext. intros j Hj. rewrite L4; auto.
  Qed.
End MiftLump.

Lemma all_some_def {A} (l : list (option A)) : (forall o, In o l -> o <> None) -> exists r, all_some l = Some r.
Proof.
  induction l as [|[x|] l IH]; intros Hl; cbn; [eauto| |exfalso; apply (Hl None); cbn; auto].
  destruct IH as [r ->]; [intros o Io; apply Hl; right; auto|eauto].
Qed.

(** all the flows *)
Lemma lump_mift N K c H H' Hi Hi' resp resp' k_s Fs Fs' time thr g Q T :
  (forall x, (x < N)%nat -> (c x < K)%nat) -> (forall i, (i < K)%nat -> exists x, (x < N)%nat /\ c x = i) ->
  (forall t y i, In t (time_long time thr) -> (y < N)%nat -> (i < K)%nat -> cls N c (fun x => resp y x t) i = resp' (c y) i t) ->
  (forall i, (i < K)%nat -> cls N c H i = H' i) -> (forall x, (x < N)%nat -> Hi x = Hi' (c x)) -> grid (time_long time thr) -> (0 < N)%nat ->
  Forall2 (lumped N K c) Fs Fs' ->
  solve_mift N H (on_grid resp) k_s Hi Fs time thr = Some (g, Q, T) ->
  exists g' Q' T', solve_mift K H' (on_grid resp') k_s Hi' Fs' time thr = Some (g', Q', T') /\
    forall i j k, (i < length Fs)%nat -> (j < length Fs)%nat -> (k < length time)%nat -> g i j k = g' i j k.
Proof.
  intros Cl Co Lp Lh Li G Np Fl E. rewrite mift_all in E |- *.
  destruct (runs_of N H (on_grid resp) k_s Hi Fs (time_long time thr)) as [rs|] eqn:Er; [|discriminate]. cbv zeta in E |- *.
  assert (LF : length Fs = length Fs') by (clear - Fl; induction Fl; cbn; auto).
  assert (Lm : forall f, (f < length Fs)%nat -> lumped N K c (nth f Fs flow0) (nth f Fs' flow0)).
  { clear - Fl. induction Fl as [|a b l l' Hab Hl IH]; intros f Hf; [cbn in Hf; lia|]. destruct f; cbn [nth]; auto. apply IH. cbn in Hf. lia. }
  assert (Hrs : forall f, (f < length Fs)%nat -> length rs = length Fs /\ grun N (on_grid resp) (mift_sol N H k_s Hi (nth f Fs flow0)) (time_long time thr) (seq 0 (length (time_long time thr))) ([], []) = Some (nth f rs ([], []))).
  { intros f Hf. apply (runs_nth N H (on_grid resp) k_s Hi Fs _ rs f Er Hf). }
  assert (Ex : exists rs', runs_of K H' (on_grid resp') k_s Hi' Fs' (time_long time thr) = Some rs').
  { unfold runs_of. apply all_some_def. intros o Io. apply in_map_iff in Io. destruct Io as [F' [<- IF]]. apply (In_nth _ _ flow0) in IF. destruct IF as [f [Hf <-]].
    destruct (Hrs f ltac:(lia)) as [_ R0]. destruct (nth f rs ([], [])) as [a b].
    destruct (lump_run N K c H H' Hi Hi' resp resp' _ k_s Cl Co Lp Lh Li G Np _ _ a b (Lm f ltac:(lia)) R0) as [a' [b' [E' _]]]. rewrite E'. discriminate. }
  destruct Ex as [rs' Er']. rewrite Er'.
  assert (Hrs' : forall f, (f < length Fs)%nat -> length rs' = length Fs /\ grun K (on_grid resp') (mift_sol K H' k_s Hi' (nth f Fs' flow0)) (time_long time thr) (seq 0 (length (time_long time thr))) ([], []) = Some (nth f rs' ([], []))).
  { intros f Hf. rewrite LF. apply (runs_nth K H' (on_grid resp') k_s Hi' Fs' _ rs' f Er'). lia. }
  set (gd := g_runs N H k_s Fs (p_zero time thr) (map (pad time thr) rs)) in *.
  set (ge := g_runs K H' k_s Fs' (p_zero time thr) (map (pad time thr) rs')) in *.
  assert (Ge : forall i j k, (i < length Fs)%nat -> (j < length Fs)%nat -> gd i j k = ge i j k).
  { intros i j k Hif Hj. destruct (Hrs j Hj) as [L1 R1]. destruct (Hrs' j Hj) as [L2 R2]. unfold gd, ge, g_runs. rewrite !pad_nth by lia.
    destruct (nth j rs ([], [])) as [a b] eqn:Ea. destruct (nth j rs' ([], [])) as [a' b'] eqn:Ea'.
    destruct (lump_run N K c H H' Hi Hi' resp resp' _ k_s Cl Co Lp Lh Li G Np _ _ a b (Lm j Hj) R1) as [a2 [b2 [E2 [Lb [Lb' V]]]]]. rewrite R2 in E2. injection E2 as <- <-.
    unfold pad. cbn [fst snd]. destruct (Nat.eqb_spec i j) as [->|Nij].
    - destruct (Nat.lt_ge_cases k (p_zero time thr)).
      + rewrite !app_nth1 by (rewrite repeat_length; auto). auto.
      + rewrite !app_nth2 by (rewrite repeat_length; auto). rewrite repeat_length. destruct (Nat.lt_ge_cases (k - p_zero time thr) (length (time_long time thr))).
        * rewrite !(nth_map snd _ _ (zero_vec, 0)) by lia. apply V; auto.
        * rewrite !nth_overflow by (rewrite map_length; lia). auto.
    - destruct (Nat.ltb_spec k (p_zero time thr)); auto. rewrite !app_nth2 by (rewrite repeat_length; auto). rewrite repeat_length.
      apply (lump_cross N K c H H'); auto. intros x Hx. destruct (Nat.lt_ge_cases (k - p_zero time thr) (length (time_long time thr))).
      + rewrite !(nth_map fst _ _ (zero_vec, 0)) by lia. apply V; auto.
      + rewrite !nth_overflow by (rewrite map_length; lia). auto. }
  rewrite <- LF. unfold linearise_all in *. destruct (Nat.ltb_spec 0 (p_long time thr)) as [P|P].
  - destruct (Nat.eqb_spec (length Fs) 1) as [O1|O1].
    + injection E as <- _ _. do 3 eexists. split; [reflexivity|]. intros i j k Hif Hj Hk. cbv beta. destruct (k <? p_long time thr)%nat; [|apply Ge; auto]. rewrite Ge by lia. auto.
    + destruct (Nat.eqb_spec (length Fs) (p_long time thr)) as [O2|O2]; [|discriminate].
      injection E as <- _ _. do 3 eexists. split; [reflexivity|]. intros i j k Hif Hj Hk. cbv beta. destruct (Nat.ltb_spec k (p_long time thr)); [|apply Ge; auto]. rewrite Ge by lia. auto.
  - injection E as <- _ _. do 3 eexists. split; [reflexivity|]. intros i j k Hif Hj Hk. apply Ge; auto.
Qed.
