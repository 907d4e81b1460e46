(** Properties of the results of the solver. *)
From Verif Require Import Base LinAlg Bore_Model Net_Model Solve_Model Solve_Spec Solve_Rec_Proofs Solve_Loop_Proofs Solve_Eq_Proofs.

Lemma kept_sorted time thr : sorted time -> sorted (kept time thr).
Proof.
  intros S. rewrite <- time_long_kept by auto. unfold time_long. destruct (Nat.ltb_spec 0 (p_long time thr)) as [L|L]; auto.
  intros i j Lij Hj. simpl in Hj. rewrite skipn_length in Hj. destruct j as [|j]; [replace i with O by lia; lra|].
  destruct i as [|i]; cbn [nth].
  - rewrite nth_skipn. apply Rlt_le. apply right_above; auto; unfold p_long in *; lia.
  - rewrite !nth_skipn. apply S; lia.
Qed.

Lemma kept_positive time thr : positive time -> 0 < thr -> positive (kept time thr).
Proof.
  intros P Ht t. unfold kept. destruct (existsb _ time); auto. intros [<-|I]; auto. apply filter_In in I. apply P. tauto.
Qed.

Lemma zero_long time : positive time -> time_long time 0 = time /\ p_zero time 0 = O /\ p_long time 0 = O.
Proof.
  intros P. pose proof (no_long time 0 P) as Z. unfold time_long, p_zero. rewrite Z. auto.
Qed.

Lemma zero_lin time : positive time -> (forall g, linearise time 0 g = g) /\ (forall T, linearise_vec time 0 T = T) /\ (forall Q, linearise_loads time 0 Q = Q).
Proof.
  intros P. pose proof (no_long time 0 P) as Z. unfold linearise, linearise_vec, linearise_loads. rewrite Z. auto.
Qed.

Lemma grid_positive time : grid time -> positive time /\ sorted time.
Proof.
  intros G. split.
  - intros t I. apply (In_nth _ _ 0) in I. destruct I as [k [Hk <-]]. pose proof (grid_lt time G O (S k) ltac:(lia) ltac:(lia)) as L. exact L.
  - intros i j L Hj. exact (grid_le time G (S i) (S j) ltac:(lia) ltac:(lia)).
Qed.

Lemma lin_length time thr g : length (linearise time thr g) = length g.
Proof. unfold linearise. destruct (Nat.ltb 0 _); auto. rewrite map_length, seq_length. auto. Qed.
Lemma lin_vec_length time thr g : length (linearise_vec time thr g) = length g.
Proof. unfold linearise_vec. destruct (Nat.ltb 0 _); auto. rewrite map_length, seq_length. auto. Qed.
Lemma lin_loads_length time thr g : length (linearise_loads time thr g) = length g.
Proof. unfold linearise_loads. destruct (Nat.ltb 0 _); auto. rewrite map_length, seq_length. auto. Qed.

(** loads minus one are linearised like temperatures *)
Lemma lin_loads_then time thr (Q' : list vec) i : sorted time -> length Q' = length (time_long time thr) ->
  linear_then time thr (fun k => nth k (linearise_loads time thr (repeat zero_vec (p_zero time thr) ++ Q')) zero_vec i - 1) (fun j => nth j Q' zero_vec i - 1).
Proof.
  intros S L k Hk. pose proof (long_length time thr) as LL. pose proof (right_le time thr) as RL. fold (p_long time thr) in RL.
  set (g := repeat zero_vec (p_zero time thr) ++ Q'). assert (Lg : length g = length time) by (unfold g; rewrite app_length, repeat_length; lia).
  assert (G : forall j, (p_zero time thr <= j)%nat -> nth j g zero_vec = nth (j - p_zero time thr) Q' zero_vec).
  { intros j Hj. unfold g. rewrite app_nth2 by (rewrite repeat_length; auto). rewrite repeat_length. auto. }
  unfold linearise_loads. destruct (Nat.ltb_spec 0 (p_long time thr)) as [P|P].
  - split; intros B.
    + rewrite nth_map_seq by lia. destruct (Nat.ltb_spec k (p_long time thr)) as [Q|Q].
      * rewrite G by lia. rewrite Nat.sub_diag. unfold Rdiv. ring.
      * exfalso. pose proof (right_above time thr k S Q Hk). lra.
    + rewrite nth_map_seq by lia. destruct (Nat.ltb_spec k (p_long time thr)) as [Q|Q].
      * exfalso. pose proof (right_below time thr k Q). lra.
      * destruct (long_nth time thr k Q Hk) as [N1 N2]. exists (k - p_zero time thr)%nat. rewrite <- time_long_kept by auto.
        refine (conj N1 (conj N2 _)). rewrite G; auto. unfold p_zero. lia.
  - split; intros B.
    + exfalso. pose proof (right_above time thr k S ltac:(unfold p_long in *; lia) Hk). lra.
    + destruct (long_nth time thr k ltac:(lia) Hk) as [N1 N2]. exists (k - p_zero time thr)%nat. rewrite <- time_long_kept by auto.
      refine (conj N1 (conj N2 _)). rewrite G; auto. unfold p_zero. lia.
Qed.

Section Results.
  Variables (n : nat) (H : vec) (trf : list R -> nat -> nat -> nat -> R).
  Local Notation run sol tl := (grun n trf sol tl (seq 0 (length tl)) ([], [])).

  Lemma run_length {O} (sol : Mx -> vec -> option (vec * O)) tl a b (d : O) : run sol tl = Some (a, b) ->
    length a = length tl /\ length b = length tl /\
    forall k, (k < length tl)%nat -> exists h_dt T_b0, step_data n trf tl 0 k (firstn k a ++ [zero_vec]) = Some (h_dt, T_b0) /\ sol h_dt T_b0 = Some (nth k a zero_vec, nth k b d).
  Proof.
    intros E. destruct (grun_spec n trf sol tl (length tl) 0%nat [] [] a b d eq_refl eq_refl E) as [[x [-> Lx]] [[y [-> Ly]] K]].
    cbn [app] in *. split; auto. split; auto. intros k Hk. apply K. lia.
  Qed.

  Lemma ubwt_zero time : positive time -> solve_ubwt n H trf time 0 = run (ubwt_sol n H) time.
  Proof.
    intros P. destruct (zero_long time P) as [Z1 [Z2 Z3]]. destruct (zero_lin time P) as [L1 [L2 L3]].
    rewrite ubwt_run, Z1, Z2. cbn [repeat app]. destruct (run (ubwt_sol n H) time) as [[a b]|]; auto. rewrite L1, L3. auto.
  Qed.

  (** normalisation *)
  Lemma loads_normal (Q' : list vec) time thr k : length Q' = length (time_long time thr) -> (k < length time)%nat ->
    (forall j, (j < length Q')%nat -> sumn n (fun i => H i * nth j Q' zero_vec i) = H_total n H) ->
    sumn n (fun i => H i * nth k (linearise_loads time thr (repeat zero_vec (p_zero time thr) ++ Q')) zero_vec i) = sumn n H.
  Proof.
    intros L Hk N. destruct (lin_loads_spec time thr Q' k L Hk) as [[j [Hj E]]|[c E]].
    - rewrite E. apply N. auto.
    - rewrite (sumn_ext n _ (fun i => (H i + c * (H i * nth 0 Q' zero_vec i)) - c * H i)) by (intros i Hi; rewrite E; ring).
      rewrite sumn_minus, sumn_plus, !sumn_scal. rewrite N; [unfold H_total; ring|].
      pose proof (long_length time thr) as LL. unfold time_long in L, LL. destruct (Nat.ltb_spec 0 (p_long time thr)); simpl in L; [lia|]. lia.
  Qed.

  Lemma ubwt_normal time thr Q g k : solve_ubwt n H trf time thr = Some (Q, g) -> (k < length time)%nat ->
    sumn n (fun i => H i * nth k Q zero_vec i) = sumn n H.
  Proof.
    rewrite ubwt_run. destruct (run (ubwt_sol n H) (time_long time thr)) as [[a b]|] eqn:E; [|discriminate]. intros EE Hk. injection EE as <- <-.
    destruct (run_length _ _ _ _ 0 E) as [La [Lb K]]. apply loads_normal; auto. intros j Hj. destruct (K j ltac:(lia)) as [h [T [_ S]]].
    apply ubwt_sol_eq in S. apply S.
  Qed.

  Lemma ubwt_linear time thr : sorted time -> positive time -> 0 < thr ->
    match solve_ubwt n H trf time thr, solve_ubwt n H trf (kept time thr) 0 with
    | Some (Q, g), Some (Q', g') =>
        length g = length time /\ length Q = length time /\
        linear_then time thr (fun k => nth k g 0) (fun k => nth k g' 0) /\
        forall i, linear_then time thr (fun k => nth k Q zero_vec i - 1) (fun k => nth k Q' zero_vec i - 1)
    | None, None => True
    | _, _ => False
    end.
  Proof.
    intros S P T. rewrite ubwt_zero by (apply kept_positive; auto). rewrite ubwt_run. rewrite (time_long_kept time thr S).
    destruct (run (ubwt_sol n H) (kept time thr)) as [[a b]|] eqn:E; auto. destruct (run_length _ _ _ _ 0 E) as [La [Lb _]].
    rewrite <- (time_long_kept time thr S) in La, Lb. pose proof (long_length time thr).
    rewrite lin_length, lin_loads_length, !app_length, !repeat_length. split; [lia|]. split; [lia|]. split.
    - apply lin_spec; auto.
    - intros i. apply lin_loads_then; auto.
  Qed.

  Lemma uhtr_zero time : positive time -> solve_uhtr n H trf time 0 = (map (g_of n H (trf time)) (seq 0 (length time)), map (row_sum n (trf time)) (seq 0 (length time))).
  Proof.
    intros P. destruct (zero_long time P) as [Z1 [Z2 Z3]]. destruct (zero_lin time P) as [L1 [L2 L3]].
    rewrite uhtr_run, Z1, Z2. cbn [repeat app]. rewrite L1, L2. auto.
  Qed.

  Lemma uhtr_linear time thr : sorted time -> positive time -> 0 < thr ->
    let (g, T) := solve_uhtr n H trf time thr in
    let (g', T') := solve_uhtr n H trf (kept time thr) 0 in
    length g = length time /\ length T = length time /\
    linear_then time thr (fun k => nth k g 0) (fun k => nth k g' 0) /\
    forall i, linear_then time thr (fun k => nth k T zero_vec i) (fun k => nth k T' zero_vec i).
  Proof.
    intros S P T. rewrite uhtr_zero by (apply kept_positive; auto). rewrite uhtr_run. rewrite (time_long_kept time thr S).
    pose proof (long_length time thr) as LL. rewrite (time_long_kept time thr S) in LL.
    rewrite lin_length, lin_vec_length, !app_length, !repeat_length, !map_length, !seq_length. split; [lia|]. split; [lia|]. split.
    - apply lin_spec; auto. rewrite map_length, seq_length, (time_long_kept time thr S). auto.
    - intros i. apply lin_vec_spec; auto. rewrite map_length, seq_length, (time_long_kept time thr S). auto.
  Qed.

  Lemma uhtr_values time k : positive time -> (k < length time)%nat ->
    let (g, T) := solve_uhtr n H trf time 0 in
    (forall i, nth k T zero_vec i = sumn n (fun j => trf time i j k)) /\
    nth k g 0 = sumn n (fun i => H i * nth k T zero_vec i) / sumn n H.
  Proof.
    intros P Hk. rewrite uhtr_zero by auto. rewrite !nth_map_seq by auto. split; auto. unfold g_of, H_total. f_equal. apply sumn_ext. intros. ring.
  Qed.

  Variables (k_s : R) (Hi : vec).

  Lemma all_some_nth {A} (l : list (option A)) r d : all_some l = Some r ->
    length r = length l /\ forall i, (i < length l)%nat -> nth i l None = Some (nth i r d).
  Proof.
    revert r. induction l as [|[x|] l IH]; intros r E; cbn in E; try discriminate.
    - injection E as <-. split; auto. intros; simpl in *; lia.
    - destruct (all_some l) as [r'|]; [|discriminate]. injection E as <-. destruct (IH r' eq_refl) as [L N]. split; [simpl; lia|].
      intros [|i] Hi0; cbn; auto. apply N. simpl in Hi0. lia.
  Qed.

  Definition pad (time : list R) (thr : R) (ab : list vec * list (vec * R)) : list vec * list vec * list R :=
    (repeat zero_vec (p_zero time thr) ++ fst ab, repeat zero_vec (p_zero time thr) ++ map fst (snd ab), repeat 0 (p_zero time thr) ++ map snd (snd ab)).

  Lemma all_some_pad {A B} (f : A -> B) (l : list (option A)) :
    all_some (map (fun o => match o with None => None | Some a => Some (f a) end) l) = match all_some l with None => None | Some r => Some (map f r) end.
  Proof. induction l as [|[x|] l IH]; cbn; auto. rewrite IH. destruct (all_some l); auto. Qed.

  Definition runs_of (Fs : list flow) (tl : list R) := all_some (map (fun F => run (mift_sol n H k_s Hi F) tl) Fs).

  (** the g-function before linearisation, from the padded runs *)
  Definition g_runs (Fs : list flow) (p0 : nat) (runs : list (list vec * list vec * list R)) (i j k : nat) : R :=
    if Nat.eqb i j then nth k (snd (nth j runs ([], [], []))) 0
    else if Nat.ltb k p0 then 0
    else cross n H k_s (nth i Fs flow0) (nth k (snd (fst (nth j runs ([], [], [])))) zero_vec).

  Lemma mift_all Fs time thr : solve_mift n H trf k_s Hi Fs time thr
    = match runs_of Fs (time_long time thr) with
      | None => None
      | Some rs =>
          let runs := map (pad time thr) rs in
          match linearise_all time thr (length Fs) (g_runs Fs (p_zero time thr) runs) with
          | None => None
          | Some g' => Some (g', map (fun s => linearise_loads time thr (fst (fst s))) runs, map (fun s => linearise_vec time thr (snd (fst s))) runs)
          end
      end.
  Proof.
    unfold solve_mift, runs_of.
    rewrite (map_ext _ (fun F => match run (mift_sol n H k_s Hi F) (time_long time thr) with None => None | Some a => Some (pad time thr a) end)).
    - rewrite <- (map_map (fun F => run (mift_sol n H k_s Hi F) (time_long time thr)) (fun o => match o with None => None | Some a => Some (pad time thr a) end)).
      rewrite all_some_pad. destruct (all_some (map (fun F => run (mift_sol n H k_s Hi F) (time_long time thr)) Fs)); auto.
    - intros F. rewrite mift_run. destruct (run (mift_sol n H k_s Hi F) (time_long time thr)) as [[a b]|]; auto.
  Qed.

  Lemma runs_nth Fs tl rs f : runs_of Fs tl = Some rs -> (f < length Fs)%nat ->
    length rs = length Fs /\ run (mift_sol n H k_s Hi (nth f Fs flow0)) tl = Some (nth f rs ([], [])).
  Proof.
    intros E Hf. destruct (all_some_nth _ _ ([], []) E) as [L N]. rewrite map_length in L, N. split; auto. specialize (N f Hf).
    rewrite <- N. rewrite (nth_indep (map _ Fs) None (run (mift_sol n H k_s Hi flow0) tl)) by (rewrite map_length; auto).
    rewrite (map_nth (fun F => run (mift_sol n H k_s Hi F) tl) Fs flow0 f). auto.
  Qed.

  Lemma pad_nth (rs : list (list vec * list (vec * R))) time thr f : (f < length rs)%nat ->
    nth f (map (pad time thr) rs) ([], [], []) = pad time thr (nth f rs ([], [])).
  Proof. intros Hf. rewrite (nth_map _ _ f ([], []) ([], [], [])); auto. Qed.

  Lemma mift_normal Fs time thr g Q T f k : solve_mift n H trf k_s Hi Fs time thr = Some (g, Q, T) -> (f < length Fs)%nat -> (k < length time)%nat ->
    sumn n (fun i => H i * nth k (nth f Q []) zero_vec i) = sumn n H.
  Proof.
    rewrite mift_all. destruct (runs_of Fs (time_long time thr)) as [rs|] eqn:E; [|discriminate]. cbv zeta.
    destruct (linearise_all _ _ _ _) as [g'|]; [|discriminate]. intros EE Hf Hk. injection EE as <- <- <-.
    destruct (runs_nth _ _ _ f E Hf) as [L R]. rewrite map_map.
    rewrite (nth_map _ _ f ([], []) []) by lia.
    destruct (nth f rs ([], [])) as [a b]. destruct (run_length _ _ _ _ (zero_vec, 0) R) as [La [Lb K]]. cbn [pad fst snd].
    apply loads_normal; auto. intros j Hj. destruct (K j ltac:(lia)) as [h [T0 [_ S]]]. destruct (nth j b (zero_vec, 0)) as [x y].
    apply mift_sol_eq in S. apply S.
  Qed.

  Lemma mift_zero Fs time : positive time -> solve_mift n H trf k_s Hi Fs time 0
    = match runs_of Fs time with
      | None => None
      | Some rs => let runs := map (pad time 0) rs in Some (g_runs Fs 0 runs, map (fun s => fst (fst s)) runs, map (fun s => snd (fst s)) runs)
      end.
  Proof.
    intros P. destruct (zero_long time P) as [Z1 [Z2 Z3]]. destruct (zero_lin time P) as [L1 [L2 L3]].
    rewrite mift_all, Z1, Z2. destruct (runs_of Fs time) as [rs|]; auto. cbv zeta. unfold linearise_all. rewrite Z3. cbn [Nat.ltb Nat.leb].
    f_equal. f_equal; [f_equal|]; apply map_ext; auto.
  Qed.

  Lemma mift_linear F time thr : sorted time -> positive time -> 0 < thr ->
    match solve_mift n H trf k_s Hi [F] time thr, solve_mift n H trf k_s Hi [F] (kept time thr) 0 with
    | Some (g, Q, T), Some (g', Q', T') =>
        linear_then time thr (g O O) (g' O O) /\
        (forall i, linear_then time thr (fun k => nth k (nth 0 Q []) zero_vec i - 1) (fun k => nth k (nth 0 Q' []) zero_vec i - 1)) /\
        (forall i, linear_then time thr (fun k => nth k (nth 0 T []) zero_vec i) (fun k => nth k (nth 0 T' []) zero_vec i))
    | None, None => True
    | _, _ => False
    end.
  Proof.
    intros S P Ht. pose proof (kept_positive time thr P Ht) as PK. rewrite mift_zero by auto. rewrite mift_all. rewrite (time_long_kept time thr S).
    destruct (runs_of [F] (kept time thr)) as [rs|] eqn:E; auto. cbv zeta.
    destruct (runs_nth _ _ _ O E ltac:(simpl; lia)) as [L R]. cbn [nth length] in *.
    destruct rs as [|[a b] rs]; [discriminate|]. destruct rs; [|discriminate]. cbn [nth] in R. cbn [map].
    destruct (run_length _ _ _ _ (zero_vec, 0) R) as [La [Lb _]]. rewrite <- (time_long_kept time thr S) in La, Lb.
    destruct (zero_long _ PK) as [Z1 [Z2 Z3]].
    assert (G0 : forall k, g_runs [F] 0 [pad (kept time thr) 0 (a, b)] 0 0 k = nth k (map snd b) 0).
    { intros k. unfold g_runs. cbn [Nat.eqb nth pad fst snd]. rewrite Z2. reflexivity. }
    assert (G1 : forall k, g_runs [F] (p_zero time thr) [pad time thr (a, b)] 0 0 k = nth k (repeat 0 (p_zero time thr) ++ map snd b) 0).
    { intros k. unfold g_runs. cbn [Nat.eqb nth pad fst snd]. reflexivity. }
    assert (LS : linear_then time thr (fun k => nth k (linearise time thr (repeat 0 (p_zero time thr) ++ map snd b)) 0) (fun j => nth j (map snd b) 0))
      by (apply lin_spec; auto; rewrite map_length; auto).
    assert (LQ : forall i, linear_then time thr (fun k => nth k (linearise_loads time thr (repeat zero_vec (p_zero time thr) ++ a)) zero_vec i - 1) (fun j => nth j a zero_vec i - 1))
      by (intros; apply lin_loads_then; auto).
    assert (LT : forall i, linear_then time thr (fun k => nth k (linearise_vec time thr (repeat zero_vec (p_zero time thr) ++ map fst b)) zero_vec i) (fun j => nth j (map fst b) zero_vec i))
      by (intros; apply lin_vec_spec; auto; rewrite map_length; auto).
    pose proof (long_length time thr) as LL.
    set (g1 := repeat 0 (p_zero time thr) ++ map snd b) in *.
    assert (Lg : length g1 = length time) by (unfold g1; rewrite app_length, repeat_length, map_length; lia).
    unfold linearise_all. unfold linearise in LS. destruct (Nat.ltb_spec 0 (p_long time thr)) as [PL|PL].
    - cbn [Nat.eqb]. cbn [nth pad fst snd]. rewrite Z2. cbn [repeat app]. refine (conj _ (conj LQ LT)).
      intros k Hk. specialize (LS k Hk). cbv beta in LS. rewrite nth_map_seq in LS by lia.
      destruct LS as [S1 S2]. split.
      + intros B. specialize (S1 B). rewrite G0. destruct (Nat.ltb k (p_long time thr)); rewrite G1; [|exact S1]. unfold p_zero in *. exact S1.
      + intros B. destruct (S2 B) as [j [Hj1 [Hj2 Ej]]]. exists j. rewrite G0. refine (conj Hj1 (conj Hj2 _)).
        destruct (Nat.ltb k (p_long time thr)); rewrite G1; exact Ej.
    - cbn [nth pad fst snd]. rewrite Z2. cbn [repeat app]. refine (conj _ (conj LQ LT)).
      intros k Hk. specialize (LS k Hk). cbv beta in LS. destruct LS as [S1 S2]. split.
      + intros B. rewrite G0, G1. auto.
      + intros B. destruct (S2 B) as [j [Hj1 [Hj2 Ej]]]. exists j. rewrite G0, G1. auto.
  Qed.

  (** several mass flow rates: the assignment of the linearised values fails *)
  Lemma mift_crash Fs time thr : (2 <= length Fs)%nat -> (0 < p_long time thr)%nat -> p_long time thr <> length Fs ->
    solve_mift n H trf k_s Hi Fs time thr = None.
  Proof.
    intros HF HP N. rewrite mift_all. destruct (runs_of Fs (time_long time thr)) as [rs|]; auto. cbv zeta. unfold linearise_all.
    destruct (Nat.ltb_spec 0 (p_long time thr)); [|lia]. destruct (Nat.eqb_spec (length Fs) 1); [lia|].
    destruct (Nat.eqb_spec (length Fs) (p_long time thr)); [congruence|]. auto.
  Qed.
End Results.

Section Equations.
  Variables (n : nat) (H : vec) (resp : nat -> nat -> R -> R).
  Local Notation trf := (on_grid resp).

  Lemma ubwt_superposed time Q g p i : (0 < n)%nat -> grid time -> solve_ubwt n H trf time 0 = Some (Q, g) -> (p < length time)%nat -> (i < n)%nat ->
    superposed n resp time Q p i (nth p g 0).
  Proof.
    intros Hn G E Hp Hi. rewrite ubwt_zero in E by (apply grid_positive; auto). destruct (run_length _ _ _ _ _ _ 0 E) as [La [Lb K]].
    destruct (K p Hp) as [h [T [E1 E2]]]. apply ubwt_sol_eq in E2. destruct E2 as [_ E2]. rewrite <- (E2 i Hi).
    apply step_superposed; auto.
  Qed.

  Variables (k_s : R) (Hi : vec).

  Lemma mift_superposed Fs time g Q T f p : (0 < n)%nat -> grid time -> solve_mift n H trf k_s Hi Fs time 0 = Some (g, Q, T) ->
    (f < length Fs)%nat -> (p < length time)%nat ->
    let Qf := nth p (nth f Q []) zero_vec in
    let Tf := nth p (nth f T []) zero_vec in
    (forall i, (i < n)%nat -> superposed n resp time (nth f Q []) p i (Tf i)) /\
    (exists Tin, g f f p = effective n H k_s (nth f Fs flow0) Tin /\
      forall i, (i < n)%nat -> Qf i + f_in (nth f Fs flow0) i / (2 * PI * k_s * Hi i) * Tin
                               + sumn n (fun j => f_b (nth f Fs flow0) i j / (2 * PI * k_s * Hi i) * Tf j) = 0) /\
    (forall e, (e < length Fs)%nat -> e <> f -> g e f p = cross n H k_s (nth e Fs flow0) Tf).
  Proof.
    intros Hn G E Hf Hp. pose proof (proj1 (grid_positive time G)) as PK. rewrite mift_zero in E by auto.
    destruct (runs_of n H trf k_s Hi Fs time) as [rs|] eqn:ER; [|discriminate]. cbv zeta in E. injection E as <- <- <-.
    destruct (runs_nth _ _ _ _ _ _ _ _ f ER Hf) as [L R]. rewrite !map_map.
    rewrite !(nth_map _ _ f ([], []) []) by lia.
    destruct (zero_long _ PK) as [Z1 [Z2 Z3]].
    assert (G0 : forall e, g_runs n H k_s Fs 0 (map (pad time 0) rs) e f p = if Nat.eqb e f then nth p (map snd (snd (nth f rs ([], [])))) 0 else cross n H k_s (nth e Fs flow0) (nth p (map fst (snd (nth f rs ([], [])))) zero_vec)).
    { intros e. unfold g_runs. rewrite !pad_nth by lia. unfold pad. rewrite Z2. cbn [repeat app fst snd]. reflexivity. }
    set (gg := g_runs n H k_s Fs 0 (map (pad time 0) rs)) in *. clearbody gg. unfold pad. rewrite Z2. cbn [repeat app fst snd].
    destruct (nth f rs ([], [])) as [a b]. cbn [fst snd] in *. destruct (run_length _ _ _ _ _ _ (zero_vec, 0) R) as [La [Lb K]].
    destruct (K p Hp) as [h [T0 [E1 E2]]].
    rewrite (nth_map _ _ p (zero_vec, 0) zero_vec) in * by lia.
    destruct (nth p b (zero_vec, 0)) as [x y] eqn:Eb. cbn [fst snd] in *. apply mift_sol_eq in E2. destruct E2 as [E2 [E3 [Tin [E4 E5]]]].
    split; [|split].
    - intros i Hi0. rewrite <- (E3 i Hi0). apply step_superposed; auto.
    - exists Tin. split; auto. rewrite G0, Nat.eqb_refl. rewrite (nth_map _ _ p (zero_vec, 0) 0) by lia. rewrite Eb. auto.
    - intros e He Ne. rewrite G0. destruct (Nat.eqb_spec e f); [congruence|]. auto.
  Qed.

  (** solvable when the matrices are nonsingular *)
  Lemma run_some {O} (sol : Mx -> vec -> option (vec * O)) tl : grid tl -> (forall h T, exists r, sol h T = Some r) ->
    exists r, grun n trf sol tl (seq 0 (length tl)) ([], []) = Some r.
  Proof.
    intros G S. assert (K : forall m p (qs : list vec) (os : list O), length qs = p -> (p + m <= length tl)%nat -> exists r, grun n trf sol tl (seq p m) (qs, os) = Some r).
    { induction m as [|m IH]; intros p qs os Lq Lm; cbn [seq grun]; [eauto|]. cbn [fst snd].
      destruct (step_some n resp tl p qs G ltac:(lia) Lq) as [h [T [E _]]]. rewrite E. destruct (S h T) as [[q o] Eo]. rewrite Eo.
      apply IH; [rewrite app_length; simpl; lia|lia]. }
    apply (K (length tl) 0%nat [] []); simpl; lia.
  Qed.
End Equations.
