(** Evaluation of a g-function: times, causality, values at time zero. *)
From Coq Require Import String.
From Verif Require Import Base LinAlg FLS_Model.
From Verif Require Import Bore_Model Net_Model Solve_Model Solve_Spec Solve_Loop_Proofs Solve_Eq_Proofs Solve_Sol_Proofs Detailed_Model Sim_Model Eq_Model GFun_Model GFun_Spec GFun_Causal_Proofs.
Local Open Scope R_scope.

(** ** Times *)

Lemma increasing_cons a l : increasing (a :: l) = match l with b :: _ => Rleb a b | [] => true end && increasing l.
Proof. destruct l; auto. Qed.

Lemma increasing_app_l a b : increasing (a ++ b) = true -> increasing a = true.
Proof.
  induction a as [|x a IH]; auto. cbn [app]. rewrite !increasing_cons. intros E. apply andb_true_iff in E as [E1 E2].
  rewrite (IH E2), andb_true_r. destruct a; auto.
Qed.

Lemma increasing_head a l t : increasing (a :: l) = true -> In t l -> a <= t.
Proof.
  revert a; induction l as [|b l IH]; intros a E [].
  - subst. rewrite increasing_cons in E. apply andb_true_iff in E as [E _]. apply Rleb_true in E. auto.
  - rewrite increasing_cons in E. apply andb_true_iff in E as [E1 E2]. apply Rleb_true in E1. specialize (IH b E2 H). lra.
Qed.

Lemma increasing_sorted l : increasing l = true -> sorted l.
Proof.
  induction l as [|a l IH]; intros E i j L Hj; [simpl in Hj; lia|]. pose proof E as E0. rewrite increasing_cons in E. apply andb_true_iff in E as [_ E].
  destruct i, j; cbn [nth]; try lra; try lia.
  - apply (increasing_head a l); auto. apply nth_In. simpl in Hj. lia.
  - apply IH; auto; simpl in Hj; lia.
Qed.

Lemma times_app l l' t : l <> [] -> times (VArr (l ++ l')) = Some t ->
  exists t1 t2, t = t1 ++ t2 /\ times (VArr l) = Some t1 /\ length t1 = length l /\ sorted t /\ nonneg t.
Proof.
  intros N. unfold times. cbn [numbers]. destruct (l ++ l') as [|x r] eqn:E; [discriminate|]. rewrite <- E.
  destruct (increasing (map (fun x => Rmax x 0) (l ++ l'))) eqn:I; [|discriminate]. intros Et. injection Et as <-.
  rewrite map_app in *. exists (map (fun x => Rmax x 0) l), (map (fun x => Rmax x 0) l'). split; auto.
  destruct l as [|y l]; [contradiction|]. rewrite (increasing_app_l _ _ I). split; auto. split; [apply map_length|]. split; [apply increasing_sorted; auto|].
  intros t Ht. rewrite <- map_app in Ht. apply in_map_iff in Ht as [z [<- _]]. apply Rmax_r.
Qed.

Lemma times_some l t : times (VArr l) = Some t -> t = map (fun x => Rmax x 0) l /\ l <> [] /\ sorted t /\ nonneg t.
Proof.
  intros E. pose proof E as E0. unfold times in E. cbn [numbers] in E. destruct l as [|x l]; [discriminate|].
  assert (N : x :: l <> []) by discriminate. rewrite <- (app_nil_r (x :: l)) in E0.
  destruct (times_app _ _ _ N E0) as [t1 [t2 [E1 [_ [_ [S P]]]]]]. destruct (increasing _); [|discriminate]. injection E as <-. auto.
Qed.

(** ** Prefixes *)

Lemma defined_prefix h l l' thr : l <> [] -> defined_at h (time_long (l ++ l') thr) = true -> defined_at h (time_long l thr) = true.
Proof.
  intros N D. destruct (long_prefix l l' thr N) as [rest [Er _]]. rewrite Er in D. unfold defined_at in *. rewrite forallb_app in D.
  apply andb_true_iff in D. tauto.
Qed.

Definition response_of (h : R -> option Mx) : nat -> nat -> R -> R := fun i j t => match h t with Some M => M i j | None => 0 end.
Lemma at_times_grid h : at_times h = on_grid (response_of h).
Proof. reflexivity. Qed.

(** lengths of the g-functions *)
Lemma uhtr_length n H trf time thr : length (fst (solve_uhtr n H trf time thr)) = length time.
Proof. rewrite uhtr_run. cbn [fst]. rewrite lin_length, app_length, repeat_length, map_length, seq_length. apply long_length. Qed.
Lemma ubwt_length n H trf time thr Q g : solve_ubwt n H trf time thr = Some (Q, g) -> length g = length time.
Proof.
  rewrite ubwt_run. destruct (grun _ _ _ _ _ _) as [[a b]|] eqn:E; [|discriminate]. intros Eg. injection Eg as _ <-.
  rewrite lin_length, app_length, repeat_length. pose proof (run_length n trf (ubwt_sol n H) _ a b 0 E) as [_ [Lb _]]. rewrite Lb. apply long_length.
Qed.

Lemma map_eq_seq (f g : nat -> R) (a : list R) m n : (m <= n)%nat -> (forall k, (k < m)%nat -> f k = g k) -> map f (seq 0 m) = firstn m (map g (seq 0 n)).
Proof.
  intros L E. apply (list_eq_nth 0); [rewrite firstn_length, !map_length, !seq_length; lia|].
  intros k Hk. rewrite map_length, seq_length in Hk. rewrite nth_firstn, !nth_map_seq by lia. auto.
Qed.

Lemma all_some_length {A} (l : list (option A)) r : Net_Model.all_some l = Some r -> length r = length l.
Proof.
  revert r; induction l as [|[x|] l IH]; cbn [Net_Model.all_some]; intros r E; try discriminate; [injection E as <-; auto|].
  destruct (Net_Model.all_some l); [|discriminate]. injection E as <-. cbn [length]. rewrite (IH l0); auto.
Qed.

(** ** Causality of the solvers *)

Lemma solve_causal bc k_s k rows y l l' thr g : l <> [] -> sorted (l ++ l') -> nonneg (l ++ l') ->
  (bc <> "UHTR"%string -> bc <> "UBWT"%string -> k = O -> (length rows <= 1)%nat) ->
  solve bc k_s k rows y (l ++ l') thr = Some (G1 g) -> solve bc k_s k rows y l thr = Some (G1 (firstn (length l) g)).
Proof.
  intros N So P Kr. unfold solve. destruct (defined_at (y_h y) (time_long (l ++ l') thr)) eqn:D; [|discriminate].
  rewrite (defined_prefix _ _ _ _ N D), at_times_grid.
  destruct (String.eqb_spec bc "UHTR") as [_|B1].
  { intros E. injection E as <-. rewrite (uhtr_causal _ _ _ l l' thr N). auto. }
  destruct (String.eqb_spec bc "UBWT") as [_|B2].
  { destruct (solve_ubwt _ _ _ (l ++ l') thr) as [[Q g0]|] eqn:E; [|discriminate]. cbn [option_map snd]. intros Eg. injection Eg as <-.
    destruct (ubwt_causal _ _ _ l l' thr Q g0 N So P E) as [Q' E']. rewrite E'. auto. }
  destruct rows as [|r rows]; [discriminate|]. destruct (Net_Model.all_some (map (y_flow y) (r :: rows))) as [Fs|] eqn:EF; [|discriminate].
  destruct (solve_mift _ _ _ _ _ _ (l ++ l') thr) as [[[g0 Q] T]|] eqn:E; [|discriminate].
  destruct (Nat.eqb_spec k 0) as [K|K]; [|discriminate]. intros Eg. injection Eg as <-. specialize (Kr B1 B2 K).
  pose proof (all_some_length _ _ EF) as LF. rewrite map_length in LF. cbn [length] in Kr, LF.
  destruct Fs as [|F [|F' Fs]]; cbn [length] in LF; try lia.
  destruct (mift_causal _ _ _ _ _ F l l' thr g0 Q T N So P E) as [g1 [Q1 [T1 [E1 V]]]]. rewrite E1. do 2 f_equal.
  rewrite app_length. apply map_eq_seq; auto. lia.
Qed.

Lemma solve_causal_3 bc k_s k rows y l l' thr v : l <> [] -> sorted (l ++ l') -> nonneg (l ++ l') -> (forall t, In t (l ++ l') -> thr < t) ->
  (bc <> "UHTR"%string -> bc <> "UBWT"%string -> k <> O -> length rows = k) ->
  solve bc k_s k rows y (l ++ l') thr = Some (G3 k v) ->
  exists v', solve bc k_s k rows y l thr = Some (G3 k v') /\ forall i j p, (i < k)%nat -> (j < k)%nat -> (p < length l)%nat -> v i j p = v' i j p.
Proof.
  intros N So P A Kr. unfold solve. destruct (defined_at (y_h y) (time_long (l ++ l') thr)) eqn:D; [|discriminate].
  rewrite (defined_prefix _ _ _ _ N D), at_times_grid.
  destruct (String.eqb_spec bc "UHTR") as [_|B1]; [discriminate|].
  destruct (String.eqb_spec bc "UBWT") as [_|B2]. { destruct (solve_ubwt _ _ _ (l ++ l') thr) as [[Q g0]|] eqn:E; discriminate. }
  destruct rows as [|r rows]; [discriminate|]. destruct (Net_Model.all_some (map (y_flow y) (r :: rows))) as [Fs|] eqn:EF; [|discriminate].
  destruct (solve_mift _ _ _ _ _ _ (l ++ l') thr) as [[[g0 Q] T]|] eqn:E; [|discriminate].
  destruct (Nat.eqb_spec k 0) as [K|K]; [discriminate|]. intros Eg. injection Eg as <-. specialize (Kr B1 B2 K).
  pose proof (all_some_length _ _ EF) as LF. rewrite map_length, Kr in LF.
  destruct (mifts_causal _ _ _ _ _ Fs l l' thr g0 Q T N So P A E) as [g1 [Q1 [T1 [E1 V]]]]. rewrite E1. exists g1. split; auto.
  intros i j p Hi Hj Hp. symmetry. apply V; lia.
Qed.

(** ** Objects *)

Lemma resolve_time c t : resolve (with_time c t) = resolve c.
Proof. destruct c. reflexivity. Qed.

Lemma construct_time c l l' : construct (with_time c (VArr l)) = construct (with_time c (VArr l')).
Proof. unfold construct. rewrite !resolve_time. destruct (resolve c) as [q|]; auto. Qed.

(** the rows of the mass flow rates of an object *)
Lemma construct_rows c q s : construct c = Some (q, s) -> q_bc q <> "UHTR"%string -> q_bc q <> "UBWT"%string ->
  (v_k s = O -> (length (v_rows s) <= 1)%nat) /\ (v_k s <> O -> length (v_rows s) = v_k s).
Proof.
  unfold construct. destruct (resolve c) as [q0|]; [|discriminate]. destruct (check c q0) eqn:Ch; [|discriminate].
  destruct (make_solver (c_options c) q0) as [s0|] eqn:Em; [|discriminate]. intros E B1 B2. injection E as -> ->.
  assert (Bc : q_bc q = "MIFT"%string).
  { unfold check in Ch. apply andb_true_iff in Ch as [Ch _]. apply andb_true_iff in Ch as [_ Ch]. cbn [existsb] in Ch.
    destruct (String.eqb_spec (q_bc q) "UHTR"); [contradiction|]. destruct (String.eqb_spec (q_bc q) "UBWT"); [contradiction|].
    destruct (String.eqb_spec (q_bc q) "MIFT"); [auto|discriminate]. }
  unfold make_solver in Em. destruct (solver_flows (q_mb q) (q_mn q)) as [[k rows]|] eqn:Ef; [|discriminate].
  assert (K : v_k s = k /\ v_rows s = rows /\ check_flows q rows = true).
  { destruct (check_flows q rows) eqn:Cf; [|discriminate]. destruct (check_segments _ _ _); [|discriminate]. cbn [andb] in Em.
    destruct (String.eqb _ "detailed"); [injection Em as <-; auto|]. destruct (String.eqb _ "similarities").
    - destruct (_ && _); [|discriminate]. injection Em as <-; auto.
    - destruct (String.eqb _ "equivalent"); [|discriminate]. destruct (equivalent_checks _ _ _ _); [|discriminate].
      destruct (equivalent_network q); [|discriminate]. injection Em as <-; auto. }
  destruct K as [-> [-> Cf]]. unfold check_flows in Cf. rewrite Bc in Cf. cbn [String.eqb Ascii.eqb Bool.eqb] in Cf.
  unfold solver_flows in Ef.
  destruct (q_mb q), (q_mn q); cbn [is_none negb andb] in Cf; try discriminate; injection Ef as <- <-; cbn [length]; rewrite ?map_length; split; intros; try lia.
Qed.

Lemma construct_boreholes c q s : construct c = Some (q, s) -> q_bs q = boreholes_of c.
Proof.
  unfold construct. destruct (resolve c) as [q0|] eqn:E; [|discriminate]. destruct (check c q0); [|discriminate].
  destruct (make_solver _ q0); [|discriminate]. intros Eq. injection Eq as -> _. unfold resolve in E. unfold boreholes_of.
  destruct (c_source c) as [bs|w]; cbv zeta in E;
  repeat match goal with
         | E : (if ?b then _ else _) = Some _ |- _ => destruct b
         | E : match ?b with Some _ => _ | None => _ end = Some _ |- _ => destruct b
         | E : Some _ = Some _ |- _ => injection E as <-
         | E : None = Some _ |- _ => discriminate
         end; auto.
Qed.

Section Objects.
  Variables (link : list R -> tree) (uw : list (R * R)).

  Lemma make_system_time c t q s : make_system link uw (with_time c t) q s = make_system link uw c q s.
  Proof. destruct c. reflexivity. Qed.

  Lemma evaluate_time c t qs v : evaluate link uw (with_time c t) qs v = evaluate link uw c qs v.
  Proof. destruct qs as [q s]. unfold evaluate. rewrite make_system_time. destruct c. reflexivity. Qed.

  Lemma gfunction_arr c l : gfunction link uw (with_time c (VArr l)) =
    match construct (with_time c (VArr [])) with Some qs => evaluate link uw c qs (VArr l) | None => None end.
  Proof.
    unfold gfunction. cbn [c_time with_time]. rewrite (construct_time c l []). destruct (construct _); [apply evaluate_time|auto].
  Qed.

  Lemma evaluate_causal c l l' q s g : l <> [] -> construct (with_time c (VArr [])) = Some (q, s) ->
    evaluate link uw c (q, s) (VArr (l ++ l')) = Some (G1 g) -> evaluate link uw c (q, s) (VArr l) = Some (G1 (firstn (length l) g)).
  Proof.
    intros N Ec E. unfold evaluate in *. destruct (times (VArr (l ++ l'))) as [t|] eqn:Et; [|discriminate].
    destruct (times_app l l' t N Et) as [t1 [t2 [-> [Et1 [Lt [So P]]]]]]. rewrite Et1.
    destruct (lmax _) as [rm|]; [|discriminate]. destruct (make_system link uw c q s) as [y|]; [|discriminate].
    rewrite <- Lt. apply (solve_causal _ _ _ _ _ t1 t2); auto.
    - intros ->. destruct l; [contradiction|discriminate].
    - intros B1 B2 K. apply (construct_rows _ _ _ Ec B1 B2). auto.
  Qed.

  Lemma evaluate_causal_3 c l l' q s k v thr : l <> [] -> construct (with_time c (VArr [])) = Some (q, s) -> threshold_of c thr ->
    0 <= thr -> (forall t, In t (l ++ l') -> thr < t) ->
    evaluate link uw c (q, s) (VArr (l ++ l')) = Some (G3 k v) ->
    exists v', evaluate link uw c (q, s) (VArr l) = Some (G3 k v') /\ forall i j p, (i < k)%nat -> (j < k)%nat -> (p < length l)%nat -> v i j p = v' i j p.
  Proof.
    intros N Ec [r [Er Eth]] Th A E. unfold evaluate in *. destruct (times (VArr (l ++ l'))) as [t|] eqn:Et; [|discriminate].
    destruct (times_app l l' t N Et) as [t1 [t2 [-> [Et1 [Lt [So P]]]]]]. rewrite Et1.
    rewrite (construct_boreholes _ _ _ Ec) in *. change (boreholes_of (with_time c (VArr []))) with (boreholes_of c) in *. rewrite Er in *.
    destruct (make_system link uw c q s) as [y|]; [|discriminate]. rewrite <- Eth in *.
    assert (Ek : v_k s = k).
    { unfold solve in E. destruct (defined_at _ _); [|discriminate]. destruct (String.eqb _ "UHTR"); [discriminate|].
      destruct (String.eqb _ "UBWT"). { destruct (solve_ubwt _ _ _ _ _); discriminate. }
      destruct (v_rows s); [discriminate|]. destruct (Net_Model.all_some _); [|discriminate]. destruct (solve_mift _ _ _ _ _ _ _ _) as [[[g0 Q0] T0]|]; [|discriminate].
      destruct (Nat.eqb (v_k s) 0); [discriminate|]. injection E as -> _. auto. }
    rewrite Ek in *. rewrite <- Lt. apply (solve_causal_3 _ _ _ _ _ t1 t2); auto.
    - intros ->. destruct l; [contradiction|discriminate].
    - intros x Hx. destruct (times_some _ _ Et) as [Em _]. rewrite Em in Hx. apply in_map_iff in Hx as [z [<- Hz]]. specialize (A z Hz). rewrite Rmax_left by lra. auto.
    - intros B1 B2 K. rewrite <- Ek. apply (construct_rows _ _ _ Ec B1 B2). lia.
  Qed.

  Lemma gfunction_causal c l l' g : l <> [] -> gfunction link uw (with_time c (VArr (l ++ l'))) = Some (G1 g) ->
    gfunction link uw (with_time c (VArr l)) = Some (G1 (firstn (length l) g)).
  Proof.
    intros N. rewrite !gfunction_arr. destruct (construct _) as [[q s]|] eqn:Ec; [|discriminate]. apply evaluate_causal; auto.
  Qed.

  Lemma gfunction_causal_3 c l l' k v thr : l <> [] -> threshold_of c thr -> 0 <= thr -> (forall t, In t (l ++ l') -> thr < t) ->
    gfunction link uw (with_time c (VArr (l ++ l'))) = Some (G3 k v) ->
    exists v', gfunction link uw (with_time c (VArr l)) = Some (G3 k v') /\ forall i j p, (i < k)%nat -> (j < k)%nat -> (p < length l)%nat -> v i j p = v' i j p.
  Proof.
    intros N Th T0 A. rewrite !gfunction_arr. destruct (construct _) as [[q s]|] eqn:Ec; [|discriminate]. apply (evaluate_causal_3 c l l' q s k v thr); auto.
  Qed.

  (** ** Length and values at time zero *)

  Lemma gfunction_length c l g : gfunction link uw (with_time c (VArr l)) = Some (G1 g) -> length g = length l.
  Proof.
    rewrite gfunction_arr. destruct (construct _) as [[q s]|] eqn:Ec; [|discriminate]. unfold evaluate.
    destruct (times (VArr l)) as [t|] eqn:Et; [|discriminate]. destruct (times_some _ _ Et) as [Em _].
    destruct (lmax _) as [r|]; [|discriminate]. destruct (make_system _ _ _ _ _) as [y|]; [|discriminate]. unfold solve.
    assert (Lt : length t = length l) by (rewrite Em; apply map_length).
    destruct (defined_at _ _); [|discriminate]. destruct (String.eqb _ "UHTR"). { intros E. assert (Eg : fst (solve_uhtr (y_n y) (y_H y) (at_times (y_h y)) t (time_threshold r (c_alpha c) (o_thr (c_options c)))) = g) by congruence. rewrite <- Eg, uhtr_length. auto. }
    destruct (String.eqb _ "UBWT"). { destruct (solve_ubwt _ _ _ _ _) as [[Q g0]|] eqn:E; [|discriminate]. intros Eg. injection Eg as <-. cbn [snd]. rewrite (ubwt_length _ _ _ _ _ _ _ E). auto. }
    destruct (v_rows s); [discriminate|]. destruct (Net_Model.all_some _); [|discriminate]. destruct (solve_mift _ _ _ _ _ _ _ _) as [[[g0 Q0] T0]|]; [|discriminate].
    destruct (Nat.eqb (v_k s) 0); [|discriminate]. intros E. injection E as <-. rewrite map_length, seq_length. auto.
  Qed.

  (** up to the threshold the values are in proportion to the (clamped) times *)
  Lemma lin_short time thr os k : length os = length (time_long time thr) -> (k < length time)%nat -> (forall i, (i <= k)%nat -> nth i time 0 <= thr) ->
    nth k (linearise time thr (repeat 0 (p_zero time thr) ++ os)) 0 = nth 0 os 0 * nth k time 0 / thr.
  Proof.
    intros L Hk B. rewrite lin_nth by auto. destruct (Nat.ltb_spec k (p_long time thr)) as [|G]; auto. exfalso.
    clear L os. revert k Hk B G. induction time as [|a time IH]; intros k Hk B G; [simpl in Hk; lia|].
    unfold p_long in *. cbn [searchsorted_right] in G. pose proof (B O (Nat.le_0_l _)) as B0. cbn [nth] in B0. rewrite (proj2 (Rleb_true a thr)) in G by auto.
    destruct k as [|k]; [lia|]. apply (IH k); try (simpl in Hk; lia). intros i Hi. apply (B (S i)). lia.
  Qed.

  Lemma solve_linear bc k_s k rows y time thr g : time <> [] -> sorted time -> nonneg time -> (bc <> "UHTR"%string -> bc <> "UBWT"%string -> k = O -> (length rows <= 1)%nat) ->
    solve bc k_s k rows y time thr = Some (G1 g) ->
    exists a, forall p, (p < length time)%nat -> nth p time 0 <= thr -> nth p g 0 = a * nth p time 0 / thr.
  Proof.
    intros N So P Kr. unfold solve. destruct (defined_at _ _); [|discriminate].
    assert (Bp : forall p, (p < length time)%nat -> nth p time 0 <= thr -> forall i, (i <= p)%nat -> nth i time 0 <= thr).
    { intros p Hp Hb i Hi. assert (nth i time 0 <= nth p time 0) by (apply So; auto). lra. }
    destruct (String.eqb_spec bc "UHTR") as [_|B1].
    { intros E. assert (Eg : fst (solve_uhtr (y_n y) (y_H y) (at_times (y_h y)) time thr) = g) by congruence. rewrite <- Eg, uhtr_run. cbn [fst]. eexists. intros p Hp Hb. rewrite lin_short; [reflexivity| | |]; auto; rewrite ?map_length, ?seq_length; auto. intros i Hi. apply (Bp p); auto. }
    destruct (String.eqb_spec bc "UBWT") as [_|B2].
    { rewrite ubwt_run. destruct (grun _ _ _ _ _ _) as [[a b]|] eqn:E; [|discriminate]. cbn [option_map snd]. intros Eg. injection Eg as <-.
      pose proof (run_length _ _ _ _ a b 0 E) as [_ [Lb _]]. eexists. intros p Hp Hb. rewrite lin_short; [reflexivity| | |]; auto. intros i Hi. apply (Bp p); auto. }
    destruct rows as [|r rows]; [discriminate|]. destruct (Net_Model.all_some (map (y_flow y) (r :: rows))) as [Fs|] eqn:EF; [|discriminate].
    rewrite at_times_grid. destruct (solve_mift _ _ _ _ _ _ time thr) as [[[g0 Q] T]|] eqn:E; [|discriminate].
    destruct (Nat.eqb_spec k 0) as [K|K]; [|discriminate]. intros Eg. injection Eg as <-. specialize (Kr B1 B2 K).
    pose proof (all_some_length _ _ EF) as LF. rewrite map_length in LF. cbn [length] in Kr, LF.
    destruct Fs as [|F [|F' Fs]]; cbn [length] in LF; try lia. rewrite mift_one in E.
    destruct (grun _ _ _ _ _ _) as [[a b]|] eqn:Er; [|discriminate].
    destruct (mift_one_some _ _ _ _ _ F time thr a b Er) as [g1 [Q1 [T1 [E1 V]]]]. rewrite E1 in E. injection E as <- _ _.
    pose proof (run_length _ _ _ _ a b (zero_vec, 0) Er) as [_ [Lb _]].
    eexists. intros p Hp Hb. rewrite nth_map_seq by auto. rewrite V by auto. rewrite lin_short; [reflexivity| | |]; auto; [rewrite map_length; auto|]. intros i Hi. apply (Bp p); auto.
  Qed.

  Lemma gfunction_linear c l g thr : gfunction link uw (with_time c (VArr l)) = Some (G1 g) -> threshold_of c thr -> 0 <= thr ->
    exists a, forall p, (p < length l)%nat -> nth p l 0 <= thr -> nth p g 0 = a * Rmax (nth p l 0) 0 / thr.
  Proof.
    rewrite gfunction_arr. destruct (construct _) as [[q s]|] eqn:Ec; [|discriminate]. unfold evaluate.
    destruct (times (VArr l)) as [t|] eqn:Et; [|discriminate]. destruct (times_some _ _ Et) as [Em [N [So P]]]. intros E [r [Er ->]] T0.
    rewrite (construct_boreholes _ _ _ Ec) in *. change (boreholes_of (with_time c (VArr []))) with (boreholes_of c) in *. rewrite Er in *.
    destruct (make_system _ _ _ _ _) as [y|]; [|discriminate].
    pose proof (fun A B => solve_linear _ _ _ _ y t _ g A So P B E) as X. destruct X as [a A].
    - rewrite Em. destruct l; [contradiction|discriminate].
    - intros B1 B2 K. apply (construct_rows _ _ _ Ec B1 B2). auto.
    - exists a. intros p Hp Hb. specialize (A p). rewrite Em, map_length, (nth_map _ _ p 0) in A by auto. apply A; auto. apply Rmax_lub; auto.
  Qed.
End Objects.
