From Coq Require Import Reals Lra Lia List Bool Arith.
From Verif Require Import Base LinAlg Net_Model Net_Spec Net_Proofs Net_Coef_Proofs Net_Cache_Proofs Net_More_Proofs Net_Extra_Proofs Pipe_Model Alias_Proofs
  NetAlias_Model NetAlias_Spec.
Import ListNotations.
Local Open Scope R_scope.

(* --- a call with references is the call with values --- *)
Lemma format_length N g F : format_inputs N g = Some F -> length (g_m g) <> 1%nat -> f_m F = g_m g.
Proof.
  unfold format_inputs. destruct (format_flow N (g_m g)) as [m|] eqn:E; [|discriminate]. destruct (format_dir (g_m g)), (format_cp N (g_cp g)), (format_seg N (g_n g)); try discriminate.
  intros [= <-] L. cbn [f_m]. unfold format_flow in E. destruct (g_m g) as [|x [|y l']]; try (cbn in L; lia);
    (match type of E with (if ?c then _ else _) = _ => destruct c; [|discriminate] end); injection E as <-; reflexivity.
Qed.

Lemma source_flows h N g F : format_inputs N (deref h g) = Some F -> match source h (q_m g) with Some a => h a | None => f_m F end = f_m F.
Proof.
  intros E. unfold source. pose proof (format_length _ _ _ E) as L. cbn [deref g_m] in L. destruct (q_m g) as [x|a]; [reflexivity|].
  destruct (Nat.eqb_spec (length (h a)) 1) as [|N1]; [reflexivity|]. symmetry. exact (L N1).
Qed.

Lemma view_fmt h N g F t : format_inputs N (deref h g) = Some F -> view h (r_set_fmt h t g F) = set_fmt (view h t) F.
Proof.
  intros E. unfold view, r_set_fmt, set_fmt. cbn [t_store t_fmt t_mix s_store s_mix option_map]. f_equal. f_equal. unfold fmt_at. cbn [z_fmt z_from].
  rewrite (source_flows h N g F E). destruct F; reflexivity.
Qed.

Lemma view_set h t id g v : view h (r_set_entry h t id g v) = set_entry (view h t) id (deref h g) v.
Proof. unfold r_set_entry, set_entry. cbn [deref g_m g_cp]. destruct (bcast _ _ _); reflexivity. Qed.

Definition agrees (h : heap) (c : rstate -> rstate * option coefs) (f : state -> answer) : Prop :=
  forall t, view h (fst (c t)) = fst (f (view h t)) /\ snd (c t) = snd (f (view h t)).

Lemma view_cached h id g c f : agrees h c f -> agrees h (r_cached h id g c) (cached id (deref h g) f).
Proof.
  intros A t. unfold r_cached, cached. cbn [view s_store]. destruct (check_coefficients _ _) as [[|]|]; try (split; reflexivity).
  destruct (A t) as [V1 V2]. fold (view h t). destruct (c t) as [t' r], (f (view h t)) as [s' r']. cbn [fst snd] in V1, V2. subst s' r'.
  destruct r; cbn [fst snd]; [split; [apply view_set|reflexivity]|split; reflexivity].
Qed.

Ltac follow A := let V1 := fresh "V" in let V2 := fresh "V" in destruct A as [V1 V2];
  match type of V2 with snd ?x = snd ?y => destruct x as [? ?], y as [? ?] end; cbn [fst snd] in V1, V2; subst.

Section View.
Variables (h : heap) (N : net) (ps : list pipe) (g : rargs).

Lemma view_inlet : agrees h (r_inlet h N ps g) (m_inlet N ps (deref h g)).
Proof. apply view_cached. intros t. destruct (format_inputs N (deref h g)) as [F|] eqn:E; [|split; reflexivity]. split; [apply (view_fmt h N); exact E|reflexivity]. Qed.
Lemma view_outlet : agrees h (r_outlet h N ps g) (m_outlet N ps (deref h g)).
Proof. apply view_cached. intros t. destruct (format_inputs N (deref h g)) as [F|] eqn:E; [|split; reflexivity]. split; [apply (view_fmt h N); exact E|reflexivity]. Qed.
Lemma view_qb : agrees h (r_qb h N ps g) (m_qb N ps (deref h g)).
Proof.
  apply view_cached. intros t. destruct (format_inputs N (deref h g)) as [F|] eqn:E; [|split; reflexivity].
  rewrite <- (view_fmt h N g F t E). follow (view_inlet (r_set_fmt h t g F)). destruct o0; split; reflexivity.
Qed.
Lemma view_qf : agrees h (r_qf h N ps g) (m_qf N ps (deref h g)).
Proof.
  apply view_cached. intros t. destruct (format_inputs N (deref h g)) as [F|] eqn:E; [|split; reflexivity].
  rewrite <- (view_fmt h N g F t E). follow (view_inlet (r_set_fmt h t g F)). destruct o0; split; reflexivity.
Qed.
Lemma view_net_heat : agrees h (r_net_heat h N ps g) (m_net_heat N ps (deref h g)).
Proof. apply view_cached. intros t. follow (view_qf t). destruct o0; split; reflexivity. Qed.
Lemma view_net_inlet : agrees h (r_net_inlet h N ps g) (m_net_inlet N ps (deref h g)).
Proof. apply view_cached. intros t. follow (view_net_heat t). destruct o0; split; reflexivity. Qed.

Lemma view_mixing m t :
  view h (fst (r_mixing h N m t)) = fst (m_mixing N (flow_at h m) (view h t))
  /\ snd (r_mixing h N m t) = snd (m_mixing N (flow_at h m) (view h t)).
Proof.
  unfold r_mixing, m_mixing. destruct t as [a b [[m0 w]|]]; cbn [view t_mix t_fmt t_store s_mix s_fmt s_store option_map fst snd].
  - destruct (near_val (flow_at h m) (flow_at h m0)) as [[|]|]; try (split; reflexivity). destruct b; split; reflexivity.
  - destruct b; split; reflexivity.
Qed.

Lemma view_net_outlet : agrees h (r_net_outlet h N ps g) (m_net_outlet N ps (deref h g)).
Proof.
  apply view_cached. intros t. follow (view_outlet t). destruct o0; [|split; reflexivity].
  change (g_m (deref h g)) with (flow_at h (q_m g)). follow (view_mixing (q_m g) r). destruct o0; split; reflexivity.
Qed.
End View.

Lemma view_call h N ps k g : agrees h (r_call h N ps k g) (call N ps k (deref h g)).
Proof.
  destruct k; [apply view_inlet|apply view_outlet|apply view_net_inlet|apply view_net_outlet|apply view_qb|apply view_qf|apply view_net_heat].
Qed.

(* --- what a call changes --- *)
Section Keep.
Variables (h : heap) (N : net) (ps : list pipe) (g : rargs).
Variables (A : option rfmt -> Prop) (B : option (flow * (nat -> R)) -> Prop).
Hypothesis HA : forall F, format_inputs N (deref h g) = Some F -> A (Some (mkrfmt F (source h (q_m g)))).
Hypothesis HB : forall w, B (Some (q_m g, w)).
Definition keeps (c : rstate -> rstate * option coefs) : Prop := forall t, A (t_fmt t) -> B (t_mix t) -> A (t_fmt (fst (c t))) /\ B (t_mix (fst (c t))).

Lemma keeps_cached id c : keeps c -> keeps (r_cached h id g c).
Proof.
  intros K t a b. unfold r_cached. destruct (check_coefficients _ _) as [[|]|]; try (split; assumption).
  destruct (K t a b) as [a' b']. destruct (c t) as [t' [v|]]; cbn [fst] in *; [|split; assumption]. unfold r_set_entry. destruct (bcast _ _ _); split; assumption.
Qed.
Lemma keeps_inlet : keeps (r_inlet h N ps g).
Proof. apply keeps_cached. intros t a b. case_eq (format_inputs N (deref h g)); [intros F E|intros E]; split; try assumption. apply HA. exact E. Qed.
Lemma keeps_outlet : keeps (r_outlet h N ps g).
Proof. apply keeps_cached. intros t a b. case_eq (format_inputs N (deref h g)); [intros F E|intros E]; split; try assumption. apply HA. exact E. Qed.
Lemma keeps_qb : keeps (r_qb h N ps g).
Proof.
  apply keeps_cached. intros t a b. case_eq (format_inputs N (deref h g)); [intros F E|intros E; split; assumption].
  destruct (keeps_inlet (r_set_fmt h t g F) (HA F E) b) as [a' b']. destruct (r_inlet h N ps g (r_set_fmt h t g F)) as [t' [v|]]; split; assumption.
Qed.
Lemma keeps_qf : keeps (r_qf h N ps g).
Proof.
  apply keeps_cached. intros t a b. case_eq (format_inputs N (deref h g)); [intros F E|intros E; split; assumption].
  destruct (keeps_inlet (r_set_fmt h t g F) (HA F E) b) as [a' b']. destruct (r_inlet h N ps g (r_set_fmt h t g F)) as [t' [v|]]; split; assumption.
Qed.
Lemma keeps_net_heat : keeps (r_net_heat h N ps g).
Proof. apply keeps_cached. intros t a b. destruct (keeps_qf t a b). destruct (r_qf h N ps g t) as [t' [v|]]; split; assumption. Qed.
Lemma keeps_net_inlet : keeps (r_net_inlet h N ps g).
Proof. apply keeps_cached. intros t a b. destruct (keeps_net_heat t a b). destruct (r_net_heat h N ps g t) as [t' [v|]]; split; assumption. Qed.
Lemma keeps_net_outlet : keeps (r_net_outlet h N ps g).
Proof.
  apply keeps_cached. intros t a b. destruct (keeps_outlet t a b) as [a' b']. destruct (r_outlet h N ps g t) as [t' [v|]]; cbn [fst] in *; [|split; assumption].
  assert (M : A (t_fmt (fst (r_mixing h N (q_m g) t'))) /\ B (t_mix (fst (r_mixing h N (q_m g) t')))).
  { unfold r_mixing. destruct (match t_mix t' with Some (m0, _) => near_val (flow_at h (q_m g)) (flow_at h m0) | None => Some false end) as [[|]|];
      try (split; assumption). destruct (t_fmt t') eqn:E; cbn [fst t_fmt t_mix]; [split; [rewrite <- E; rewrite E; assumption|apply HB]|rewrite E; split; assumption]. }
  destruct (r_mixing h N (q_m g) t') as [t'' [w|]]; exact M.
Qed.
Lemma keeps_call k : keeps (r_call h N ps k g).
Proof.
  destruct k; [apply keeps_inlet|apply keeps_outlet|apply keeps_net_inlet|apply keeps_net_outlet|apply keeps_qb|apply keeps_qf|apply keeps_net_heat].
Qed.
End Keep.

Lemma run_heap N ps l h t : fst (run N ps l (h, t)) = contents l h.
Proof.
  revert h t; induction l as [|[k g|a v] l IH]; intros h t; [reflexivity| |]; cbn [run fold_left after_event contents fst snd].
  - apply (IH h (fst (r_call h N ps k g t))).
  - apply (IH (set_heap h a v) t).
Qed.

(* --- careful callers --- *)
Definition known_fmt (given : list nat) (z : option rfmt) : Prop := forall F a, z = Some (mkrfmt F (Some a)) -> In a given.
Definition known_mix (given : list nat) (m : option (flow * (nat -> R))) : Prop := forall a w, m = Some (Arr a, w) -> In a given.
Definition known (given : list nat) (t : rstate) : Prop := known_fmt given (t_fmt t) /\ known_mix given (t_mix t).

Lemma view_write h a v given t : known given t -> ~ In a given -> view (set_heap h a v) t = view h t.
Proof.
  intros [K1 K2] H. assert (Q : forall b, In b given -> set_heap h a v b = h b).
  { intros b I. unfold set_heap. destruct (Nat.eqb_spec b a) as [->|]; [contradiction|reflexivity]. }
  unfold view. f_equal.
  - destruct (t_fmt t) as [[F [b|]]|] eqn:E; try reflexivity. cbn [option_map]. f_equal. unfold fmt_at. cbn [z_from z_fmt].
    rewrite Q by (apply (K1 F b); reflexivity). reflexivity.
  - destruct (t_mix t) as [[[x|b] w]|] eqn:E; try reflexivity. cbn [option_map fst snd flow_at]. rewrite Q by (apply (K2 b w); reflexivity). reflexivity.
Qed.

Lemma careful_view N ps l given h t : known given t -> careful given l ->
  view (contents l h) (snd (run N ps l (h, t))) = calls N ps (requests l h) (view h t).
Proof.
  revert given h t; induction l as [|[k g|a v] l IH]; intros given h t K C; [reflexivity| |]; cbn [run fold_left after_event contents requests fst snd calls].
  - cbn [careful] in C. destruct (view_call h N ps k g t) as [V _]. rewrite <- V. clear V.
    refine (IH _ h (fst (r_call h N ps k g t)) _ C). destruct K as [K1 K2].
    set (given' := match q_m g with Num _ => given | Arr a => a :: given end).
    assert (In' : forall a, In a given -> In a given') by (intros a I; unfold given'; destruct (q_m g); [exact I|right; exact I]).
    assert (Own : forall a, q_m g = Arr a -> In a given') by (intros a E; unfold given'; rewrite E; left; reflexivity).
    apply (keeps_call h N ps g (known_fmt given') (known_mix given')).
    + intros F _ F' a [= _ E]. apply Own. unfold source in E. destruct (q_m g) as [|b]; [discriminate|]. destruct (Nat.eqb _ _); [discriminate|]. congruence.
    + intros w a w' [= E _]. apply Own. exact E.
    + intros F a E. apply In', (K1 F a E).
    + intros a w E. apply In', (K2 a w E).
  - destruct C as [C1 C2]. rewrite <- (view_write h a v given t K C1). exact (IH given (set_heap h a v) t K C2).
Qed.

(* --- callers that refill their arrays --- *)
Section Refill.
Variables (N : net) (ps : list pipe) (H : args -> Prop) (fmt_of : args -> fmt).
Hypothesis HG : forall g, H g -> good_args N ps g (fmt_of g).
Hypothesis HT : forall g h, H g -> H h -> told_apart g h.
(* P: the flow of all calls and writes is shared in the same way *)
Variables (P : Prop) (rv : bool) (w : nat -> R).
Hypothesis HM : P -> forall g, H g -> f_rev (fmt_of g) = rv /\ mixing (iOutlets N rv) (f_m (fmt_of g)) = w.

Lemma HP : P -> one_mix N H fmt_of.
Proof. intros p g h Hg Hh. destruct (HM p g Hg) as [-> ->], (HM p h Hh) as [-> ->]. reflexivity. Qed.

Definition way (z : option rfmt) : Prop := P -> forall y, z = Some y -> f_rev (z_fmt y) = rv.
Definition good_state (h : heap) (t : rstate) : Prop := inv N ps H fmt_of P (view h t) /\ way (t_fmt t).

Lemma write_inv h a v t : length v = length (h a) -> (P -> mixing (iOutlets N rv) v = w) -> good_state h t -> good_state (set_heap h a v) t.
Proof.
  intros L V [(I1 & I2 & I3 & I4 & I5) Y]. split; [|exact Y]. split; [exact I1|split; [exact I2|split; [|split]]].
  - intros F E p. cbn [view s_fmt] in I3, E. destruct (t_fmt t) as [[F0 [b|]]|] eqn:Et; cbn [option_map] in *; [| |discriminate]; injection E as <-.
    + destruct (I3 _ eq_refl p) as (y & Hy & E). exists y. split; [exact Hy|]. cbn [fmt_at z_fmt z_from f_rev f_m] in *. unfold set_heap.
      destruct (Nat.eqb_spec b a) as [->|]; [|exact E]. pose proof (Y p _ eq_refl) as R0. cbn [z_fmt] in R0. rewrite R0.
      destruct (HM p y Hy) as [-> ->]. exact (V p).
    + destruct (I3 _ eq_refl p) as (y & Hy & E). exists y. split; [exact Hy|exact E].
  - intros E. apply I4. cbn [view s_fmt] in E |- *. destruct (t_fmt t); [discriminate|reflexivity].
  - intros m w0. cbn [view s_mix] in I5 |- *. destruct (t_mix t) as [[f w1]|]; cbn [option_map fst snd] in *; [|discriminate]. intros [= <- <-].
    destruct (I5 _ _ eq_refl) as [B E]. split; [|exact E].
    destruct f as [x|b]; cbn [flow_at] in *; [exact B|]. unfold set_heap. destruct (Nat.eqb_spec b a) as [->|]; [rewrite L|]; exact B.
Qed.

Lemma call_state h k g t : H (deref h g) -> good_state h t -> good_state h (fst (r_call h N ps k g t)).
Proof.
  intros Hg [I Y]. split.
  - destruct (view_call h N ps k g t) as [-> _]. apply (call_ok N ps H fmt_of HG HT P HP k _ _ I Hg).
  - apply (keeps_call h N ps g way (fun _ => True)); auto. intros F E p y [= <-]. cbn [z_fmt].
    destruct (HG _ Hg) as [E' _]. rewrite E in E'. injection E' as ->. apply (HM p _ Hg).
Qed.

Lemma run_inv l h t : in_place l h -> (forall k g, In (k, g) (requests l h) -> H g) -> (P -> forall a v, In (Write a v) l -> mixing (iOutlets N rv) v = w) ->
  good_state h t -> good_state (contents l h) (snd (run N ps l (h, t))).
Proof.
  revert h t; induction l as [|[k g|a v] l IH]; intros h t Q R0 V I; [exact I| |]; cbn [run fold_left after_event contents requests in_place fst snd] in *.
  - refine (IH h (fst (r_call h N ps k g t)) Q _ _ _); [intros k' g' E; apply (R0 k'); right; exact E|intros p b v E; apply (V p b); right; exact E|].
    apply call_state; [|exact I]. apply (R0 k). left. reflexivity.
  - destruct Q as [Q1 Q2]. refine (IH (set_heap h a v) t Q2 R0 _ _); [intros p b v' E; apply (V p b); right; exact E|].
    apply write_inv; [exact Q1|intro p; apply (V p a); left; reflexivity|exact I].
Qed.

Lemma init_state_ok h : good_state h r_init.
Proof. split; [exact (inv_init N ps H fmt_of P)|]. intros p y E. discriminate. Qed.

Lemma run_asked l k g h : wf N -> in_place l h -> (forall k g, In (k, g) (requests l h) -> H g) -> (P -> forall a v, In (Write a v) l -> mixing (iOutlets N rv) v = w) ->
  H (deref (contents l h) g) -> (k = NetOutlet -> P) ->
  asked N ps k g (run N ps l (h, r_init)) = fresh N ps k (deref (contents l h) g).
Proof.
  intros W Q R0 V Hg K. rewrite (fresh_direct N ps k _ (fmt_of (deref (contents l h) g)) W) by (apply HG; exact Hg).
  destruct (run_inv l h r_init Q R0 V (init_state_ok h)) as [I _].
  unfold asked. rewrite run_heap. destruct (view_call (contents l h) N ps k g (snd (run N ps l (h, r_init)))) as [_ ->].
  destruct (call_ok N ps H fmt_of HG HT P HP k _ _ I Hg) as [_ [E _]]. rewrite meth_id in E. apply E.
  intro E0. apply K. destruct k; try discriminate; reflexivity.
Qed.
End Refill.

Lemma outlet_mix N ps g s : s_mix (fst (m_outlet N ps g s)) = s_mix s.
Proof.
  unfold m_outlet, cached. destruct (check_coefficients _ _) as [[|]|]; try reflexivity. destruct (format_inputs N g) as [F|]; [|reflexivity].
  destruct (coef_outlet N ps F); [|reflexivity]. unfold set_entry. destruct (bcast _ _ _); reflexivity.
Qed.

(* --- the weights of the former flows --- *)
Lemma first_outlet h N ps g F : wf N -> good_args N ps (deref h g) F ->
  t_mix (fst (r_call h N ps NetOutlet g r_init)) = Some (q_m g, mixing (iOutlets N (f_rev F)) (f_m F))
  /\ exists mcp v, bcast Rmult (g_m (deref h g)) (g_cp (deref h g)) = Some mcp
       /\ nth 3 (t_store (fst (r_call h N ps NetOutlet g r_init))) None = Some (mkentry mcp (q_n g) (q_r g) v).
Proof.
  intros W G. destruct (fresh_some_all _ _ _ _ W G) as (i & o & qb & qf & x & b & _ & Ho & _).
  destruct (good_mcp N ps (fun y => y = deref h g) (fun _ => F) ltac:(intros ? ->; exact G) (deref h g) eq_refl) as [mcp [Em _]].
  rewrite (fresh_direct _ _ _ _ _ W G) in Ho. cbn [direct] in Ho.
  cbn [r_call]. unfold r_net_outlet. cbn [r_init t_store nth repeat]. unfold check_coefficients. rewrite Em.
  unfold r_outlet, r_cached. cbn [r_init t_store nth repeat]. unfold check_coefficients. rewrite Em, (proj1 G), Ho.
  unfold r_set_entry. cbn [deref g_m g_cp] in Em |- *. rewrite Em.
  unfold r_mixing, r_set_fmt. cbn [t_mix t_fmt t_store r_init z_fmt z_from]. rewrite (source_flows h N g F (proj1 G)). cbn [fst t_mix t_store].
  split; [reflexivity|]. eexists _, _. split; [reflexivity|]. reflexivity.
Qed.

Lemma stale N ps g a h m' F F' o : wf N -> q_m g = Arr a ->
  good_args N ps (deref h g) F -> good_args N ps (deref (set_heap h a m') g) F' ->
  length m' = length (h a) -> Forall (fun x => x <> 0) m' -> m' <> h a ->
  told_apart (deref (set_heap h a m') g) (deref h g) -> told_apart (deref h g) (deref (set_heap h a m') g) ->
  fresh N ps Outlet (deref (set_heap h a m') g) = Some o ->
  asked N ps NetOutlet g (run N ps [Ask NetOutlet g; Write a m'] (h, r_init))
  = Some (coef_net_outlet N (mixing (iOutlets N (f_rev F)) (f_m F)) o).
Proof.
  intros W Q G G' L Z Ne T T' Ho. set (h' := set_heap h a m') in *. set (x := deref h g) in *. set (y := deref h' g) in *.
  assert (Fa : flow_at h (q_m g) = h a) by (rewrite Q; reflexivity).
  assert (Fb : flow_at h' (q_m g) = m') by (rewrite Q; unfold h', set_heap; cbn [flow_at]; rewrite Nat.eqb_refl; reflexivity).
  set (H := fun z => z = x \/ z = y).
  assert (HG : forall z, H z -> good_args N ps z (the_fmt N z)).
  { intros z [->| ->]; apply good_the_fmt; [exists F|exists F']; assumption. }
  assert (HT : forall z z', H z -> H z' -> told_apart z z') by (intros z z' [->| ->] [->| ->]; auto using told_apart_refl).
  set (t := fst (r_call h N ps NetOutlet g r_init)).
  assert (HM : False -> forall z, H z -> f_rev (the_fmt N z) = false /\ mixing (iOutlets N false) (f_m (the_fmt N z)) = (fun _ => 0)) by contradiction.
  assert (I : inv N ps H (the_fmt N) False (view h' t)).
  { refine (proj1 (write_inv N ps H (the_fmt N) False false (fun _ => 0) HM h a m' t L _ _)); [contradiction|].
    apply (call_state N ps H (the_fmt N) HG HT False false (fun _ => 0) HM); [left; reflexivity|apply init_state_ok]. }
  destruct (first_outlet h N ps g F W G) as [M (mcp0 & v0 & Em & Es)]. fold t x in M, Em, Es.
  unfold asked. change (run N ps [Ask NetOutlet g; Write a m'] (h, r_init)) with (h', t). cbn [fst snd].
  destruct (view_call h' N ps NetOutlet g t) as [_ ->]. fold y. cbn [call]. unfold m_net_outlet, cached at 1.
  assert (C : check_coefficients y (nth 3 (s_store (view h' t)) None) = Some false).
  { cbn [view s_store]. rewrite Es. destruct (check_some N ps H (the_fmt N) HG y (mkentry mcp0 (q_n g) (q_r g) v0) (or_intror eq_refl)) as [b Eb].
    - exists x. split; [left; reflexivity|]. split; [exact Em|reflexivity].
    - rewrite Eb. destruct b; [|reflexivity]. exfalso. specialize (T _ Em v0 Eb). apply (f_equal g_m) in T. unfold x, y in T. cbn [g_m deref] in T. congruence. }
  rewrite C. pose proof (outlet_ok N ps H (the_fmt N) HG HT False y _ I (or_intror eq_refl)) as [_ [R _]]. specialize (R (ok_any False 1 ltac:(lia))).
  pose proof (outlet_mix N ps y (view h' t)) as Mx. cbn [view s_mix] in Mx. rewrite M in Mx. cbn [option_map fst snd] in Mx. rewrite Fb in Mx.
  destruct (m_outlet N ps y (view h' t)) as [s' r]. cbn [fst snd] in R, Mx. change (meth 1) with Outlet in R.
  rewrite (fresh_direct N ps Outlet y (the_fmt N y) W) in Ho by (apply HG; right; reflexivity). rewrite Ho in R. rewrite R.
  unfold m_mixing. rewrite Mx. unfold y. cbn [g_m deref]. rewrite Fb, near_val_refl by exact Z. reflexivity.
Qed.

(* --- the flows formatted last --- *)
Lemma formatted N ps g g' a h m' F o : wf N -> q_m g = Arr a -> length (h a) <> 1%nat ->
  good_args N ps (deref h g) F -> fresh N ps Outlet (deref h g) = Some o -> deref (set_heap h a m') g' = deref h g ->
  (forall mcp, bcast Rmult (g_m (deref h g)) (g_cp (deref h g)) = Some mcp -> check_coefficients (deref h g) (Some (mkentry mcp (q_n g) (q_r g) o)) = Some true) ->
  asked N ps NetOutlet g' (run N ps [Ask Outlet g; Write a m'] (h, r_init)) = Some (coef_net_outlet N (mixing (iOutlets N (f_rev F)) m') o).
Proof.
  intros W Q L G Ho D C.
  destruct (good_mcp N ps (fun y => y = deref h g) (fun _ => F) ltac:(intros ? ->; exact G) (deref h g) eq_refl) as [mcp [Em _]]. specialize (C mcp Em).
  rewrite (fresh_direct _ _ _ _ _ W G) in Ho. cbn [direct] in Ho.
  assert (E1 : r_call h N ps Outlet g r_init = (mkrst (upd (repeat None 7) 1 (Some (mkentry mcp (q_n g) (q_r g) o))) (Some (mkrfmt F (Some a))) None, Some o)).
  { cbn [r_call]. unfold r_outlet, r_cached. cbn [r_init t_store nth repeat]. unfold check_coefficients. rewrite Em, (proj1 G), Ho.
    unfold r_set_entry. cbn [deref g_m g_cp] in Em. rewrite Em. unfold r_set_fmt, source. rewrite Q. destruct (Nat.eqb_spec (length (h a)) 1); [contradiction|]. reflexivity. }
  unfold asked. cbn [run fold_left after_event fst snd]. rewrite E1. cbn [fst r_call]. set (h' := set_heap h a m') in *.
  assert (Ca : forall t, nth 3 (t_store t) None = None -> check_coefficients (deref h' g') (nth 3 (t_store t) None) = Some false)
    by (intros t E; rewrite E, D; unfold check_coefficients; rewrite Em; reflexivity).
  unfold r_net_outlet, r_cached at 1. rewrite Ca by reflexivity. unfold r_outlet, r_cached. rewrite D. cbn [t_store upd repeat nth]. rewrite C. cbn [e_coef].
  unfold r_mixing. cbn [t_mix t_fmt z_fmt z_from]. unfold h', set_heap. rewrite Nat.eqb_refl. cbn [snd]. reflexivity.
Qed.
