(* Proofs about the stored coefficients of networks. *)
From Coq Require Import Reals Lra Lia List ZArith Bool.
From Verif Require Import Base LinAlg Net_Model Net_Spec Net_Proofs Net_Coef_Proofs Net_Heat_Proofs.
Import ListNotations.
Local Open Scope R_scope.

(* The coefficients without any store *)
Definition direct (N : net) (ps : list pipe) (k : method) (F : fmt) : option coefs :=
  let inl := coef_inlet N ps F in
  let heat := match inl with Some a => Some (coef_net_heat N (coef_qf N ps F a)) | None => None end in
  match k with
  | Inlet => inl
  | Outlet => coef_outlet N ps F
  | BoreHeat => match inl with Some a => Some (coef_qb N ps F a) | None => None end
  | FluidHeat => match inl with Some a => Some (coef_qf N ps F a) | None => None end
  | NetHeat => heat
  | NetInlet => match heat with Some h => coef_net_inlet h | None => None end
  | NetOutlet => match coef_outlet N ps F with
                 | Some o => Some (coef_net_outlet N (mixing (iOutlets N (f_rev F)) (f_m F)) o)
                 | None => None
                 end
  end.

Definition meth (id : nat) : method :=
  nth id [Inlet; Outlet; NetInlet; NetOutlet; BoreHeat; FluidHeat; NetHeat] Inlet.

Section Cache.
Variables (N : net) (ps : list pipe) (H : args -> Prop) (fmt_of : args -> fmt).
Hypothesis W : wf N.
Hypothesis HG : forall g, H g -> good_args N ps g (fmt_of g).
Hypothesis HT : forall g h, H g -> H h -> told_apart g h.

Definition one_mix : Prop := forall g h, H g -> H h ->
  mixing (iOutlets N (f_rev (fmt_of g))) (f_m (fmt_of g)) = mixing (iOutlets N (f_rev (fmt_of h))) (f_m (fmt_of h)).

(* P: all calls mix the fluid in the same way *)
Variable P : Prop.
Hypothesis HP : P -> one_mix.

Definition ok_id (id : nat) : Prop := id = 3%nat -> P.

Definition inv (s : state) : Prop :=
  length (s_store s) = 7%nat
  /\ (forall id e, nth id (s_store s) None = Some e ->
        exists h, H h /\ bcast Rmult (g_m h) (g_cp h) = Some (e_mcp e) /\ e_seg e = g_n h /\ e_rat e = g_r h
          /\ (ok_id id -> direct N ps (meth id) (fmt_of h) = Some (e_coef e)))
  /\ (forall F, s_fmt s = Some F -> P -> exists h, H h
        /\ mixing (iOutlets N (f_rev F)) (f_m F) = mixing (iOutlets N (f_rev (fmt_of h))) (f_m (fmt_of h)))
  /\ (s_fmt s = None -> forall id, nth id (s_store s) None = None)
  /\ (forall m w, s_mix s = Some (m, w) -> (length m = 1%nat \/ length m = nInlets N)
        /\ (P -> exists h, H h /\ w = mixing (iOutlets N (f_rev (fmt_of h))) (f_m (fmt_of h)))).

Lemma inv_init : inv init_state.
Proof.
  assert (E : forall id, nth id (repeat (@None entry) 7) None = None).
  { intro id. do 7 (destruct id as [|id]; [reflexivity|]). destruct id; reflexivity. }
  unfold inv, init_state. simpl s_store. simpl s_fmt. simpl s_mix. split; [auto|].
  split; [intros id e He; rewrite E in He; discriminate|]. split; [discriminate|].
  split; [auto|discriminate].
Qed.

(* Lengths of the arguments *)
Lemma good_len g : H g ->
  (length (g_m g) = 1%nat \/ length (g_m g) = nInlets N)
  /\ (length (g_cp g) = 1%nat \/ length (g_cp g) = nInlets N).
Proof.
  intro Hg. destruct (HG g Hg) as [Hf _]. unfold format_inputs in Hf.
  destruct (format_flow N (g_m g)) as [m|] eqn:Em; [|discriminate].
  destruct (format_dir (g_m g)) as [rv|] eqn:Ed; [|discriminate].
  destruct (format_cp N (g_cp g)) as [cp|] eqn:Ec; [|discriminate].
  split.
  - unfold format_flow in Em. destruct (g_m g) as [|a [|b l]]; auto;
    match type of Em with (if Nat.eqb ?x ?y then _ else _) = _ => destruct (Nat.eqb_spec x y) as [|]; [auto|discriminate] end.
  - unfold format_cp in Ec. destruct (g_cp g) as [|a [|b l]]; auto;
    match type of Ec with (if negb (Nat.eqb ?x ?y) then _ else _) = _ => destruct (Nat.eqb_spec x y) as [|]; [auto|simpl in Ec; discriminate] end.
Qed.

Lemma bcast_len f x y n :
  (length x = 1%nat \/ length x = n) -> (length y = 1%nat \/ length y = n) ->
  exists l, bcast f x y = Some l /\ (length l = 1%nat \/ length l = n).
Proof.
  intros Hx Hy. unfold bcast. destruct (Nat.eqb_spec (length x) (length y)) as [E|E].
  - eexists. split; [reflexivity|]. rewrite map_length, combine_length. lia.
  - destruct x as [|a [|b x]].
    + destruct y as [|c [|d y]]; simpl in *; try lia. exists []. simpl. auto.
    + eexists. split; [reflexivity|]. rewrite map_length. lia.
    + destruct y as [|c [|d y]]; simpl length in *; try lia.
      eexists. split; [reflexivity|]. rewrite map_length. simpl. lia.
Qed.

Lemma good_mcp g : H g -> exists mcp, bcast Rmult (g_m g) (g_cp g) = Some mcp
  /\ (length mcp = 1%nat \/ length mcp = nInlets N).
Proof. intro Hg. destruct (good_len g Hg). apply bcast_len; auto. Qed.

Lemma near_val_some x y n :
  (length x = 1%nat \/ length x = n) -> (length y = 1%nat \/ length y = n) -> exists b, near_val x y = Some b.
Proof.
  intros Hx Hy. unfold near_val.
  destruct (bcast_len (fun a b => if Rltb (Rabs (a - b)) (Rabs b * tol) then 1 else 0) x y n Hx Hy) as [l [-> _]]. eauto.
Qed.

Lemma near_lists_some x y : (length x <= length y)%nat -> exists b, near_lists x y = Some b.
Proof.
  revert y; induction x as [|a x IH]; intros [|b y] L; simpl in *; eauto; [lia|].
  destruct (IH y) as [r ->]; [lia|]. eauto.
Qed.

Lemma check_some g e : H g -> (exists h, H h /\ bcast Rmult (g_m h) (g_cp h) = Some (e_mcp e) /\ e_rat e = g_r h) ->
  exists b, check_coefficients g (Some e) = Some b.
Proof.
  intros Hg [h [Hh [Eb Er]]]. unfold check_coefficients.
  destruct (good_mcp g Hg) as [mcp [-> Lm]]. destruct (good_mcp h Hh) as [mcp' [Em' Lm']].
  rewrite Eb in Em'. inversion Em'; subst mcp'.
  destruct (near_val_some mcp (e_mcp e) (nInlets N) Lm Lm') as [b ->].
  assert (R : exists r, near_ratios (g_r g) (e_rat e) = Some r).
  { rewrite Er. unfold near_ratios.
    assert (Lr : forall a l, H a -> g_r a = RList l -> length l = nB N).
    { intros a l Ha El. destruct (HG a Ha) as [Hf [_ Hr]]. unfold format_inputs in Hf.
      destruct (format_flow N (g_m a)), (format_dir (g_m a)), (format_cp N (g_cp a)), (format_seg N (g_n a)); try discriminate.
      injection Hf as E. rewrite <- E in Hr. simpl in Hr. rewrite El in Hr. simpl in Hr. rewrite map_length in Hr. auto. }
    destruct (g_r h) as [|rh|lh] eqn:E1, (g_r g) as [|rg|lg] eqn:E2; eauto.
    apply near_lists_some. rewrite (Lr g lg Hg E2), (Lr h lh Hh E1). auto. }
  destruct R as [r ->]. eauto.
Qed.

Definition good_step (id : nat) (g : args) (s' : state) (r : option coefs) : Prop :=
  inv s' /\ (ok_id id -> r = direct N ps (meth id) (fmt_of g)) /\ (r <> None -> s_fmt s' <> None).

Lemma inv_entry s id g v : inv s -> H g -> (id < 7)%nat -> s_fmt s <> None ->
  (ok_id id -> direct N ps (meth id) (fmt_of g) = Some v) -> inv (set_entry s id g v).
Proof.
  intros [I1 [I2 [I3 [I4 I5]]]] Hg Hid Hn Hv. unfold set_entry.
  destruct (good_mcp g Hg) as [mcp [E _]]. rewrite E.
  unfold inv. cbn [s_store s_fmt s_mix]. split; [rewrite upd_length; auto|].
  split; [|split; [auto|split; [intro C; contradiction|auto]]].
  intros id' e He. destruct (Nat.eq_dec id id') as [<-|Ne].
  - rewrite nth_upd_eq in He by lia. inversion He; subst e. exists g. cbn. auto.
  - rewrite nth_upd_neq in He by auto. apply I2; auto.
Qed.

Lemma cached_ok id g compute s : inv s -> H g -> (id < 7)%nat ->
  (forall s0, inv s0 -> good_step id g (fst (compute s0)) (snd (compute s0))) ->
  good_step id g (fst (cached id g compute s)) (snd (cached id g compute s)).
Proof.
  intros I Hg Hid HC. unfold cached.
  assert (C : exists b, check_coefficients g (nth id (s_store s) None) = Some b).
  { destruct (nth id (s_store s) None) as [e|] eqn:E.
    - destruct I as [_ [I2 _]]. destruct (I2 id e E) as [h [Hh [E1 [_ [E2 _]]]]].
      apply check_some; auto. exists h. auto.
    - unfold check_coefficients. destruct (good_mcp g Hg) as [mcp [-> _]]. eauto. }
  destruct C as [b Eb]. rewrite Eb. destruct b.
  - destruct (nth id (s_store s) None) as [e|] eqn:E.
    + simpl. assert (I' := I). destruct I as [_ [I2 [_ [I4 _]]]]. destruct (I2 id e E) as [h [Hh [E1 [E2 [E3 E4]]]]].
      assert (g = h).
      { apply (HT g h Hg Hh _ E1 (e_coef e)). rewrite <- E2, <- E3. destruct e; exact Eb. }
      subst h. split; auto. split.
      * intro O. rewrite (E4 O). auto.
      * intros _ Hn. rewrite (I4 Hn id) in E. discriminate.
    + unfold check_coefficients in Eb. destruct (bcast Rmult (g_m g) (g_cp g)); discriminate.
  - specialize (HC s I). destruct (compute s) as [s' [v|]]; simpl in *.
    + destruct HC as [J1 [J2 J3]].
      assert (Hn : s_fmt s' <> None) by (apply J3; discriminate).
      split; [|split].
      * apply inv_entry; auto. intro O. symmetry. auto.
      * auto.
      * intros _. unfold set_entry. destruct (bcast Rmult (g_m g) (g_cp g)); auto.
    + exact HC.
Qed.

Lemma inv_fmt s g : inv s -> H g -> inv (set_fmt s (fmt_of g)).
Proof.
  intros [I1 [I2 [I3 [I4 I5]]]] Hg. unfold set_fmt, inv. cbn. split; auto. split; auto.
  split; [|split; [discriminate|auto]]. intros F E. inversion E; subst. eauto.
Qed.

Lemma inlet_ok g s : inv s -> H g -> good_step 0 g (fst (m_inlet N ps g s)) (snd (m_inlet N ps g s)).
Proof.
  intros I Hg. apply cached_ok; auto; try lia. intros s0 I0.
  rewrite (proj1 (HG g Hg)). simpl. split; [apply inv_fmt; auto|]. split; auto. discriminate.
Qed.

Lemma outlet_ok g s : inv s -> H g -> good_step 1 g (fst (m_outlet N ps g s)) (snd (m_outlet N ps g s)).
Proof.
  intros I Hg. apply cached_ok; auto; try lia. intros s0 I0.
  rewrite (proj1 (HG g Hg)). simpl. split; [apply inv_fmt; auto|]. split; auto. discriminate.
Qed.

Lemma ok_any id : id <> 3%nat -> ok_id id.
Proof. intros Hn E. contradiction. Qed.

Lemma qb_ok g s : inv s -> H g -> good_step 4 g (fst (m_qb N ps g s)) (snd (m_qb N ps g s)).
Proof.
  intros I Hg. apply cached_ok; auto; try lia. intros s0 I0.
  rewrite (proj1 (HG g Hg)). assert (G := inlet_ok g _ (inv_fmt s0 g I0 Hg) Hg).
  destruct (m_inlet N ps g (set_fmt s0 (fmt_of g))) as [s' r]. simpl in G. destruct G as [G1 [G2 G3]].
  specialize (G2 (ok_any 0 ltac:(lia))). cbn in G2. destruct r as [b|]; simpl; (split; [auto|split]).
  - intros _. cbn. rewrite <- G2. auto.
  - intros _. apply G3. discriminate.
  - intros _. cbn. rewrite <- G2. auto.
  - intro C. contradiction.
Qed.

Lemma qf_ok g s : inv s -> H g -> good_step 5 g (fst (m_qf N ps g s)) (snd (m_qf N ps g s)).
Proof.
  intros I Hg. apply cached_ok; auto; try lia. intros s0 I0.
  rewrite (proj1 (HG g Hg)). assert (G := inlet_ok g _ (inv_fmt s0 g I0 Hg) Hg).
  destruct (m_inlet N ps g (set_fmt s0 (fmt_of g))) as [s' r]. simpl in G. destruct G as [G1 [G2 G3]].
  specialize (G2 (ok_any 0 ltac:(lia))). cbn in G2. destruct r as [b|]; simpl; (split; [auto|split]).
  - intros _. cbn. rewrite <- G2. auto.
  - intros _. apply G3. discriminate.
  - intros _. cbn. rewrite <- G2. auto.
  - intro C. contradiction.
Qed.

Lemma net_heat_ok g s : inv s -> H g -> good_step 6 g (fst (m_net_heat N ps g s)) (snd (m_net_heat N ps g s)).
Proof.
  intros I Hg. apply cached_ok; auto; try lia. intros s0 I0.
  assert (G := qf_ok g s0 I0 Hg).
  destruct (m_qf N ps g s0) as [s' r]. simpl in G. destruct G as [G1 [G2 G3]].
  specialize (G2 (ok_any 5 ltac:(lia))). cbn in G2.
  destruct r as [b|]; simpl; (split; [auto|split]); try (intro C; contradiction).
  - intros _. cbn. destruct (coef_inlet N ps (fmt_of g)); [|discriminate]. injection G2 as ->. auto.
  - intros _. apply G3. discriminate.
  - intros _. cbn. destruct (coef_inlet N ps (fmt_of g)); [discriminate|auto].
Qed.

Lemma net_inlet_ok g s : inv s -> H g -> good_step 2 g (fst (m_net_inlet N ps g s)) (snd (m_net_inlet N ps g s)).
Proof.
  intros I Hg. apply cached_ok; auto; try lia. intros s0 I0.
  assert (G := net_heat_ok g s0 I0 Hg).
  destruct (m_net_heat N ps g s0) as [s' r]. simpl in G. destruct G as [G1 [G2 G3]].
  specialize (G2 (ok_any 6 ltac:(lia))). cbn in G2.
  destruct r as [b|]; simpl; (split; [auto|split]); try (intro C; contradiction).
  - intros _. cbn. rewrite <- G2. auto.
  - intros _. apply G3. discriminate.
  - intros _. cbn. rewrite <- G2. auto.
Qed.

Lemma mixing_ok g s : inv s -> H g -> s_fmt s <> None ->
  exists s' w, m_mixing N (g_m g) s = (s', Some w) /\ inv s' /\ s_fmt s' <> None
    /\ (P -> w = mixing (iOutlets N (f_rev (fmt_of g))) (f_m (fmt_of g))).
Proof.
  intros I Hg Hn. assert (I' := I). destruct I as [I1 [I2 [I3 [I4 I5]]]].
  unfold m_mixing.
  assert (Miss : exists s' w, match s_fmt s with
                  | Some F => (mkst (s_store s) (s_fmt s) (Some (g_m g, mixing (iOutlets N (f_rev F)) (f_m F))),
                       Some (mixing (iOutlets N (f_rev F)) (f_m F)))
                  | None => (s, None) end = (s', Some w) /\ inv s' /\ s_fmt s' <> None
    /\ (P -> w = mixing (iOutlets N (f_rev (fmt_of g))) (f_m (fmt_of g)))).
  { destruct (s_fmt s) as [F|] eqn:EF; [|contradiction].
    eexists _, _. split; [reflexivity|]. split; [|split; [discriminate|]].
    - unfold inv. cbn. split; auto. split; auto. split; auto. split; [discriminate|].
      intros m w E. inversion E; subst. split; [apply (good_len g Hg)|]. intro p. destruct (I3 F eq_refl p) as [h [Hh ->]]. eauto.
    - intro p. destruct (I3 F eq_refl p) as [h [Hh ->]]. apply (HP p); auto. }
  destruct (s_mix s) as [[m0 w]|] eqn:Em.
  - destruct (I5 m0 w eq_refl) as [Lm I6].
    destruct (near_val_some (g_m g) m0 (nInlets N)) as [b ->]; [apply (good_len g Hg)|exact Lm|].
    destruct b.
    + eexists _, _. split; [reflexivity|]. split; [auto|split; auto].
      intro p. destruct (I6 p) as [h' [Hh' ->]]. apply (HP p); auto.
    + destruct (s_fmt s); exact Miss.
  - destruct (s_fmt s); exact Miss.
Qed.

Lemma net_outlet_ok g s : inv s -> H g -> good_step 3 g (fst (m_net_outlet N ps g s)) (snd (m_net_outlet N ps g s)).
Proof.
  intros I Hg. apply cached_ok; auto; try lia. intros s0 I0.
  assert (G := outlet_ok g s0 I0 Hg).
  destruct (m_outlet N ps g s0) as [s' r]. simpl in G. destruct G as [G1 [G2 G3]].
  specialize (G2 (ok_any 1 ltac:(lia))). cbn in G2.
  destruct r as [b|].
  - destruct (mixing_ok g s' G1 Hg) as [s'' [w [-> [J1 [J2 J3]]]]]; [apply G3; discriminate|].
    simpl. split; auto. split; auto. intro O. cbn. rewrite <- G2. rewrite (J3 (O eq_refl)). auto.
  - simpl. split; auto. split; [|intro C; contradiction]. intros _. cbn. rewrite <- G2. auto.
Qed.

Definition id_of (k : method) : nat :=
  match k with Inlet => 0 | Outlet => 1 | NetInlet => 2 | NetOutlet => 3 | BoreHeat => 4 | FluidHeat => 5 | NetHeat => 6 end.

Lemma call_ok k g s : inv s -> H g -> good_step (id_of k) g (fst (call N ps k g s)) (snd (call N ps k g s)).
Proof.
  intros I Hg. destruct k; cbn [call id_of];
  [apply inlet_ok|apply outlet_ok|apply net_inlet_ok|apply net_outlet_ok|apply qb_ok|apply qf_ok|apply net_heat_ok]; auto.
Qed.

Lemma calls_ok l s : inv s -> (forall k g, In (k, g) l -> H g) -> inv (calls N ps l s).
Proof.
  revert s; induction l as [|[k g] l IH]; intros s I Hl; auto. cbn [calls]. apply IH.
  - apply (call_ok k g s); auto. apply (Hl k). left; auto.
  - intros k' g' Hin. apply (Hl k'). right; auto.
Qed.

Lemma meth_id k : meth (id_of k) = k.
Proof. destruct k; reflexivity. Qed.

End Cache.

Section Direct.
Variables (N : net) (ps : list pipe) (H : args -> Prop) (fmt_of : args -> fmt).
Hypothesis HG : forall g, H g -> good_args N ps g (fmt_of g).
Hypothesis HT : forall g h, H g -> H h -> told_apart g h.

Lemma call_direct l k g : (forall k g, In (k, g) l -> H g) -> H g ->
  (k = NetOutlet -> one_mix N H fmt_of) ->
  snd (call N ps k g (calls N ps l init_state)) = direct N ps k (fmt_of g).
Proof.
  intros Hl Hg Hk. assert (I := calls_ok N ps H fmt_of HG HT (one_mix N H fmt_of) (fun p => p) l init_state (inv_init N ps H fmt_of (one_mix N H fmt_of)) Hl).
  destruct (call_ok N ps H fmt_of HG HT (one_mix N H fmt_of) (fun p => p) k g _ I Hg) as [_ [G _]]. rewrite meth_id in G. apply G.
  intro E. apply Hk. destruct k; simpl in E; try discriminate. auto.
Qed.

End Direct.

(* The first call on a fresh object *)
Lemma told_apart_refl g : told_apart g g.
Proof. intros mcp _ v _. auto. Qed.

Lemma fresh_direct N ps k g F : wf N -> good_args N ps g F -> fresh N ps k g = direct N ps k F.
Proof.
  intros W G. unfold fresh.
  apply (call_direct N ps (fun h => h = g) (fun _ => F)) with (l := []); auto.
  - intros h ->. auto.
  - intros a b -> ->. apply told_apart_refl.
  - intros k' g' [].
  - intros _ a b _ _. auto.
Qed.
