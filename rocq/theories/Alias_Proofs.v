From Coq Require Import Reals List Bool Arith Lia Lra Psatz FunctionalExtensionality.
From Verif Require Import Base LinAlg Bore_Model Net_Model Pipe_Model PipeCache_Model Alias_Model Alias_Spec.
Import ListNotations.
Local Open Scope R_scope.

Definition pv (h : heap) (p : robj * result) : pobj * result := (view h (fst p), snd p).

Lemma view_set_dir h g o : view h (r_set_dir g o) = set_dir (deref h g) (view h o).
Proof. reflexivity. Qed.
Lemma view_check h g o : view h (r_check_vars h g o) = check_vars (deref h g) (view h o).
Proof. unfold r_check_vars, check_vars. change (q_key (view h o)) with (option_map (key_at h) (w_key o)). destruct (same_vars _ _); reflexivity. Qed.
Lemma view_set_stored h id g v o : view h (r_set_stored id g v o) = set_stored id (deref h g) v (view h o).
Proof. unfold view, r_set_stored, set_stored. cbn. f_equal. apply functional_extensionality. intros i. destruct (Nat.eqb i id); reflexivity. Qed.

Lemma view_stored h id g c c' o : (forall o, pv h (c o) = c' (view h o)) -> pv h (r_stored h id g c o) = stored id (deref h g) c' (view h o).
Proof.
  intros E. unfold r_stored, stored. cbn [q_store view].
  replace (option_map fst (option_map (fun p : rkey * result => (key_at h (fst p), snd p)) (w_store o id)))
    with (option_map (fun p => key_at h (fst p)) (w_store o id)) by (destruct (w_store o id); reflexivity).
  destruct (same_coefs _ _) as [[|]|].
  - unfold pv. cbn [fst snd]. f_equal. destruct (w_store o id) as [[k v]|]; reflexivity.
  - specialize (E o). fold (view h o). rewrite <- E. unfold pv. destruct (c o) as [o' v]. cbn [fst snd]. destruct v; cbn [fst snd]; rewrite ?view_set_stored; reflexivity.
  - reflexivity.
Qed.

Lemma view_outlet h g o : pv h (r_outlet h g o) = q_outlet (deref h g) (view h o).
Proof.
  unfold r_outlet, q_outlet. apply view_stored. intros p. cbv zeta. rewrite <- view_check. reflexivity.
Qed.
Lemma view_temperature h z g o : pv h (r_temperature h z g o) = q_temperature z (deref h g) (view h o).
Proof. unfold r_temperature, q_temperature. cbv zeta. rewrite <- view_check. reflexivity. Qed.
Lemma view_heat h g o : pv h (r_heat h g o) = q_heat (deref h g) (view h o).
Proof. unfold r_heat, q_heat. apply view_stored. intros p. cbv zeta. rewrite <- view_set_dir, <- view_check. reflexivity. Qed.
Lemma view_fluid h g o : pv h (r_fluid h g o) = q_fluid (deref h g) (view h o).
Proof.
  unfold r_fluid, q_fluid. apply view_stored. intros p. rewrite <- view_set_dir, <- view_outlet. unfold pv.
  destruct (r_outlet h g (r_set_dir g p)) as [o' a]. cbn [fst snd]. destruct a; reflexivity.
Qed.
Lemma view_inlet h g o : pv h (r_inlet h g o) = q_inlet (deref h g) (view h o).
Proof.
  unfold r_inlet, q_inlet. apply view_stored. intros p. rewrite <- view_fluid. unfold pv.
  destruct (r_fluid h g p) as [o' a]. cbn [fst snd]. destruct a; reflexivity.
Qed.

Lemma view_step e h o q : by_value h e = Some q ->
  fst (fst (step e (h, o))) = h /\ (view h (snd (fst (step e (h, o)))), snd (step e (h, o))) = ask q (view h o).
Proof.
  intros E. destruct e; cbn in E; try discriminate; injection E as <-; (split; [reflexivity|]); cbn [step fst snd ask].
  - apply view_inlet.
  - apply view_outlet.
  - apply view_temperature.
  - apply view_heat.
  - apply view_fluid.
  - reflexivity.
Qed.

(** The references that an object holds *)
Definition holds (o : robj) (a : nat) : Prop :=
  (exists k, w_key o = Some k /\ kr_a k = Some a) \/ exists id k v, w_store o id = Some (k, v) /\ kr_a k = Some a.

Lemma view_write h a l o : ~ holds o a -> view (set_heap h a l) o = view h o.
Proof.
  intros N. unfold view.
  assert (K : forall k, kr_a k <> Some a -> key_at (set_heap h a l) k = key_at h k).
  { intros k D. unfold key_at. f_equal. destruct (kr_a k) as [b|]; [|reflexivity]. cbn. unfold set_heap.
    destruct (Nat.eqb_spec b a); [subst; congruence|reflexivity]. }
  f_equal.
  - destruct (w_key o) as [k|] eqn:E; [|reflexivity]. cbn. rewrite K; auto. intros D. apply N. left. exists k. auto.
  - apply functional_extensionality. intros i. destruct (w_store o i) as [[k v]|] eqn:E; [|reflexivity]. cbn. rewrite K; auto.
    intros D. apply N. right. exists i, k, v. auto.
Qed.

Definition within (o : robj) (given : list nat) : Prop := forall a, holds o a -> In a given.

Lemma within_set_dir g o G : within o G -> within (r_set_dir g o) G.
Proof. intros W a A. apply W. exact A. Qed.
Definition more (g : rcall) (G : list nat) : list nat := match r_a g with Some a => a :: G | None => G end.
Lemma more_in g G a : In a G -> In a (more g G).
Proof. unfold more. destruct (r_a g); cbn; auto. Qed.
Lemma more_own g G a : r_a g = Some a -> In a (more g G).
Proof. unfold more. intros ->. cbn. auto. Qed.
Lemma within_more g o G : within o G -> within o (more g G).
Proof. intros W a A. apply more_in, W, A. Qed.

Lemma within_check h g o G : within o (more g G) -> within (r_check_vars h g o) (more g G).
Proof.
  intros W. unfold r_check_vars. destruct (same_vars _ _); [auto|]. intros a [(k & E & A)|A].
  - cbn in E. injection E as <-. cbn in A. apply more_own; auto.
  - apply W. right. exact A.
Qed.
Lemma within_set id g v o G : within o (more g G) -> within (r_set_stored id g v o) (more g G).
Proof.
  intros W. intros a [A|(i & k & w & E & A)]; [apply W; left; exact A|]. cbn in E. destruct (Nat.eqb i id).
  - injection E as <- <-. cbn in A. apply more_own; auto.
  - apply W. right. exists i, k, w. auto.
Qed.
Lemma within_stored h id g c o G : (forall o, within o (more g G) -> within (fst (c o)) (more g G)) -> within o (more g G) -> within (fst (r_stored h id g c o)) (more g G).
Proof.
  intros C W. unfold r_stored. destruct (same_coefs _ _) as [[|]|]; auto. specialize (C o W). destruct (c o) as [o' v]. cbn in C.
  destruct v; cbn [fst]; auto; apply within_set; exact C.
Qed.
Lemma within_outlet h g o G : within o (more g G) -> within (fst (r_outlet h g o)) (more g G).
Proof. intros W. apply within_stored; auto. intros p P. cbn [fst]. apply within_check; auto. Qed.
Lemma within_fluid h g o G : within o (more g G) -> within (fst (r_fluid h g o)) (more g G).
Proof.
  intros W. apply within_stored; auto. intros p P. pose proof (within_outlet h g (r_set_dir g p) G (within_set_dir g p _ P)) as Q.
  destruct (r_outlet h g (r_set_dir g p)). exact Q.
Qed.

Definition given_after (e : event) (G : list nat) : list nat := match array_of e with Some a => a :: G | None => G end.

Lemma within_step e h o G : (forall id v, e <> WriteResult id v) -> within o G -> within (snd (fst (step e (h, o)))) (given_after e G).
Proof.
  intros NE W. destruct e; cbn [step fst snd]; unfold given_after; cbn [array_of].
  - apply within_stored; [|apply within_more; auto]. intros p P. pose proof (within_fluid h g p G P) as Q. destruct (r_fluid h g p). exact Q.
  - apply within_outlet, within_more; auto.
  - apply within_check, within_more; auto.
  - apply within_stored; [|apply within_more; auto]. intros p P. cbn [fst]. apply within_check, within_set_dir; auto.
  - apply within_fluid, within_more; auto.
  - intros a [(k & E & _)|(i & k & v & E & _)]; discriminate.
  - exact W.
  - exfalso. eapply NE. reflexivity.
Qed.

Lemma run_cons e l s : run (e :: l) s = run l (fst (step e s)).
Proof. reflexivity. Qed.

Lemma run_view l : forall h o G, within o G -> careful G l ->
  fst (run l (h, o)) = contents l h /\ view (contents l h) (snd (run l (h, o))) = after (requests l h) (view h o).
Proof.
  induction l as [|e l IH]; intros h o G W C; [cbn; auto|]. rewrite run_cons.
  destruct (by_value h e) as [q|] eqn:E.
  - destruct (view_step e h o q E) as [Eh Ev].
    assert (Ce : contents (e :: l) h = contents l h) by (destruct e; try reflexivity; discriminate).
    assert (Re : requests (e :: l) h = q :: requests l h) by (cbn [requests]; rewrite E; destruct e; try reflexivity; discriminate).
    assert (Cc : careful (given_after e G) l) by (destruct e; try exact C; discriminate).
    pose proof (within_step e h o G ltac:(intros id v ->; discriminate) W) as W'.
    rewrite Ce, Re. set (s := fst (step e (h, o))) in *. destruct s as [h' o'] eqn:S. cbn [fst snd] in *. subst h'.
    destruct (IH h o' _ W' Cc) as [A B]. split; [exact A|]. rewrite B. unfold after. cbn [fold_left]. f_equal.
    rewrite <- Ev. reflexivity.
  - destruct e; try discriminate E.
    + destruct C as [N C]. cbn [step fst snd contents requests by_value].
      destruct (IH (set_heap h a l0) o G W C) as [A B]. split; [exact A|]. rewrite view_write in B; [exact B|]. intros H. apply N, W, H.
    + contradiction.
Qed.

Lemma within_new u G : within (new_robj u) G.
Proof. intros a [(k & E & _)|(i & k & v & E & _)]; discriminate. Qed.

Lemma careful_view l h u : careful [] l ->
  fst (run l (h, new_robj u)) = contents l h /\ view (contents l h) (snd (run l (h, new_robj u))) = after (requests l h) (new_pobj u).
Proof. intros C. exact (run_view l h (new_robj u) [] (within_new u []) C). Qed.

(** ** Different ratios, different coefficients *)
From Verif Require Import Pipe_Spec Pipe_Alg_Proofs Pipe_Proofs Pipe_Main_Proofs PipeCache_Spec PipeCache_Proofs.

Lemma out_edge_strict b1 b2 b12 H x y : 0 < b1 + b2 -> 0 < b1 * b2 + b12 * (b1 + b2) -> 0 <= H -> x < y ->
  out_edge (vars_of b1 b2 b12) H y < out_edge (vars_of b1 b2 b12) H x.
Proof.
  intros Hs Hd HH L. pose proof (g_pos b1 b2 b12 Hd) as Pg. pose proof (bg_pos b1 b2 b12 Hd) as Pp. pose proof (bg_neg b1 b2 b12 Hd) as Pn.
  pose proof (C_pos b1 b2 b12 H Hs Hd HH) as CP. set (v := vars_of b1 b2 b12) in *. unfold out_edge.
  assert (K : 0 < (v1 v + v2 v) / vg v * cC v H) by (apply Rmult_lt_0_compat; [apply Rdiv_lt_0_compat; [exact Hs|exact Pg]|exact CP]).
  apply Rmult_lt_compat_l; [exact K|].
  assert (A1 : exp (- y * (vb v + vg v)) < exp (- x * (vb v + vg v))) by (apply exp_increasing; nra).
  assert (A2 : exp (- x * (vb v - vg v) - 2 * vg v * H) < exp (- y * (vb v - vg v) - 2 * vg v * H)) by (apply exp_increasing; nra).
  lra.
Qed.

Lemma out_edge_inj b1 b2 b12 H x y : 0 < b1 + b2 -> 0 < b1 * b2 + b12 * (b1 + b2) -> 0 <= H ->
  out_edge (vars_of b1 b2 b12) H x = out_edge (vars_of b1 b2 b12) H y -> x = y.
Proof.
  intros Hs Hd HH E. destruct (Rtotal_order x y) as [L|[L|L]]; auto; [pose proof (out_edge_strict b1 b2 b12 H x y Hs Hd HH L)|pose proof (out_edge_strict b1 b2 b12 H y x Hs Hd HH L)]; lra.
Qed.

Lemma outlet_ratios u m cp n l l' d e : good_flow u m cp n (Some l) d e -> good_flow u m cp n (Some l') d e ->
  (forall k, (k < n)%nat -> snd (outlet u m cp n (Some l)) k = snd (outlet u m cp n (Some l')) k) -> l = l'.
Proof.
  intros G G' E. unfold outlet in E. cbn [snd] in E. rewrite (vars_eq _ _ _ _ _ _ _ G) in E. unfold out_b in E.
  pose proof (b_sum _ _ _ _ _ _ _ G) as Hs. pose proof (b_det _ _ _ _ _ _ _ G) as Hd. pose proof (H_nn _ _ _ _ _ _ _ G) as HH. pose proof (H_pos _ _ _ _ _ _ _ G) as HP.
  pose proof (ed_nth _ _ _ _ _ _ _ G) as N. pose proof (ed_nth _ _ _ _ _ _ _ G') as N'. cbn [default_ratios] in N, N'.
  set (ed := segment_edges (u_b u) n (Some l)) in *. set (ed' := segment_edges (u_b u) n (Some l')) in *. set (H := bH (u_b u)) in *.
  assert (Q : forall k, (k <= n)%nat -> nth k ed 0 = nth k ed' 0).
  { induction k as [|k IH]; intros K; [rewrite N, N' by lia; reflexivity|].
    specialize (E k ltac:(lia)). rewrite <- (IH ltac:(lia)) in E. eapply out_edge_inj; [exact Hs|exact Hd|exact HH|]. lra. }
  destruct (r_good _ _ _ _ _ _ _ G) as [Ln _]. destruct (r_good _ _ _ _ _ _ _ G') as [Ln' _].
  apply (nth_ext l l' 0 0); [congruence|]. intros k K. rewrite Ln in K.
  pose proof (Q k ltac:(lia)) as Q1. pose proof (Q (S k) ltac:(lia)) as Q2. rewrite N, N' in Q1, Q2 by lia. cbn [sumn] in Q2.
  apply Rmult_eq_reg_l with H; [|lra]. lra.
Qed.

Lemma near_val_refl l : Forall (fun x => x <> 0) l -> near_val l l = Some true.
Proof.
  intros F. unfold near_val, bcast. rewrite Nat.eqb_refl. f_equal. induction F as [|x l Hx _ IH]; [reflexivity|]. cbn [combine map forallb fst snd].
  rewrite IH, andb_true_r. rewrite (proj2 (Rltb_true _ _)); [apply Reqb_true; reflexivity|].
  rewrite Rminus_diag_eq, Rabs_R0 by reflexivity. pose proof (Rabs_pos_lt x Hx). unfold tol. nra.
Qed.
Lemma near_same x : x <> 0 -> near_mcp x x = true.
Proof.
  intros N. unfold near_mcp. apply Rltb_true. rewrite Rminus_diag_eq by reflexivity. rewrite Rabs_R0.
  pose proof (Rabs_pos_lt x N). unfold tol. nra.
Qed.

Lemma first_outlet h g u : let s := run [GetOutlet g] (h, new_robj u) in
  fst s = h /\ snd (step (GetOutlet g) (h, new_robj u)) = answer_of u (AskOutlet (deref h g))
  /\ w_store (snd s) 4%nat = Some (rkey_of g, answer_of u (AskOutlet (deref h g))).
Proof. cbv zeta. repeat split. Qed.

Lemma outlet_hit h g o v : r_m g * r_cp g <> 0 -> (forall a, r_a g = Some a -> Forall (fun x => x <> 0) (h a)) ->
  w_store o 4%nat = Some (rkey_of g, v) -> snd (r_outlet h g o) = v.
Proof.
  intros M F E. unfold r_outlet, r_stored. rewrite E. cbn [option_map fst].
  assert (Q : same_coefs (deref h g) (Some (key_at h (rkey_of g))) = Some true).
  { unfold same_coefs. cbn [key_at rkey_of kr_mcp kr_n kr_a k_mcp k_n k_r deref c_m c_cp c_n c_r]. rewrite Nat.eqb_refl, near_same by exact M.
    destruct (r_a g) as [a|]; cbn [option_map]; [|reflexivity]. rewrite near_val_refl by (apply F; reflexivity). reflexivity. }
  rewrite Q. reflexivity.
Qed.
