(** Arrays shared between a borehole and its caller: C153. *)
From Coq Require Import Reals Lra Lia List Bool Psatz FunctionalExtensionality.
From Verif Require Import Base LinAlg Bore_Model Net_Model Net_Spec Pipe_Model Pipe_Spec PipeCache_Model PipeCache_Spec Pipe_Props
  Alias_Model Alias_Spec Alias_Proofs.
Import ListNotations.
Local Open Scope R_scope.

(** C153: a caller that writes in no array of coefficients it received, and in no array of
    ratios after having handed it over, gets the answers of an object that keeps copies. *)
Theorem C153_copies l e h u q : careful [] l -> by_value (contents l h) e = Some q ->
  snd (step e (run l (h, new_robj u))) = snd (ask q (after (requests l h) (new_pobj u))).
Proof.
  intros C E. destruct (careful_view l h u C) as [A B]. destruct (run l (h, new_robj u)) as [h' o]. cbn [fst snd] in A, B. subst h'.
  destruct (view_step e _ o q E) as [_ V]. rewrite <- B, <- V. reflexivity.
Qed.
Print Assumptions C153_copies.

(** Hence, with calls that the store can tell apart, the answers of a new object. *)
Theorem C153_careful l e h u q : careful [] l -> by_value (contents l h) e = Some q ->
  (forall q' g, In q' (q :: requests l h) -> call_of q' = Some g -> good_call1 g) ->
  (forall q1 q2 g g', In q1 (q :: requests l h) -> In q2 (q :: requests l h) -> call_of q1 = Some g -> call_of q2 = Some g' -> distinct g g') ->
  (u_reversible u = false \/ forall q1 q2 g g', In q1 (q :: requests l h) -> In q2 (q :: requests l h) ->
     call_of q1 = Some g -> call_of q2 = Some g' -> same_way g g') ->
  snd (step e (run l (h, new_robj u))) = answer_of (tube_after (requests l h) u) q.
Proof. intros C E G D W. rewrite (C153_copies l e h u q C E). apply C31_history_partial; assumption. Qed.
Print Assumptions C153_careful.

(** The caller keeps one array per set of ratios: two requests, a third array is filled in between. *)
Definition ex_heap : heap := fun a => match a with O => [1/2; 1/2] | S O => [1/4; 3/4] | _ => [] end.
Example C153_careful_example :
  let l := [GetOutlet (mkrcall (3/10) 4000 2 (Some 0%nat)); GetHeat (mkrcall (3/10) 4000 2 (Some 1%nat)); WriteArray 2 [1/8; 7/8];
            GetFluid (mkrcall (3/10) 4000 2 (Some 0%nat))] in
  let e := GetOutlet (mkrcall (3/10) 4000 2 (Some 2%nat)) in
  careful [] l
  /\ by_value (contents l ex_heap) e = Some (AskOutlet (mkcall (3/10) 4000 2 (Some [1/8; 7/8])))
  /\ snd (step e (run l (ex_heap, new_robj (ex_tube false)))) = answer_of (ex_tube false) (AskOutlet (mkcall (3/10) 4000 2 (Some [1/8; 7/8]))).
Proof.
  cbv zeta. set (l := [GetOutlet _; _; _; _]). set (e := GetOutlet _). split; [cbn; repeat split; lia|]. split; [reflexivity|].
  change (answer_of (ex_tube false)) with (answer_of (tube_after (requests l ex_heap) (ex_tube false))).
  apply (C153_careful l e ex_heap (ex_tube false) (AskOutlet (mkcall (3/10) 4000 2 (Some [1/8; 7/8])))); [cbn; repeat split; lia|reflexivity| | |left; reflexivity].
  - intros q' g I E. cbn in I. repeat destruct I as [<-|I]; try contradiction; cbn in E; injection E as <-; split; cbn; try lra; reflexivity.
  - intros q1 q2 g g' I J E F. cbn in I, J.
    set (c := fun r => mkcall (3/10) 4000 2 (Some r)).
    assert (K : g = c [1/8; 7/8] \/ g = c [1/2; 1/2] \/ g = c [1/4; 3/4])
      by (repeat destruct I as [<-|I]; try contradiction; cbn in E; injection E as <-; auto).
    assert (L : g' = c [1/8; 7/8] \/ g' = c [1/2; 1/2] \/ g' = c [1/4; 3/4])
      by (repeat destruct J as [<-|J]; try contradiction; cbn in F; injection F as <-; auto).
    destruct K as [->|[->| ->]], L as [->|[->| ->]]; intros _; (split; [left; reflexivity|]); try (left; reflexivity); right;
      cbn [c_r c]; intros l1 s [= <-] [= <-]; exists 0%nat; (split; [cbn; lia|]); cbn [nth]; unfold Rabs; repeat destruct (Rcase_abs _); lra.
Qed.

(** Otherwise the answers can be wrong.  After new ratios have been written in the array of
    the first call, the same call returns the coefficients of the former ratios, which are
    never those of the new ones. *)
Theorem C153_ratios_stale u g a h l' d e : r_a g = Some a ->
  good_flow u (r_m g) (r_cp g) (r_n g) (Some (h a)) d e -> good_flow u (r_m g) (r_cp g) (r_n g) (Some l') d e ->
  Forall (fun x => x <> 0) l' -> l' <> h a ->
  let s := run [GetOutlet g; WriteArray a l'] (h, new_robj u) in
  snd (step (GetOutlet g) s) = RScal (outlet u (r_m g) (r_cp g) (r_n g) (Some (h a)))
  /\ by_value (fst s) (GetOutlet g) = Some (AskOutlet (mkcall (r_m g) (r_cp g) (r_n g) (Some l')))
  /\ snd (step (GetOutlet g) s) <> answer_of u (AskOutlet (mkcall (r_m g) (r_cp g) (r_n g) (Some l'))).
Proof.
  intros A G G' F N s. destruct (first_outlet h g u) as (_ & _ & S). set (o := snd (run [GetOutlet g] (h, new_robj u))) in *.
  assert (Es : s = (set_heap h a l', o)) by reflexivity.
  assert (Ha : set_heap h a l' a = l') by (unfold set_heap; rewrite Nat.eqb_refl; reflexivity).
  assert (R1 : snd (step (GetOutlet g) s) = RScal (outlet u (r_m g) (r_cp g) (r_n g) (Some (h a)))).
  { rewrite Es. cbn [step fst snd]. rewrite (outlet_hit (set_heap h a l') g o (answer_of u (AskOutlet (deref h g)))).
    - unfold answer_of, deref. cbn [c_m c_cp c_n c_r]. rewrite A. reflexivity.
    - pose proof (Pipe_Main_Proofs.M_pos _ _ _ _ _ _ _ G) as M. intros Z. destruct (Rmult_integral _ _ Z) as [Z'|Z']; rewrite Z' in M; [rewrite Rabs_R0 in M|]; lra.
    - intros b B. assert (b = a) as -> by congruence. rewrite Ha. exact F.
    - exact S. }
  split; [exact R1|]. split.
  - rewrite Es. unfold by_value, deref. cbn [fst]. rewrite A. cbn [option_map]. rewrite Ha. reflexivity.
  - rewrite R1. unfold answer_of. cbn [c_m c_cp c_n c_r]. intros E. injection E as E. apply N.
    symmetry. apply (outlet_ratios u (r_m g) (r_cp g) (r_n g) (h a) l' d e G G'). intros k _. exact (f_equal (fun f => f k) E).
Qed.
Print Assumptions C153_ratios_stale.

Theorem C153_ratios_refuted : exists u h l e q, (forall id v, ~ In (WriteResult id v) l) /\ by_value (contents l h) e = Some q
  /\ (forall q' g, In q' (q :: requests l h) -> call_of q' = Some g -> good_call1 g)
  /\ (forall q1 q2 g g', In q1 (q :: requests l h) -> In q2 (q :: requests l h) -> call_of q1 = Some g -> call_of q2 = Some g' -> distinct g g')
  /\ u_reversible u = false
  /\ snd (step e (run l (h, new_robj u))) <> answer_of (tube_after (requests l h) u) q.
Proof.
  set (g := mkrcall (3/10) 4000 2 (Some 0%nat)).
  exists (ex_tube false), ex_heap, [GetOutlet g; WriteArray 0 [1/4; 3/4]], (GetOutlet g), (AskOutlet (mkcall (3/10) 4000 2 (Some [1/4; 3/4]))).
  split; [intros id v [E|[E|[]]]; discriminate|]. split; [reflexivity|].
  assert (K : forall q' g', In q' (AskOutlet (mkcall (3/10) 4000 2 (Some [1/4; 3/4])) :: requests [GetOutlet g; WriteArray 0 [1/4; 3/4]] ex_heap) ->
     call_of q' = Some g' -> g' = mkcall (3/10) 4000 2 (Some [1/4; 3/4]) \/ g' = mkcall (3/10) 4000 2 (Some [1/2; 1/2])).
  { intros q' g' I E. cbn in I. destruct I as [<-|[<-|[]]]; cbn in E; injection E as <-; auto. }
  split; [intros q' g' I E; destruct (K q' g' I E) as [->| ->]; split; cbn; try lra; reflexivity|]. split.
  - intros q1 q2 g1 g2 I J E F. destruct (K q1 g1 I E) as [->| ->], (K q2 g2 J F) as [->| ->]; intros _; (split; [left; reflexivity|]); try (left; reflexivity); right;
      cbn [c_r]; intros l s [= <-] [= <-]; exists 0%nat; (split; [cbn; lia|]); cbn [nth]; unfold Rabs; repeat destruct (Rcase_abs _); lra.
  - split; [reflexivity|].
    assert (G : forall r, good_ratios 2 (Some r) -> good_flow (ex_tube false) (r_m g) (r_cp g) (r_n g) (Some r) 0 1).
    { intros r Hr. apply ex_tube_good; [left; repeat split; left; cbn; lra|exact Hr]. }
    destruct (C153_ratios_stale (ex_tube false) g 0%nat ex_heap [1/4; 3/4] 0 1) as (_ & _ & W).
    + reflexivity.
    + apply G. cbn. split; [reflexivity|]. split; [repeat constructor; lra|lra].
    + apply G. cbn. split; [reflexivity|]. split; [repeat constructor; lra|lra].
    + repeat constructor; lra.
    + cbn. intros E. injection E as E _. lra.
    + exact W.
Qed.
Print Assumptions C153_ratios_refuted.

(** And what the caller writes in the arrays it received is the next answer. *)
Theorem C153_result_stale u g (h : heap) v : r_m g * r_cp g <> 0 -> (forall a, r_a g = Some a -> Forall (fun x => x <> 0) (h a)) ->
  snd (step (GetOutlet g) (run [GetOutlet g; WriteResult 4 v] (h, new_robj u))) = v.
Proof.
  intros M F. pose proof (first_outlet h g u) as FO. cbv zeta in FO. destruct FO as (H1 & _ & S). set (s := run [GetOutlet g] (h, new_robj u)) in *.
  change (run [GetOutlet g; WriteResult 4 v] (h, new_robj u)) with (fst (step (WriteResult 4 v) s)). clearbody s. destruct s as [h' o].
  cbn [fst snd] in H1, S. subst h'. apply (outlet_hit h g _ v M F). cbn [step fst snd w_store Nat.eqb]. rewrite S. reflexivity.
Qed.
Print Assumptions C153_result_stale.

Theorem C153_result_refuted : exists u h l e q, (forall a v, ~ In (WriteArray a v) l) /\ by_value (contents l h) e = Some q
  /\ (forall q' g, In q' (q :: requests l h) -> call_of q' = Some g -> g = ex_call (3/10) 1)
  /\ snd (step e (run l (h, new_robj u))) <> answer_of (tube_after (requests l h) u) q.
Proof.
  set (g := mkrcall (3/10) 4000 1 None).
  exists (ex_tube false), ex_heap, [GetOutlet g; WriteResult 4 (RScal (1, fun _ => 0))], (GetOutlet g), (AskOutlet (ex_call (3/10) 1)).
  split; [intros a v [E|[E|[]]]; discriminate|]. split; [reflexivity|]. split.
  - intros q' g' I E. cbn in I. destruct I as [<-|[<-|[]]]; cbn in E; injection E as <-; reflexivity.
  - rewrite C153_result_stale; [|cbn; lra|intros a E; discriminate E]. unfold answer_of. intros E. injection E as E _.
    assert (G : good_flow (ex_tube false) (3/10) 4000 1 None 0 1) by (apply ex_tube_good; [left; repeat split; left; lra|cbn; lia]).
    pose proof (Pipe_Main_Proofs.out_lt1 _ _ _ _ _ _ _ G) as L. unfold outlet in L. cbn [fst] in L.
    change (1 = out_in (model_vars (ex_tube false) (3/10) 4000) (bH (u_b (ex_tube false)))) in E. lra.
Qed.
Print Assumptions C153_result_refuted.
