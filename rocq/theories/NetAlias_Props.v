(** The array of flows shared between a network and its caller: C159. *)
From Coq Require Import Reals Lra Lia List Bool Arith.
From Verif Require Import Base LinAlg Net_Model Net_Spec Net_Proofs Net_Coef_Proofs Net_Heat_Proofs Net_Cache_Proofs Net_More_Proofs Net_Equiv_Proofs Net_Extra_Proofs
  NetAlias_Model NetAlias_Spec NetAlias_Proofs.
Import ListNotations.
Local Open Scope R_scope.

(** C159: a caller that writes in no array of flows after having handed it over gets the
    answers of a network that keeps copies. *)
Theorem C159_copies N ps l k g h : careful [] l ->
  asked N ps k g (run N ps l (h, r_init)) = snd (call N ps k (deref (contents l h) g) (calls N ps (requests l h) init_state)).
Proof.
  intros C. unfold asked. rewrite run_heap. destruct (view_call (contents l h) N ps k g (snd (run N ps l (h, r_init)))) as [_ ->].
  rewrite (careful_view N ps l [] h r_init); [reflexivity|split; [intros F a E; discriminate|intros a w E; discriminate]|exact C].
Qed.
Print Assumptions C159_copies.

(** A caller that fills its array of flows again in place gets the answers of a new network
    from all methods but the network outlet temperature. *)
Theorem C159_refill n conn N ps l k g h : build_net n conn = Some N -> k <> NetOutlet -> in_place l h ->
  (forall y, In y (deref (contents l h) g :: map snd (requests l h)) -> good_call N ps y) ->
  (forall y z, In y (deref (contents l h) g :: map snd (requests l h)) -> In z (deref (contents l h) g :: map snd (requests l h)) -> told_apart y z) ->
  asked N ps k g (run N ps l (h, r_init)) = fresh N ps k (deref (contents l h) g).
Proof.
  intros B K P HG HT.
  apply (run_asked N ps (fun y => In y (deref (contents l h) g :: map snd (requests l h))) (the_fmt N)
           ltac:(intros y Hy; apply good_the_fmt, HG, Hy) HT False false (fun _ => 0)); try contradiction; auto.
  - exact (proj1 (build_wf _ _ _ B)).
  - intros k' g' Q. right. apply in_map_iff. exists (k', g'). auto.
  - left. reflexivity.
Qed.
Print Assumptions C159_refill.

(** The network outlet temperature too, if all requests and all writes share the flow in
    the same way. *)
Theorem C159_refill_outlet n conn N ps l g h rv w : build_net n conn = Some N -> in_place l h ->
  (forall y, In y (deref (contents l h) g :: map snd (requests l h)) ->
     exists F, good_args N ps y F /\ f_rev F = rv /\ mixing (iOutlets N rv) (f_m F) = w) ->
  (forall a v, In (Write a v) l -> mixing (iOutlets N rv) v = w) ->
  (forall y z, In y (deref (contents l h) g :: map snd (requests l h)) -> In z (deref (contents l h) g :: map snd (requests l h)) -> told_apart y z) ->
  asked N ps NetOutlet g (run N ps l (h, r_init)) = fresh N ps NetOutlet (deref (contents l h) g).
Proof.
  intros B P HG HV HT.
  refine (run_asked N ps (fun y => In y (deref (contents l h) g :: map snd (requests l h))) (the_fmt N) _ HT True rv w _ l NetOutlet g h _ P _ _ _ _); auto.
  - intros y Hy. destruct (HG y Hy) as (F & G & _). apply good_the_fmt. exists F. exact G.
  - intros _ y Hy. destruct (HG y Hy) as (F & G & M). pose proof (good_the_fmt N ps y (ex_intro _ F G)) as G'.
    destruct G as [G _], G' as [G' _]. rewrite G in G'. injection G' as <-. exact M.
  - exact (proj1 (build_wf _ _ _ B)).
  - intros k' g' Q. right. apply in_map_iff. exists (k', g'). auto.
  - left. reflexivity.
Qed.
Print Assumptions C159_refill_outlet.

(** Otherwise the network outlet temperature mixes the fluid with the former flows: after
    new flows have been written in the array of the first call, the same call returns the
    outlet temperatures of the new flows with the weights of the former ones. *)
Theorem C159_stale n conn N ps g a h m' F F' o : build_net n conn = Some N -> q_m g = Arr a ->
  let h' := contents [Write a m'] h in
  good_args N ps (deref h g) F -> good_args N ps (deref h' g) F' ->
  length m' = length (h a) -> Forall (fun x => x <> 0) m' -> m' <> h a ->
  told_apart (deref h' g) (deref h g) -> told_apart (deref h g) (deref h' g) ->
  fresh N ps Outlet (deref h' g) = Some o ->
  asked N ps NetOutlet g (run N ps [Ask NetOutlet g; Write a m'] (h, r_init))
  = Some (coef_net_outlet N (mixing (iOutlets N (f_rev F)) (f_m F)) o).
Proof. intros B. cbv zeta. apply stale. exact (proj1 (build_wf _ _ _ B)). Qed.
Print Assumptions C159_stale.

(** Two circuits, flows (1, 1) and then (1, 3) in the same array *)
Definition ex_flows : heap := fun a => match a with O => [1; 1] | S O => [2; 6] | _ => [] end.
Definition ex_args : rargs := mkrargs (Arr 0) [1] (SegN 1) RNone.

Lemma ex_near x y x' y' : 0 < x' -> 0 < y' -> (x' * tol <= Rabs (x - x') \/ y' * tol <= Rabs (y - y')) -> told_apart (two_args x y) (two_args x' y').
Proof.
  intros X Y D mcp E v C. cbn in E. injection E as <-. change (g_n (two_args x' y')) with (SegN 1) in C. change (g_r (two_args x' y')) with RNone in C.
  rewrite two_check in C. exfalso. injection C as C. apply andb_prop in C. destruct C as [C1 C2].
  apply Rltb_true in C1. apply Rltb_true in C2. rewrite !Rmult_1_r in C1, C2.
  rewrite (Rabs_right x') in C1 by lra. rewrite (Rabs_right y') in C2 by lra. lra.
Qed.

Example C159_stale_example : exists o,
  fresh two (repeat perfect 2) Outlet (two_args 1 3) = Some o
  /\ asked two (repeat perfect 2) NetOutlet ex_args (run two (repeat perfect 2) [Ask NetOutlet ex_args; Write 0 [1; 3]] (ex_flows, r_init))
     = Some (coef_net_outlet two (mixing [0; 1]%nat [1; 1]) o)
  /\ apply_coefs 2 (coef_net_outlet two (mixing [0; 1]%nat [1; 1]) o) 0 INR O = 1 / 2.
Proof.
  destruct (build_wf _ _ _ two_build) as [W En].
  assert (G := two_good (repeat perfect 2) 1 1 eq_refl ltac:(lra) ltac:(lra)).
  assert (G3 := two_good (repeat perfect 2) 1 3 eq_refl ltac:(lra) ltac:(lra)).
  destruct (fresh_some_all _ _ _ _ W G3) as (_ & o & _ & _ & _ & _ & _ & Ho & _).
  exists o. split; [exact Ho|]. split.
  - apply (C159_stale 2 None two (repeat perfect 2) ex_args 0 ex_flows [1; 3] (two_fmt 1 1) (two_fmt 1 3) o); try reflexivity; try assumption.
    + repeat constructor; lra.
    + intros [= A]. lra.
    + apply ex_near; try lra. right. unfold tol. rewrite Rabs_right; lra.
    + apply ex_near; try lra. right. unfold tol. rewrite Rabs_left; lra.
  - assert (T0 := perfect_outlet _ 2 _ _ o 0 INR 0 W En G3 Ho). assert (T1 := perfect_outlet _ 2 _ _ o 0 INR 1 W En G3 Ho).
    change (seg_total (f_seg (two_fmt 1 3))) with 2%nat in *. simpl in T0, T1.
    assert (V0 : apply_coefs 2 o 0 INR 0 = 0) by (rewrite T0 by (lia || discriminate); auto).
    assert (V1 : apply_coefs 2 o 0 INR 1 = 1) by (rewrite T1 by (lia || discriminate); auto).
    rewrite net_outlet_apply. rewrite En.
    rewrite mixing_sum; [|repeat constructor; simpl; intuition lia|simpl; intuition lia].
    cbn [length sumn nth map Rsum]. rewrite V0, V1, Rabs_R1. lra.
Qed.

(** So the statement fails: a new network would return 3/4. *)
Theorem C159_refuted : exists N ps l g h a b t Tb, build_net 2 None = Some N /\ in_place l h
  /\ (forall y, In y (deref (contents l h) g :: map snd (requests l h)) -> good_call N ps y)
  /\ (forall y z, In y (deref (contents l h) g :: map snd (requests l h)) -> In z (deref (contents l h) g :: map snd (requests l h)) -> told_apart y z)
  /\ asked N ps NetOutlet g (run N ps l (h, r_init)) = Some a
  /\ fresh N ps NetOutlet (deref (contents l h) g) = Some b
  /\ apply_coefs 2 a t Tb O <> apply_coefs 2 b t Tb O.
Proof.
  destruct C159_stale_example as (o & Ho & Ha & Va). destruct (build_wf _ _ _ two_build) as [W En].
  assert (G := two_good (repeat perfect 2) 1 1 eq_refl ltac:(lra) ltac:(lra)).
  assert (G3 := two_good (repeat perfect 2) 1 3 eq_refl ltac:(lra) ltac:(lra)).
  destruct (fresh_some_all _ _ _ _ W G3) as (_ & o' & _ & _ & _ & b & _ & Ho' & _ & _ & _ & Hn).
  exists two, (repeat perfect 2), [Ask NetOutlet ex_args; Write 0 [1; 3]], ex_args, ex_flows, (coef_net_outlet two (mixing [0; 1]%nat [1; 1]) o), b, 0, INR.
  split; [exact two_build|]. split; [cbn; auto|].
  change (deref (contents [Ask NetOutlet ex_args; Write 0 [1; 3]] ex_flows) ex_args) with (two_args 1 3).
  change (map snd (requests [Ask NetOutlet ex_args; Write 0 [1; 3]] ex_flows)) with [two_args 1 1].
  split; [intros y [<-|[<-|[]]]; eexists; eassumption|]. split.
  { assert (K : told_apart (two_args 1 1) (two_args 1 3)) by (apply ex_near; try lra; right; unfold tol; rewrite Rabs_left; lra).
    assert (K' : told_apart (two_args 1 3) (two_args 1 1)) by (apply ex_near; try lra; right; unfold tol; rewrite Rabs_right; lra).
    intros y z [<-|[<-|[]]] [<-|[<-|[]]]; auto using told_apart_refl. }
  split; [exact Ha|]. split; [exact Hn|]. rewrite Va.
  assert (T0 := perfect_outlet _ 2 _ _ o' 0 INR 0 W En G3 Ho'). assert (T1 := perfect_outlet _ 2 _ _ o' 0 INR 1 W En G3 Ho').
  change (seg_total (f_seg (two_fmt 1 3))) with 2%nat in *. simpl in T0, T1.
  assert (V0 : apply_coefs 2 o' 0 INR 0 = 0) by (rewrite T0 by (lia || discriminate); auto).
  assert (V1 : apply_coefs 2 o' 0 INR 1 = 1) by (rewrite T1 by (lia || discriminate); auto).
  assert (L := outlet_listed _ _ _ _ 0 INR b o' W G3 Hn Ho'). cbv zeta in L.
  change (seg_total (f_seg (two_fmt 1 3))) with 2%nat in L. unfold total_flow in L. change (nInlets two) with 2%nat in L.
  cbn [sumn nth f_m f_rev iOutlets two_fmt two n_out] in L. rewrite V0, V1, Rabs_R1, (Rabs_right 3) in L by lra. lra.
Qed.
Print Assumptions C159_refuted.

(** The flows formatted last are read in the array of the caller too: here the network is
    asked for the outlet temperatures of the boreholes with a first array, which is then
    filled again, and for the network outlet temperature with another array. *)
Theorem C159_formatted_refuted : exists N ps l g h a b t Tb, build_net 2 None = Some N /\ in_place l h
  /\ (forall y, In y (map snd (requests l h)) -> y = deref (contents l h) g) /\ good_call N ps (deref (contents l h) g)
  /\ asked N ps NetOutlet g (run N ps l (h, r_init)) = Some a
  /\ fresh N ps NetOutlet (deref (contents l h) g) = Some b
  /\ apply_coefs 2 a t Tb O <> apply_coefs 2 b t Tb O.
Proof.
  destruct (build_wf _ _ _ two_build) as [W En].
  assert (G := two_good (repeat perfect 2) 1 1 eq_refl ltac:(lra) ltac:(lra)).
  destruct (fresh_some_all _ _ _ _ W G) as (_ & o & _ & _ & _ & b & _ & Ho & _ & _ & _ & Hn).
  set (hp := fun a => match a with O => [1; 1] | S O => [1; 1] | _ => [] end : list R).
  exists two, (repeat perfect 2), [Ask Outlet ex_args; Write 0 [1; 3]], (mkrargs (Arr 1) [1] (SegN 1) RNone), hp, (coef_net_outlet two (mixing [0; 1]%nat [1; 3]) o), b, 0, INR.
  change (deref (contents [Ask Outlet ex_args; Write 0 [1; 3]] hp) (mkrargs (Arr 1) [1] (SegN 1) RNone)) with (two_args 1 1).
  change (map snd (requests [Ask Outlet ex_args; Write 0 [1; 3]] hp)) with [two_args 1 1].
  split; [exact two_build|]. split; [cbn; auto|]. split; [intros y [<-|[]]; reflexivity|]. split; [eexists; exact G|]. split.
  - apply (formatted two (repeat perfect 2) ex_args (mkrargs (Arr 1) [1] (SegN 1) RNone) 0 hp [1; 3] (two_fmt 1 1) o); try reflexivity; try assumption.
    + cbn. lia.
    + change (deref hp ex_args) with (two_args 1 1). intros mcp E. cbn in E. injection E as <-. cbn [ex_args q_n q_r]. rewrite two_check, self_near by lra. reflexivity.
  - split; [exact Hn|].
    assert (T0 := perfect_outlet _ 2 _ _ o 0 INR 0 W En G Ho). assert (T1 := perfect_outlet _ 2 _ _ o 0 INR 1 W En G Ho).
    change (seg_total (f_seg (two_fmt 1 1))) with 2%nat in *. simpl in T0, T1.
    assert (V0 : apply_coefs 2 o 0 INR 0 = 0) by (rewrite T0 by (lia || discriminate); auto).
    assert (V1 : apply_coefs 2 o 0 INR 1 = 1) by (rewrite T1 by (lia || discriminate); auto).
    assert (L := outlet_listed _ _ _ _ 0 INR b o W G Hn Ho). cbv zeta in L.
    change (seg_total (f_seg (two_fmt 1 1))) with 2%nat in L. unfold total_flow in L. change (nInlets two) with 2%nat in L.
    cbn [sumn nth f_m f_rev iOutlets two_fmt two n_out] in L. rewrite V0, V1, Rabs_R1 in L.
    rewrite net_outlet_apply, En, mixing_sum; [|repeat constructor; simpl; intuition lia|simpl; intuition lia].
    cbn [length sumn nth map Rsum]. rewrite V0, V1, Rabs_R1, (Rabs_right 3), L by lra. lra.
Qed.
Print Assumptions C159_formatted_refuted.

(** Filled again with flows shared in the same way, the network outlet temperature is right. *)
Lemma ex_split x : 0 < x -> mixing [0; 1]%nat [x; x] = mixing [0; 1]%nat [1; 1].
Proof.
  intros X. apply FunctionalExtensionality.functional_extensionality. intros [|[|i]]; unfold mixing; cbn; rewrite ?Rabs_R1, ?(Rabs_right x) by lra; try field; try lra.
  destruct (Pos.of_succ_nat i); reflexivity.
Qed.
Example C159_refill_outlet_example :
  let l := [Ask NetOutlet ex_args; Write 0 [4; 4]; Ask Inlet ex_args] in
  asked two (repeat perfect 2) NetOutlet ex_args (run two (repeat perfect 2) l (ex_flows, r_init)) = fresh two (repeat perfect 2) NetOutlet (two_args 4 4).
Proof.
  cbv zeta.
  refine (C159_refill_outlet 2 None two (repeat perfect 2) [Ask NetOutlet ex_args; Write 0 [4; 4]; Ask Inlet ex_args] ex_args ex_flows false (mixing [0; 1]%nat [1; 1]) two_build _ _ _ _).
  - cbn. auto.
  - intros y [<-|[<-|[<-|[]]]]; eexists; (split; [apply two_good; [reflexivity|lra|lra]|]); (split; [reflexivity|]); apply ex_split; lra.
  - intros a v [E|[E|[E|[]]]]; try discriminate. injection E as <- <-. apply (ex_split 4). lra.
  - assert (K : forall x, told_apart (two_args x x) (two_args x x)) by (intros; apply told_apart_refl).
    assert (K1 : told_apart (two_args 4 4) (two_args 1 1)) by (apply ex_near; try lra; left; unfold tol; rewrite Rabs_right; lra).
    assert (K2 : told_apart (two_args 1 1) (two_args 4 4)) by (apply ex_near; try lra; left; unfold tol; rewrite Rabs_left; lra).
    intros y z [<-|[<-|[<-|[]]]] [<-|[<-|[<-|[]]]]; first [exact (K _)|exact K1|exact K2].
Qed.

(** The other methods are right although the shares change. *)
Example C159_refill_example :
  let l := [Ask NetOutlet ex_args; Ask FluidHeat ex_args; Write 0 [1; 3]; Ask NetOutlet ex_args] in
  asked two (repeat flowing 2) FluidHeat ex_args (run two (repeat flowing 2) l (ex_flows, r_init)) = fresh two (repeat flowing 2) FluidHeat (two_args 1 3).
Proof.
  cbv zeta.
  refine (C159_refill 2 None two (repeat flowing 2) [Ask NetOutlet ex_args; Ask FluidHeat ex_args; Write 0 [1; 3]; Ask NetOutlet ex_args] FluidHeat ex_args ex_flows two_build _ _ _ _).
  - discriminate.
  - cbn. auto.
  - intros y [<-|[<-|[<-|[<-|[]]]]]; eexists; apply two_good; (reflexivity || lra).
  - assert (K : forall x y, told_apart (two_args x y) (two_args x y)) by (intros; apply told_apart_refl).
    assert (K1 : told_apart (two_args 1 3) (two_args 1 1)) by (apply ex_near; try lra; right; unfold tol; rewrite Rabs_right; lra).
    assert (K2 : told_apart (two_args 1 1) (two_args 1 3)) by (apply ex_near; try lra; right; unfold tol; rewrite Rabs_left; lra).
    intros y z [<-|[<-|[<-|[<-|[]]]]] [<-|[<-|[<-|[<-|[]]]]]; first [exact (K _ _)|exact K1|exact K2].
Qed.

(** A caller with two arrays; the third is filled before it is handed over. *)
Example C159_copies_example :
  let b := mkrargs (Arr 1) [1] (SegN 1) RNone in
  let c := mkrargs (Arr 2) [1] (SegN 1) RNone in
  let l := [Ask NetOutlet ex_args; Write 2 [5; 7]; Ask Outlet b] in
  careful [] l
  /\ asked two (repeat flowing 2) NetOutlet c (run two (repeat flowing 2) l (ex_flows, r_init))
     = snd (call two (repeat flowing 2) NetOutlet (two_args 5 7) (calls two (repeat flowing 2) [(NetOutlet, two_args 1 1); (Outlet, two_args 2 6)] init_state)).
Proof.
  cbv zeta. assert (C : careful [] [Ask NetOutlet ex_args; Write 2 [5; 7]; Ask Outlet (mkrargs (Arr 1) [1] (SegN 1) RNone)]) by (cbn; repeat split; lia).
  split; [exact C|]. exact (C159_copies two (repeat flowing 2) _ NetOutlet (mkrargs (Arr 2) [1] (SegN 1) RNone) ex_flows C).
Qed.
