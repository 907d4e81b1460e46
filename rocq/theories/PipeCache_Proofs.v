(* The stored coefficients of a pipe. *)
From Coq Require Import Reals Lra Lia List Bool FunctionalExtensionality.
From Verif Require Import Base LinAlg Bore_Model Net_Model Pipe_Model Pipe_Spec PipeCache_Model PipeCache_Spec.
Import ListNotations.
Local Open Scope R_scope.

Lemma near_val_eq_len l s : length l = length s ->
  exists b, near_val l s = Some b /\
  (b = true <-> forall i, (i < length l)%nat -> Rabs (nth i l 0 - nth i s 0) < Rabs (nth i s 0) * tol).
Proof.
  intros E. unfold near_val, bcast. rewrite E, Nat.eqb_refl. eexists; split; [reflexivity|].
  revert s E. induction l as [|x l IH]; intros [|y s] E; try discriminate.
  - cbn. split; [intros _ i Hi; lia|reflexivity].
  - cbn [combine map forallb fst snd]. injection E as E. rewrite andb_true_iff, (IH s E).
    assert (X : Reqb (if Rltb (Rabs (x - y)) (Rabs y * tol) then 1 else 0) 1 = true
        <-> Rabs (x - y) < Rabs y * tol).
    { destruct (Rltb (Rabs (x - y)) (Rabs y * tol)) eqn:L; rewrite Reqb_true.
      - apply Rltb_true in L. split; auto.
      - apply Rltb_false in L. split; intros; lra. }
    rewrite X. cbn [length]. split.
    + intros [A B] [|i] Hi; cbn [nth]; [exact A|]. apply B. lia.
    + intros A. split; [apply (A 0%nat); lia|]. intros i Hi. apply (A (S i)). lia.
Qed.

Lemma near_mcp_apart x y : apart x y -> near_mcp x y = true -> x = y.
Proof.
  intros [E|A] N; [exact E|]. unfold near_mcp in N. apply Rltb_true in N. unfold tol in N. lra.
Qed.

Lemma key_same g h : good_call1 g -> good_call1 h -> distinct g h ->
  (same_vars g (Some (key_of h)) = true \/ same_coefs g (Some (key_of h)) = Some true) -> key_of g = key_of h.
Proof.
  intros [_ Lg] [_ Lh] D S.
  assert (T : c_n g = c_n h /\ near_mcp (c_m g * c_cp g) (c_m h * c_cp h) = true
     /\ match c_r h, c_r g with None, None => True
        | Some s, Some l => exists b, near_val l s = Some b /\ b = true | _, _ => False end).
  { destruct S as [S|S].
    - unfold same_vars in S. cbn [key_of k_mcp k_n k_r] in S. apply andb_prop in S. destruct S as [S S3].
      apply andb_prop in S. destruct S as [S1 S2]. apply Nat.eqb_eq in S2.
      split; [exact S2|]. split; [exact S1|].
      destruct (c_r h), (c_r g); try discriminate; auto.
      apply andb_prop in S3. destruct S3 as [_ S3]. destruct (near_val l0 l) as [b|]; [|discriminate]. eauto.
    - unfold same_coefs in S. cbn [key_of k_mcp k_n k_r] in S.
      destruct (Nat.eqb (c_n g) (c_n h)) eqn:E; [|discriminate]. apply Nat.eqb_eq in E.
      destruct (c_r h), (c_r g); try discriminate.
      + destruct (near_val l0 l) as [b|]; [|discriminate]. injection S as S. apply andb_prop in S.
        destruct S as [-> S]. eauto.
      + injection S as S. auto. }
  destruct T as [En [Em Er]]. destruct (D En) as [A B].
  unfold key_of. rewrite (near_mcp_apart _ _ A Em), En. f_equal.
  destruct (c_r h) as [s|] eqn:Rh, (c_r g) as [l|] eqn:Rg; try contradiction; auto.
  destruct B as [B|B]; [congruence|]. exfalso.
  destruct (B l s eq_refl eq_refl) as [i [Hi Hx]]. destruct Er as [b [Nb ->]].
  destruct (near_val_eq_len l s ltac:(congruence)) as [b' [Nb' Q]]. rewrite Nb in Nb'. injection Nb' as <-.
  pose proof (proj1 Q eq_refl i ltac:(congruence)) as Y. unfold tol in Y. lra.
Qed.

Lemma same_coefs_some g h : good_call1 g -> good_call1 h -> exists b, same_coefs g (Some (key_of h)) = Some b.
Proof.
  intros [_ Lg] [_ Lh]. unfold same_coefs. cbn [key_of k_mcp k_n k_r].
  destruct (Nat.eqb (c_n g) (c_n h)) eqn:E; [|eauto]. apply Nat.eqb_eq in E.
  destruct (c_r h), (c_r g); eauto.
  destruct (near_val_eq_len l0 l) as [b [-> _]]; [congruence|]. eauto.
Qed.

(* The results only depend on the key. *)
Section SameKey.
Variables (u : utube) (g h : call).
Hypothesis (Gg : 0 < c_cp g) (Gh : 0 < c_cp h).
Hypothesis (E : key_of g = key_of h).

Lemma k1 : c_m g * c_cp g = c_m h * c_cp h. Proof. exact (f_equal k_mcp E). Qed.
Lemma k2 : c_n g = c_n h. Proof. exact (f_equal k_n E). Qed.
Lemma k3 : c_r g = c_r h. Proof. exact (f_equal k_r E). Qed.

Lemma abs_mcp : Rabs (c_m g) * c_cp g = Rabs (c_m h) * c_cp h.
Proof.
  rewrite <- (Rabs_pos_eq (c_cp g)) by lra. rewrite <- (Rabs_pos_eq (c_cp h)) by lra.
  rewrite <- !Rabs_mult. f_equal. apply k1.
Qed.

Lemma key_way : c_m g < 0 <-> c_m h < 0.
Proof. pose proof k1. split; intros; nra. Qed.

Lemma key_rev : is_reversed u (c_m g) = is_reversed u (c_m h).
Proof.
  unfold is_reversed. f_equal. pose proof key_way as K.
  destruct (Rltb (c_m g) 0) eqn:A, (Rltb (c_m h) 0) eqn:B; auto.
  - apply Rltb_true in A. apply Rltb_false in B. apply K in A. lra.
  - apply Rltb_true in B. apply Rltb_false in A. apply K in B. lra.
Qed.

Lemma key_iin : i_inlet u (c_m g) = i_inlet u (c_m h).
Proof. unfold i_inlet. rewrite key_rev. reflexivity. Qed.

Lemma key_vars : model_vars u (c_m g) (c_cp g) = model_vars u (c_m h) (c_cp h).
Proof. unfold model_vars, i_inlet, i_outlet. rewrite key_rev, abs_mcp. reflexivity. Qed.

Lemma key_outlet : outlet u (c_m g) (c_cp g) (c_n g) (c_r g) = outlet u (c_m h) (c_cp h) (c_n h) (c_r h).
Proof. unfold outlet. rewrite key_vars, k2, k3. reflexivity. Qed.

Lemma key_temperature z : temperature u (c_m g) (c_cp g) (c_n g) (c_r g) z = temperature u (c_m h) (c_cp h) (c_n h) (c_r h) z.
Proof. unfold temperature. rewrite key_vars, key_iin, k2, k3. reflexivity. Qed.

Lemma key_heat : borehole_heat u (c_m g) (c_cp g) (c_n g) (c_r g) = borehole_heat u (c_m h) (c_cp h) (c_n h) (c_r h).
Proof.
  unfold borehole_heat. rewrite k2, k3.
  assert (T : temperature u (c_m g) (c_cp g) (c_n h) (c_r h) = temperature u (c_m h) (c_cp h) (c_n h) (c_r h)).
  { apply functional_extensionality. intros z. rewrite <- key_temperature, k2, k3. reflexivity. }
  rewrite T. unfold heat_from.
  assert (F : forall i, m_flow_pipe (c_m g) i * c_cp g = m_flow_pipe (c_m h) i * c_cp h).
  { pose proof k1. intros [|[|i]]; cbn [m_flow_pipe]; lra. }
  f_equal.
  - apply functional_extensionality. intros k. apply sumn_ext. intros i _. rewrite F. reflexivity.
  - apply functional_extensionality. intros k. apply functional_extensionality. intros l.
    apply sumn_ext. intros i _. rewrite F. reflexivity.
Qed.

Lemma key_fluid : fluid_heat u (c_m g) (c_cp g) (c_n g) (c_r g) = fluid_heat u (c_m h) (c_cp h) (c_n h) (c_r h).
Proof. unfold fluid_heat, fluid_from. rewrite key_outlet, abs_mcp. reflexivity. Qed.

Lemma key_inlet : inlet u (c_m g) (c_cp g) (c_n g) (c_r g) = inlet u (c_m h) (c_cp h) (c_n h) (c_r h).
Proof. unfold inlet. rewrite key_fluid. reflexivity. Qed.
End SameKey.

Definition ask_id (id : nat) (g : call) : request :=
  match id with 3%nat => AskInlet g | 4%nat => AskOutlet g | 6%nat => AskHeat g | _ => AskFluid g end.

Lemma key_answer u g h id : 0 < c_cp g -> 0 < c_cp h -> key_of g = key_of h ->
  answer_of u (ask_id id g) = answer_of u (ask_id id h).
Proof.
  intros Gg Gh E. do 8 (destruct id as [|id]; cbn [ask_id answer_of];
    [first [rewrite (key_inlet u g h Gg Gh E); reflexivity
           |rewrite (key_fluid u g h Gg Gh E); reflexivity
           |rewrite (key_outlet u g h Gg Gh E); reflexivity
           |rewrite (key_heat u g h Gg Gh E); reflexivity]|]).
  rewrite (key_fluid u g h Gg Gh E); reflexivity.
Qed.

Section History.
Variables (rev : bool) (P : call -> Prop).
Hypothesis (PG : forall g, P g -> good_call1 g).
Hypothesis (PD : forall g h, P g -> P h -> distinct g h).
Hypothesis (PW : rev = false \/ forall g h, P g -> P h -> same_way g h).

Lemma one_way u g h : u_reversible u = rev -> P g -> P h -> i_inlet u (c_m g) = i_inlet u (c_m h).
Proof.
  intros Er Hg Hh. unfold i_inlet, is_reversed. rewrite Er. destruct PW as [->|W]; [rewrite !andb_false_r; reflexivity|].
  specialize (W g h Hg Hh). unfold same_way in W.
  destruct (Rltb (c_m g) 0) eqn:A, (Rltb (c_m h) 0) eqn:B; auto.
  - apply Rltb_true in A. apply Rltb_false in B. apply W in A. lra.
  - apply Rltb_true in B. apply Rltb_false in A. apply W in B. lra.
Qed.

(* Whatever is stored was computed for one of the calls. *)
Definition pinv (u : utube) (o : pobj) : Prop :=
  q_tube o = u
  /\ (forall k, q_key o = Some k -> exists g, P g /\ k = key_of g
        /\ q_vars o = model_vars u (c_m g) (c_cp g) /\ q_iin o = i_inlet u (c_m g))
  /\ (forall id k v, q_store o id = Some (k, v) -> exists g, P g /\ k = key_of g
        /\ v = answer_of u (ask_id id g) /\ v <> RError).

Lemma inv_set_dir u o g : u_reversible u = rev -> P g -> pinv u o -> pinv u (set_dir g o).
Proof.
  intros Er Hg [E [K S]]. split; [exact E|]. split; [|exact S].
  intros k Hk. cbn in Hk. destruct (K k Hk) as [h [Ph [Ek [Ev Ei]]]]. exists h. cbn [set_dir q_vars q_iin].
  repeat split; auto. rewrite E. apply one_way; auto.
Qed.

Lemma inv_check u o g : P g -> pinv u o ->
  pinv u (check_vars g o)
  /\ q_vars (check_vars g o) = model_vars u (c_m g) (c_cp g)
  /\ q_iin (check_vars g o) = i_inlet u (c_m g)
  /\ q_tube (check_vars g o) = u.
Proof.
  intros Hg I. pose proof I as [E [K S]]. unfold check_vars.
  destruct (same_vars g (q_key o)) eqn:V.
  - destruct (q_key o) as [k|] eqn:Q; [|discriminate]. destruct (K k eq_refl) as [h [Ph [-> [Ev Ei]]]].
    assert (X := key_same g h (PG g Hg) (PG h Ph) (PD g h Hg Ph) (or_introl V)).
    split; [exact I|]. rewrite Ev, Ei.
    repeat split; auto; symmetry; [apply key_vars|apply key_iin]; auto; apply PG; auto.
  - cbn [q_vars q_iin q_tube]. rewrite E. repeat split; auto.
    + intros k Hk. cbn in Hk. injection Hk as <-. exists g. auto.
Qed.

Lemma inv_set u o g id v : P g -> pinv u o -> v = answer_of u (ask_id id g) -> v <> RError ->
  pinv u (set_stored id g v o).
Proof.
  intros Hg [E [K S]] Ev Ne. split; [exact E|]. split; [exact K|].
  intros id' k v'. cbn [set_stored q_store]. destruct (Nat.eqb id' id) eqn:Q; [|apply S].
  apply Nat.eqb_eq in Q. subst id'. intros X. injection X as <- <-. exists g. auto.
Qed.

Lemma inv_stored u o g id compute : P g -> pinv u o ->
  (forall o', pinv u o' -> pinv u (fst (compute o')) /\ snd (compute o') = answer_of u (ask_id id g)) ->
  pinv u (fst (stored id g compute o)) /\ snd (stored id g compute o) = answer_of u (ask_id id g).
Proof.
  intros Hg I C. pose proof I as [E [K S]]. unfold stored.
  destruct (q_store o id) as [[k v]|] eqn:Q; cbn [option_map fst].
  - destruct (S id k v Q) as [h [Ph [-> [Ev Ne]]]].
    destruct (same_coefs_some g h (PG g Hg) (PG h Ph)) as [b Eb]. rewrite Eb.
    destruct b.
    + cbn [fst snd]. split; [exact I|]. rewrite Ev. symmetry. apply key_answer.
      * apply PG; auto.
      * apply PG; auto.
      * apply key_same; auto.
    + destruct (C o I) as [C1 C2]. destruct (compute o) as [o' w] eqn:Cw. cbn [fst snd] in C1, C2.
      destruct w; cbn [fst snd]; (split; [|exact C2]); auto; apply inv_set; auto; discriminate.
  - cbn [same_coefs]. destruct (C o I) as [C1 C2]. destruct (compute o) as [o' w] eqn:Cw. cbn [fst snd] in C1, C2.
    destruct w; cbn [fst snd]; (split; [|exact C2]); auto; apply inv_set; auto; discriminate.
Qed.

Lemma inv_outlet u o g : P g -> pinv u o ->
  pinv u (fst (q_outlet g o)) /\ snd (q_outlet g o) = answer_of u (AskOutlet g).
Proof.
  intros Hg I. apply (inv_stored u o g 4 _ Hg I). intros o' I'.
  destruct (inv_check u o' g Hg I') as [J [Ev [Ei Et]]]. cbn [fst snd]. split; [exact J|].
  cbn [ask_id answer_of]. rewrite Ev, Et. reflexivity.
Qed.

Lemma inv_temperature u o g z : P g -> pinv u o ->
  pinv u (fst (q_temperature z g o)) /\ snd (q_temperature z g o) = answer_of u (AskTemperature z g).
Proof.
  intros Hg I. destruct (inv_check u o g Hg I) as [J [Ev [Ei Et]]].
  unfold q_temperature. cbn [fst snd]. split; [exact J|].
  unfold temp_coefs. rewrite Ev, Ei, Et. reflexivity.
Qed.

Lemma inv_heat u o g : u_reversible u = rev -> P g -> pinv u o ->
  pinv u (fst (q_heat g o)) /\ snd (q_heat g o) = answer_of u (AskHeat g).
Proof.
  intros Er Hg I. apply (inv_stored u o g 6 _ Hg I). intros o' I'.
  destruct (inv_check u (set_dir g o') g Hg (inv_set_dir u o' g Er Hg I')) as [J [Ev [Ei Et]]].
  cbn [fst snd]. split; [exact J|].
  cbn [ask_id answer_of]. unfold borehole_heat, temp_coefs. rewrite Ev, Ei, Et. reflexivity.
Qed.

Lemma inv_fluid u o g : u_reversible u = rev -> P g -> pinv u o ->
  pinv u (fst (q_fluid g o)) /\ snd (q_fluid g o) = answer_of u (AskFluid g).
Proof.
  intros Er Hg I. apply (inv_stored u o g 7 _ Hg I). intros o' I'.
  destruct (inv_outlet u (set_dir g o') g Hg (inv_set_dir u o' g Er Hg I')) as [J Ea].
  destruct (q_outlet g (set_dir g o')) as [o2 a]. cbn [fst snd] in *. split; [exact J|].
  rewrite Ea. reflexivity.
Qed.

Lemma inv_inlet u o g : u_reversible u = rev -> P g -> pinv u o ->
  pinv u (fst (q_inlet g o)) /\ snd (q_inlet g o) = answer_of u (AskInlet g).
Proof.
  intros Er Hg I. apply (inv_stored u o g 3 _ Hg I). intros o' I'.
  destruct (inv_fluid u o' g Er Hg I') as [J Ea].
  destruct (q_fluid g o') as [o2 a]. cbn [fst snd] in *. split; [exact J|].
  rewrite Ea. reflexivity.
Qed.

Definition next_tube (q : request) (u : utube) : utube :=
  match q with Update Rd => mkutube Rd (u_b u) (u_reversible u) | _ => u end.

Lemma inv_ask u o q : u_reversible u = rev -> (forall g, call_of q = Some g -> P g) -> pinv u o ->
  pinv (next_tube q u) (fst (ask q o)) /\ snd (ask q o) = answer_of u q.
Proof.
  intros Er Hq I. destruct q as [g|g|z g|g|g|Rd]; cbn [ask next_tube].
  - apply inv_inlet; auto.
  - apply inv_outlet; auto.
  - apply inv_temperature; auto.
  - apply inv_heat; auto.
  - apply inv_fluid; auto.
  - cbn [fst snd]. split; [|reflexivity]. destruct I as [E _]. split; [cbn; rewrite E; reflexivity|].
    split; [intros k Hk; discriminate|intros id k v Hv; discriminate].
Qed.

Lemma inv_after l u o : u_reversible u = rev -> (forall q g, In q l -> call_of q = Some g -> P g) -> pinv u o ->
  pinv (tube_after l u) (after l o) /\ u_reversible (tube_after l u) = rev.
Proof.
  revert u o. induction l as [|q l IH]; intros u o Er Hl I; [cbn; auto|].
  destruct (inv_ask u o q Er (fun g Hg => Hl q g (or_introl eq_refl) Hg) I) as [J _].
  assert (T : tube_after (q :: l) u = tube_after l (next_tube q u)) by (destruct q; reflexivity).
  rewrite T. apply IH; auto.
  - destruct q; cbn; auto.
  - intros q' g Hq'. apply Hl. right; exact Hq'.
Qed.

Lemma history l q u : u_reversible u = rev -> (forall q' g, In q' (q :: l) -> call_of q' = Some g -> P g) ->
  snd (ask q (after l (new_pobj u))) = answer_of (tube_after l u) q.
Proof.
  intros Er Hl.
  assert (I0 : pinv u (new_pobj u)).
  { split; [reflexivity|]. split; [intros k Hk; discriminate|intros id k v Hv; discriminate]. }
  destruct (inv_after l u (new_pobj u) Er (fun q' g Hq' => Hl q' g (or_intror Hq')) I0) as [J Er'].
  apply (inv_ask (tube_after l u) _ q Er'); auto.
  intros g. apply Hl. left; reflexivity.
Qed.
End History.
