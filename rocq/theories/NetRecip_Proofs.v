(** Reciprocity of networks. *)
From Coq Require Import Reals Lra Lia List ZArith Bool Psatz.
From Verif Require Import Base LinAlg Bore_Model Pipe_Model Multi_Model Net_Model Net_Spec Net_Proofs Net_Coef_Proofs Net_Heat_Proofs Net_Cache_Proofs Net_More_Proofs Net_Extra_Proofs
  Passive_Net_Proofs NetRecip_Spec.
From Verif Require Pipe_Spec Multi_Spec Multi_Net_Proofs Recip_Props MRecip_Props.
Import ListNotations.
Local Open Scope R_scope.

(* pipes *)
Lemma reciprocal_turn p m cp n r : pipe_reciprocal p (- m) cp n r -> pipe_reciprocal p m cp n r.
Proof.
  intros P t s Tb Sb. specialize (P s t Sb Tb). rewrite Ropp_involutive, Rabs_Ropp in P.
  match type of P with ?a = ?b => assert (X : - a = - b) by (rewrite P; reflexivity) end.
  rewrite Ropp_minus_distr in X. rewrite X. ring.
Qed.

Lemma tube_two_way u m cp n r : m <> 0 -> u_reversible u = true -> Pipe_Spec.cond u 0 1 = Pipe_Spec.cond u 1 0 ->
  Pipe_Spec.good_flow u (Rabs m) cp n r 0 1 -> pipe_reciprocal (net_pipe u) m cp n r.
Proof.
  intros N V E G.
  assert (X : pipe_reciprocal (net_pipe u) (Rabs m) cp n r).
  { intros t s Tb Sb. pose proof (Rabs_pos_lt m N) as P.
    pose proof (Recip_Props.C147_reciprocal u (Rabs m) cp n r t s Tb Sb P V E G) as Q. rewrite (Rabs_pos_eq (Rabs m)) by lra. exact Q. }
  destruct (Rcase_abs m) as [L|L].
  - apply reciprocal_turn. rewrite Rabs_left in X by auto. exact X.
  - rewrite Rabs_right in X by auto. exact X.
Qed.

Lemma two_way_reciprocal p m cp n r : two_way_pipe p m cp n r -> pipe_reciprocal p m cp n r.
Proof.
  intros [(u & -> & Nz & V & E & G) | (eig & u & -> & K & V & Us & P & HP & SS & E1 & E2)].
  - apply tube_two_way; auto.
  - intros t s Tb Sb. destruct (MRecip_Props.C154_reciprocal eig eig u [m] [cp] n r (fun _ => t) (fun _ => s) Tb Sb Us V P HP SS E1 E2) as (o & h & o' & h' & Eo & Eh & Eo' & Eh' & Q).
    assert (In1 : n_inlets u = 1%nat) by (unfold n_inlets; destruct (x_kind u); congruence).
    cbn [map] in *. unfold q_outlet, q_heat in *. rewrite In1 in Q. cbn [sumn nth Multi_Spec.capacity_at] in Q.
    unfold own_heat, own_outlet. cbn [multi_pipe p_out p_qb].
    destruct (Multi_Model.m_outlet eig u [m] [cp] n r) as [[c d]|]; [|discriminate]. destruct (Multi_Model.m_outlet eig u [- m] [cp] n r) as [[c' d']|]; [|discriminate].
    destruct (m_heat eig u [m] [cp] n r) as [[a b]|]; [|discriminate]. destruct (m_heat eig u [- m] [cp] n r) as [[a' b']|]; [|discriminate].
    cbn [option_map] in *. injection Eo as <-. injection Eh as <-. injection Eo' as <-. injection Eh' as <-.
    unfold apply2 in Q. rewrite In1 in Q. cbn [sumn fst snd] in *. rewrite Rplus_0_l in Q.
    rewrite (sumn_ext n (fun l => Sb l * _) _ (fun l _ => f_equal (fun y => Sb l * (y + _)) (eq_sym (Rplus_0_l (a l 0%nat * t))))).
    rewrite (sumn_ext n (fun l => Tb l * _) _ (fun l _ => f_equal (fun y => Tb l * (y + _)) (eq_sym (Rplus_0_l (a' l 0%nat * s))))).
    rewrite Q. ring.
Qed.

(* arguments *)
Definition turn (F : fmt) : fmt := mkfmt (map Ropp (f_m F)) (negb (f_rev F)) (map Ropp (f_mb F)) (f_cpb F) (f_seg F) (f_rat F).

Lemma nth_opp i l : nth i (map Ropp l) 0 = - nth i l 0.
Proof. rewrite <- Ropp_0 at 1. apply map_nth. Qed.

Lemma dir_turn m rv : (exists x, In x m /\ x <> 0) -> format_dir m = Some rv -> format_dir (map Ropp m) = Some (negb rv).
Proof.
  intros (x & I & Nz) H. unfold format_dir in *.
  assert (A : forallb (fun y => Rleb 0 y) (map Ropp m) = forallb (fun y => Rleb y 0) m).
  { clear. induction m as [|y m IH]; [reflexivity|]. cbn. rewrite IH. f_equal.
    destruct (Rleb y 0) eqn:Ey; [apply Rleb_true in Ey; apply Rleb_true; lra|].
    destruct (Rleb 0 (- y)) eqn:Ez; auto. apply Rleb_true in Ez. assert (y <= 0) as W by lra. apply Rleb_true in W. congruence. }
  assert (B : forallb (fun y => Rleb y 0) (map Ropp m) = forallb (fun y => Rleb 0 y) m).
  { clear. induction m as [|y m IH]; [reflexivity|]. cbn. rewrite IH. f_equal.
    destruct (Rleb 0 y) eqn:Ey; [apply Rleb_true in Ey; apply Rleb_true; lra|].
    destruct (Rleb (- y) 0) eqn:Ez; auto. apply Rleb_true in Ez. assert (0 <= y) as W by lra. apply Rleb_true in W. congruence. }
  rewrite A, B. destruct (forallb (fun y => Rleb 0 y) m) eqn:E1.
  - injection H as <-. destruct (forallb (fun y => Rleb y 0) m) eqn:E2; [|reflexivity]. exfalso.
    rewrite forallb_forall in E1, E2. specialize (E1 x I). specialize (E2 x I). apply Rleb_true in E1. apply Rleb_true in E2. lra.
  - destruct (forallb (fun y => Rleb y 0) m); [|discriminate]. injection H as <-. reflexivity.
Qed.

Lemma flow_turn N m f : format_flow N m = Some f -> format_flow N (map Ropp m) = Some (map Ropp f).
Proof.
  unfold format_flow. destruct m as [|a [|b l]]; cbn [map].
  - destruct (Nat.eqb _ _); [|discriminate]. intros [= <-]. reflexivity.
  - intros [= <-]. f_equal. generalize (INR (nInlets N)). intros y.
    induction (nInlets N) as [|k IH]; [reflexivity|]. cbn [repeat map]. rewrite IH. f_equal. unfold Rdiv. ring.
  - cbn [length]. rewrite map_length. destruct (Nat.eqb _ _); [|discriminate]. intros [= <-]. reflexivity.
Qed.

Lemma good_turn N ps g F : flowing g -> good_args N ps g F -> good_args N ps (reversed g) (turn F).
Proof.
  intros Fl [H [Hp Hr]]. split; [|split; auto]. unfold format_inputs in *. cbn [reversed g_m g_cp g_n g_r].
  destruct (format_flow N (g_m g)) as [m|] eqn:Em; [|discriminate]. rewrite (flow_turn N _ _ Em).
  destruct (format_dir (g_m g)) as [rv|] eqn:Ed; [|discriminate]. rewrite (dir_turn _ _ Fl Ed).
  destruct (format_cp N (g_cp g)) as [cp|]; [|discriminate].
  destruct (format_seg N (g_n g)) as [sg|]; [|discriminate].
  injection H as <-. unfold turn. cbn [f_m f_rev f_mb f_cpb f_seg f_rat]. f_equal. f_equal.
  rewrite map_map. apply map_ext. intros k. apply nth_opp.
Qed.

(* telescoping *)
Lemma cross_balance N rev t s tin tout sin sout (m : list R) E E' : wf N ->
  connected (n_c N) rev t tin tout -> connected (n_c N) (negb rev) s sin sout ->
  ends N rev E -> ends N (negb rev) E' ->
  let w i := nth (nth i (n_circ N) O) m 0 in
  sumn (nB N) (fun i => w i * (tout i * sin i - tin i * sout i))
  = sumn (nInlets N) (fun k => nth k m 0 * (tout (E k) * s - t * sout (E' k))).
Proof.
  intros W C C' HE HE' w.
  pose (P := fun j => tin j * sout j - c_in N rev j * (t * sout j)).
  pose (Q := fun j => tout j * sin j).
  assert (X : connected (n_c N) rev 0 P Q).
  { intros j Hj. split.
    - intros i Hf. unfold P, Q. destruct (feeds_lt _ _ _ _ _ (proj1 W) Hf) as [Hi Hj'].
      rewrite (c_in_zero N rev i j W Hi Hj' Hf). destruct (C j Hj) as [C1 _]. rewrite (C1 i Hf).
      assert (Hi' : (i < length (n_c N))%nat) by exact Hi.
      destruct (C' i Hi') as [D1 _]. rewrite (D1 j); [ring|]. apply feeds_flip. exact Hf.
    - intros Hn. unfold P. rewrite (c_in_one N rev j W Hj Hn). destruct (C j Hj) as [_ C2]. rewrite (C2 Hn). ring. }
  assert (Y : forall i j, feeds (n_c N) rev i j -> w i = w j).
  { intros i j Hf. unfold w. rewrite (feeds_circ N _ i j W Hf). reflexivity. }
  pose proof (flow_balance N rev 0 P Q w W X Y) as Z.
  unfold w in Z. rewrite (sum_ends N rev E m Q W HE) in Z. rewrite Rmult_0_l, Rminus_0_r in Z.
  pose proof (sum_ends N (negb rev) E' m (fun i => t * sout i) W HE') as Z'. rewrite negb_involutive in Z'.
  transitivity (sumn (nB N) (fun j => w j * (Q j - P j)) - sumn (nB N) (fun i => c_in N rev i * (w i * (t * sout i)))).
  - rewrite <- sumn_minus. apply sumn_ext. intros i Hi. unfold P, Q. ring.
  - unfold w. rewrite Z', Z, <- sumn_minus. apply sumn_ext. intros k Hk. unfold Q.
    destruct (HE k Hk) as (L & _ & Nf). destruct (C' (E k) L) as [_ C2]. rewrite C2; [ring|].
    intros i Hi Hf. apply (Nf i Hi). apply (proj1 (feeds_flip _ _ _ _)). exact Hf.
Qed.

Lemma net_reciprocal N ps g F E E' cp qb o qb' o' t s Tb Sb : wf N -> good_args N ps g F -> flowing g -> In cp (g_cp g) ->
  ends N (f_rev F) E -> ends N (negb (f_rev F)) E' -> every_pipe pipe_reciprocal N ps F ->
  fresh N ps BoreHeat g = Some qb -> fresh N ps Outlet g = Some o ->
  fresh N ps BoreHeat (reversed g) = Some qb' -> fresh N ps Outlet (reversed g) = Some o' ->
  let K := seg_total (f_seg F) in
  sumn K (fun l => Sb l * apply_coefs K qb t Tb l) - sumn K (fun l => Tb l * apply_coefs K qb' s Sb l)
  = sumn (nInlets N) (fun k => Rabs (nth k (f_m F) 0) * cp * (apply_coefs K o t Tb (E k) * s - t * apply_coefs K o' s Sb (E' k))).
Proof.
  intros W G Fl Hcp HE HE' P H1 H2 H3 H4 K. pose proof (good_turn N ps g F Fl G) as G'.
  rewrite (fresh_direct N ps _ g F W G) in H1. rewrite (fresh_direct N ps _ g F W G) in H2. rewrite (fresh_direct N ps _ _ _ W G') in H3. rewrite (fresh_direct N ps _ _ _ W G') in H4. cbn [direct] in *.
  destruct (coef_inlet N ps F) as [a|] eqn:Ea; [|discriminate]. injection H1 as <-.
  destruct (coef_inlet N ps (turn F)) as [a'|] eqn:Ea'; [|discriminate]. injection H3 as <-.
  apply (every_all _ _ _ _ g W G) in P.
  destruct (good_lengths _ _ _ _ W G) as [_ [_ [_ [L4 _]]]].
  pose proof (net_rates N ps g F cp W G Hcp) as Cp.
  set (tin := apply_coefs K a t Tb). set (tout := apply_coefs K o t Tb).
  set (sin := apply_coefs K a' s Sb). set (sout := apply_coefs K o' s Sb).
  assert (C : connected (n_c N) (f_rev F) t tin tout) by exact (coefs_connected N ps g F a o t Tb W G Ea H2).
  assert (C' : connected (n_c N) (negb (f_rev F)) s sin sout) by exact (coefs_connected N ps (reversed g) (turn F) a' o' s Sb W G' Ea' H4).
  transitivity (sumn (nB N) (fun i => nth (nth i (n_circ N) O) (map (fun m => Rabs m * cp) (f_m F)) 0 * (tout i * sin i - tin i * sout i))).
  2:{ rewrite (cross_balance N (f_rev F) t s tin tout sin sout _ E E' W C C' HE HE'). apply sumn_ext. intros k Hk. f_equal.
      destruct (format_facts N g F W (proj1 G)) as [Lm _]. rewrite (nth_map _ _ _ 0) by lia. reflexivity. }
  unfold K at 1 3. rewrite !(sumn_segments (f_seg F)), L4, <- sumn_minus. apply sumn_ext. intros i Hi.
  specialize (P i Hi (tin i) (sin i) (fun l => Tb (seg_off (f_seg F) i + l)%nat) (fun l => Sb (seg_off (f_seg F) i + l)%nat)). cbv beta in P.
  assert (Hc : (nth i (n_circ N) O < nInlets N)%nat) by (apply (proj2 (proj2 (proj2 (proj2 W)))); auto).
  destruct (format_facts N g F W (proj1 G)) as [Lm _].
  rewrite (nth_map (fun m => Rabs m * cp) _ _ 0) by lia.
  rewrite <- (mb_nth N g F i W (proj1 G) Hi).
  rewrite (Cp i Hi) in P.
  assert (O1 : tout i = own_outlet (nth i ps no_pipe) (nth i (f_mb F) 0) cp (nth i (f_seg F) O) (nth i (f_rat F) None) (tin i) (fun l => Tb (seg_off (f_seg F) i + l)%nat)).
  { unfold tout, K. rewrite (in_out_consistent N ps g F a o t Tb W G Ea H2 i Hi). unfold bore_outlet. rewrite (Cp i Hi). reflexivity. }
  assert (O2 : sout i = own_outlet (nth i ps no_pipe) (- nth i (f_mb F) 0) cp (nth i (f_seg F) O) (nth i (f_rat F) None) (sin i) (fun l => Sb (seg_off (f_seg F) i + l)%nat)).
  { pose proof (in_out_consistent N ps (reversed g) (turn F) a' o' s Sb W G' Ea' H4 i Hi) as X. cbv zeta in X. cbn [turn f_seg] in X. fold K in X. unfold sout. rewrite X. unfold bore_outlet. cbn [turn f_mb f_cpb f_seg f_rat].
    rewrite nth_opp, (Cp i Hi). reflexivity. }
  rewrite <- O1, <- O2 in P.
  rewrite (Rmult_comm (tout i)) in P. rewrite (Rmult_comm (tout i)). rewrite <- P. f_equal.
  - apply sumn_ext. intros l Hl. f_equal. pose proof (qb_apply N ps g F a t Tb i l W G Hi Hl) as X. cbv zeta in X. unfold K. rewrite X.
    unfold own_heat. rewrite (Cp i Hi). reflexivity.
  - apply sumn_ext. intros l Hl. f_equal. pose proof (qb_apply N ps (reversed g) (turn F) a' s Sb i l W G' Hi Hl) as X. cbv zeta in X. cbn [turn f_mb f_cpb f_seg f_rat] in X.
    unfold K. rewrite X. unfold own_heat. rewrite nth_opp, (Cp i Hi). reflexivity.
Qed.

Lemma net_heat_reciprocal N ps g F cp qb h qb' h' t s Tb Sb : wf N -> good_args N ps g F -> flowing g -> In cp (g_cp g) ->
  every_pipe pipe_reciprocal N ps F ->
  fresh N ps BoreHeat g = Some qb -> fresh N ps NetHeat g = Some h ->
  fresh N ps BoreHeat (reversed g) = Some qb' -> fresh N ps NetHeat (reversed g) = Some h' ->
  let K := seg_total (f_seg F) in
  sumn K (fun l => Sb l * apply_coefs K qb t Tb l) - sumn K (fun l => Tb l * apply_coefs K qb' s Sb l)
  = s * apply_coefs K h t Tb O - t * apply_coefs K h' s Sb O.
Proof.
  intros W G Fl Hcp P H1 H2 H3 H4 K. pose proof (good_turn N ps g F Fl G) as G'.
  destruct (ends_exist N (f_rev F) W) as [E HE]. destruct (ends_exist N (negb (f_rev F)) W) as [E' HE'].
  destruct (fresh_some_all N ps g F W G) as (a & o & _ & _ & _ & _ & _ & Eo & _).
  destruct (fresh_some_all N ps _ _ W G') as (a' & o' & _ & _ & _ & _ & _ & Eo' & _).
  pose proof (net_reciprocal N ps g F E E' cp qb o qb' o' t s Tb Sb W G Fl Hcp HE HE' P H1 Eo H3 Eo') as X. cbv zeta in X. fold K in X. rewrite X.
  pose proof (heat_circuits N ps g F E t Tb cp h o W G HE Hcp H2 Eo) as Y. cbv zeta in Y. fold K in Y. rewrite Y.
  pose proof (heat_circuits N ps (reversed g) (turn F) E' s Sb cp h' o' W G' HE' Hcp H4 Eo') as Y'. cbv zeta in Y'. cbn [turn f_seg f_m] in Y'. fold K in Y'. rewrite Y'.
  rewrite <- !sumn_scal, <- sumn_minus. apply sumn_ext. intros k Hk. rewrite nth_opp, Rabs_Ropp. ring.
Qed.
