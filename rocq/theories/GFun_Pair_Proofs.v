(** Two equal boreholes with one segment each: the example of the g-function objects. *)
From Coq Require Import String Permutation.
From Verif Require Import Base LinAlg FLS_Model FLS_Spec FLS_Steady_Proofs FLS_Line_Proofs FLS_Props.
From Verif Require Import Bore_Model Bore_Spec Bore_Proofs Net_Model Solve_Model Solve_Spec Solve_Loop_Proofs Solve_Eq_Proofs Solve_Sol_Proofs Solve_Extra_Proofs Detailed_Model Detailed_Spec Detailed_Proofs Detailed_Sol_Proofs Detailed_Props
  Sim_Model Sim_Spec Sim_Group_Proofs Eq_Model Eq_Spec Eq_Group_Proofs Eq_Cluster_Proofs Eq_Mix_Proofs Eq_Square_Proofs GFun_Model GFun_Spec GFun_Causal_Proofs GFun_Eval_Proofs GFun_Field_Proofs GFun_Uniform_Proofs.
Local Open Scope R_scope.

Definition pair_field : list bore := [mixb 100 0 0; mixb 100 5 0].

Lemma pair_planar a b : (a < 2)%nat -> (b < 2)%nat -> planar (nth a pair_field no_bore) (nth b pair_field no_bore) = if Nat.eqb a b then 0 else 5.
Proof.
  intros Ha Hb. destruct a as [|[|a]], b as [|[|b]]; try lia; cbn [nth pair_field mixb Nat.eqb]; unfold planar; cbn [bx by_ mixb];
    match goal with |- sqrt ?e = _ => first [replace e with (5 * 5) by ring; apply sqrt_square; lra | replace e with 0 by ring; apply sqrt_0] end.
Qed.

Lemma pair_data : exists u, steady_data pair_field = repeat u 2 /\ 0 <= u.
Proof.
  set (st := fun d => fls_steady d 100 4 100 4 true true). set (a := Rmax 0 (3 / 40)). set (b := Rmax 5 (3 / 40)).
  exists (st a + st b).
  assert (Pa : 0 < a /\ 0 < b). { unfold a, b. repeat split; (apply Rlt_le_trans with (3 / 40); [lra|apply Rmax_r]). }
  assert (P : forall d, 0 < d -> 0 <= st d) by (intros; apply steady_nonneg; auto; lra).
  split.
  - pose proof (pair_planar 0 0 ltac:(lia) ltac:(lia)) as P00. pose proof (pair_planar 0 1 ltac:(lia) ltac:(lia)) as P01.
    pose proof (pair_planar 1 0 ltac:(lia) ltac:(lia)) as P10. pose proof (pair_planar 1 1 ltac:(lia) ltac:(lia)) as P11.
    cbn [nth pair_field Nat.eqb] in P00, P01, P10, P11.
    unfold steady_data, pair_field. cbn [map Rsum repeat]. rewrite P00, P01, P10, P11. cbn [bH bD br mixb].
    fold a b. fold (st a) (st b). f_equal; [ring|f_equal; ring].
  - pose proof (P a). pose proof (P b). lra.
Qed.

Lemma pair_clusters link kC : agglomerative link -> clusters link kC (/ 10 ^ 6) pair_field = ([0; 0]%nat, 1%nat).
Proof.
  intros Ag. destruct pair_data as [u [D Pu]]. unfold clusters. change (Nat.ltb 1 (length pair_field)) with true. cbv iota.
  assert (U : unique_boreholes (/ 10 ^ 6) pair_field = [[0; 1]]%nat).
  { unfold unique_boreholes. cbn [length pair_field seq fold_left]. repeat (cbn [add_group nth app pair_field]; rewrite mix_close). reflexivity. }
  rewrite U, D. cbn [fold_left]. unfold cluster_step. cbn [length Nat.ltb Nat.leb map nth repeat]. destruct (all_equal_one link kC u 2 Ag Pu ltac:(lia)) as [Q1 Q2]. cbn [repeat] in Q1, Q2. rewrite Q1, Q2. reflexivity.
Qed.
Definition pair_lump : list ebore := [EBore 100 4 (3 / 40) [0; 5] [0; 0] 0 [0; 0]].
Lemma pair_boreholes link kC : agglomerative link -> equivalent_boreholes link kC (/ 10 ^ 6) pair_field = Some pair_lump.
Proof. intros Ag. unfold equivalent_boreholes. rewrite pair_clusters by auto. reflexivity. Qed.

Lemma pair_bore b : In b pair_field -> exists x, b = mixb 100 x 0.
Proof. intros [<-|[<-|[]]]; eauto. Qed.

Lemma pair_vertical : vertical_field pair_field.
Proof.
  split.
  - intros b I. destruct (pair_bore b I) as [x ->]. cbn; lra.
  - intros a b A B Nq. cbn [length pair_field] in A, B. rewrite pair_planar by auto. rewrite (proj2 (Nat.eqb_neq a b)) by auto. destruct (pair_bore _ (nth_In pair_field no_bore A)) as [x ->]. cbn. lra.
Qed.

Lemma pair_grid : Sim_Spec.on_grid (/ 10 ^ 6) 1 104 pair_field [1; 1]%nat [[1]; [1]].
Proof.
  assert (T : 0 < / 10 ^ 30 < 1). { split; [apply Rinv_0_lt_compat, pow_lt; lra|]. rewrite <- Rinv_1. apply Rinv_lt_contravar; [rewrite Rmult_1_l; apply pow_lt; lra|]. apply Rlt_pow_R1; [lra|lia]. }
  split; [lra|]. split; [apply Rinv_0_lt_compat, pow_lt; lra|]. split; [lra|].
  intros s I. cbn in I. destruct I as [<-|[<-|[<-|[<-|[]]]]]; cbn; rewrite ?cos_0; (split; [exists 100%Z; field|]; split; [exists 4%Z; field|]; lra).
Qed.

Lemma pair_regular : regular_field (/ 10 ^ 6) (1 / 100) 1 104 pair_field 1 [1].
Proof.
  unfold regular_field. split; [cbn; lia|]. split; [exact pair_vertical|]. split; [auto|]. split; [|split; [exact pair_grid|]].
  - intros r [<-|[]]. split; [cbn; lra|]. intros x [<-|[]]. lra.
  - split; [|split; [|split; [|split]]].
    + intros a b Ia Ib _. destruct (pair_bore a Ia) as [x ->], (pair_bore b Ib) as [y ->]. auto.
    + intros a b Ia Ib _. destruct (pair_bore a Ia) as [x ->], (pair_bore b Ib) as [y ->]. auto.
    + intros a b c L1 L2 L3 _. cbn in L3. lia.
    + lra.
    + intros a b A B Nq. cbn [length pair_field] in A, B. rewrite pair_planar by auto. rewrite (proj2 (Nat.eqb_neq a b)) by auto. cbn [nth pair_field mixb br]. lra.
Qed.

Lemma pair_apart : distances_apart (1 / 100) pair_field.
Proof.
  intros x y [a [b [A [B [N ->]]]]] [a' [b' [A' [B' [N' ->]]]]] L. cbn [length pair_field] in *. rewrite !pair_planar in * by auto.
  rewrite (proj2 (Nat.eqb_neq a b)), (proj2 (Nat.eqb_neq a' b')) in * by auto. lra.
Qed.

Lemma pair_gathers : gathers pair_field [0; 0]%nat pair_lump.
Proof. split; auto. split; [intros [|[|k]] Hk; cbn in *; lia|]. intros [|i] Hi; cbn in Hi; [|lia]. cbn. repeat split; try reflexivity. discriminate. Qed.

Lemma pair_equitable : equitable [0; 0]%nat pair_field.
Proof.
  intros y y' Hy Hy' _ i. destruct i as [|i].
  2:{ assert (Z : owners [0; 0]%nat (length pair_field) (S i) = []) by reflexivity. rewrite Z. constructor. }
  change (owners [0; 0]%nat (length pair_field) 0) with [0; 1]%nat. cbn [length pair_field] in Hy, Hy'. cbn [map].
  rewrite !pair_planar by lia. destruct y as [|[|y]], y' as [|[|y']]; try lia; cbn [Nat.eqb]; auto; apply perm_swap.
Qed.

(** the object *)
Definition pair_options : options := mkoptions (SInt 1) (Detailed_Model.RArray [1]) None (/ 10 ^ 6) (1 / 100) 1.
Definition pair_call (method : string) : call := mkcall (Field pair_field) 1 (VArr [1; 2]) method None VNone VNone VNone pair_options.

Lemma pair_sharp m : sharp (pair_call m) 1 104.
Proof.
  unfold sharp. cbn [pair_call boreholes_of c_source c_options pair_options o_tol o_disTol].
  change (segments_of (pair_call m)) with [1; 1]%nat. change (ratios_of (pair_call m)) with [[1]; [1]].
  assert (O : forall r, In r [[1]; [1]] -> r = [1]) by (intros r [<-|[<-|[]]]; auto).
  split; [split; [auto|split; [auto|intros [|[|b]] Hb; cbn in *; auto; lia]]|]. split; [exact pair_vertical|].
  split; [intros r Hr; rewrite (O r Hr); split; [cbn; lra|intros x [<-|[]]; lra]|]. split; [exact pair_grid|].
  split; [intros a b Ia Ib _; destruct (pair_bore a Ia) as [x ->], (pair_bore b Ib) as [y ->]; auto|].
  split; [split; [intros r r' I I' _ _; rewrite (O r I), (O r' I'); auto|intros r I _ k Hk; rewrite (O r I) in *; destruct k; cbn in *; auto; lia]|].
  split; [lra|]. split; [cbn; lia|]. split; [|exact pair_apart].
  intros a b Ia Ib _. destruct (pair_bore a Ia) as [x ->], (pair_bore b Ib) as [y ->]; auto.
Qed.

Lemma pair_sharp_equivalent m : sharp_equivalent (pair_call m) 1 104 1 [1].
Proof. split; [reflexivity|]. split; [reflexivity|]. split; [exact pair_regular|exact pair_apart]. Qed.
Lemma pair_equitable_field link m : agglomerative link -> equitable_field link (pair_call m).
Proof. intros Ag. exists [0; 0]%nat, pair_lump. split; [apply pair_boreholes; auto|]. split; [exact pair_gathers|exact pair_equitable]. Qed.

Lemma pair_threshold m : threshold_of (pair_call m) ((3 / 40) ^ 2 / 25).
Proof.
  exists (3 / 40). cbn [pair_call boreholes_of c_source c_options c_alpha pair_options o_thr pair_field map br mixb]. unfold lmax, time_threshold. cbn [fold_left].
  split; [f_equal; unfold Rmax; destruct (Rle_dec _ _); auto|]. field.
Qed.

Lemma pair_unique : find_duplicates pair_field = Some [].
Proof.
  unfold find_duplicates. assert (E : lmax (map br pair_field) = Some (3 / 40)). { cbn. f_equal. unfold Rmax; destruct (Rle_dec _ _); auto. }
  rewrite E. assert (P : argwhere_lt (3 / 40) 0 (pdist pair_field) = []); [|rewrite P; reflexivity].
  pose proof (pair_planar 0 1 ltac:(lia) ltac:(lia)) as P01. cbn [nth pair_field Nat.eqb] in P01.   cbn [pdist pair_field map app argwhere_lt]. rewrite P01. rewrite (proj2 (Rltb_false 5 (3 / 40))) by lra. auto.
Qed.

Lemma pair_checks : check_segments pair_field [1; 1]%nat [[1]; [1]] = true.
Proof.
  unfold check_segments. cbn [length pair_field Nat.ltb Nat.leb Nat.eqb forallb combine andb fst snd Rsum].
  replace (1 - (1 + 0)) with 0 by ring. rewrite Rabs_R0. rewrite (proj2 (Rltb_true 0 (1 / 10 ^ 6))); [auto|]. apply Rdiv_lt_0_compat; [lra|apply pow_lt; lra].
Qed.
Lemma pair_equivalent_checks : equivalent_checks pair_options pair_field [1; 1]%nat [[1]; [1]] = true.
Proof.
  unfold equivalent_checks. cbn [pair_options o_disTol o_tol]. rewrite !(proj2 (Rltb_true 0 _)) by (try lra; apply Rinv_0_lt_compat, pow_lt; lra).
  cbn [hd forallb Nat.eqb andb pair_field btilt mixb]. assert (T : tilted 0 = false).
  { unfold tilted. apply Rltb_false. rewrite Rabs_R0. left. apply Rinv_0_lt_compat, pow_lt. lra. }
  rewrite T. cbn [negb andb]. assert (C : all_close [1] [1] = true).
  { unfold all_close, close. cbn [combine forallb fst snd]. rewrite Rminus_eq_0, Rabs_R0, andb_true_r. apply Rleb_true. pose proof (Rabs_pos 1).
    assert (0 < 1 / 10 ^ 8) by (apply Rdiv_lt_0_compat; [lra|apply pow_lt; lra]). assert (0 < 1 / 10 ^ 5) by (apply Rdiv_lt_0_compat; [lra|apply pow_lt; lra]). nra. }
  rewrite C. auto.
Qed.

Lemma pair_constructed m bc : In m ["detailed"; "similarities"; "equivalent"]%string -> In bc [None; Some "UHTR"; Some "UBWT"]%string ->
  construct (with_time (with_bc (pair_call m) bc) (VArr [])) <> None.
Proof.
  intros Im Ib. pose proof pair_unique as U. pose proof pair_checks as C. pose proof pair_equivalent_checks as Q.
  assert (T1 : Rltb 0 (1 / 100) = true) by (apply Rltb_true; lra). assert (T2 : Rltb 0 (/ 10 ^ 6) = true) by (apply Rltb_true, Rinv_0_lt_compat, pow_lt; lra).
  unfold construct, resolve. cbn [with_time with_bc pair_call c_source c_bc c_mb c_mn c_cp c_method c_options is_none andb]. 
  assert (B : exists b, match bc with Some s => s | None => "UBWT"%string end = b /\ (b = "UHTR" \/ b = "UBWT")%string). { destruct Ib as [<-|[<-|[<-|[]]]]; eauto. }
  destruct B as [b [-> Hb]].
  assert (N : String.eqb b "MIFT" = false) by (destruct Hb as [-> | ->]; auto). rewrite N. cbn [andb]. cbv zeta.
  unfold check, make_solver. cbn [q_bs q_net q_method q_bc q_mb q_mn q_cp]. rewrite U. unfold check_flows, solver_flows, equivalent_network. cbn [q_bs q_net q_method q_bc q_mb q_mn q_cp with_time with_bc pair_call c_time c_options]. rewrite N.
  cbn [length pair_field Nat.eqb negb andb pair_options o_n o_r o_tol o_disTol format_segments format_ratios repeat]. fold pair_field. rewrite C, T1, T2.
  change (mkoptions (SInt 1) (Detailed_Model.RArray [1]) None (/ 10 ^ 6) (1 / 100) 1) with pair_options. rewrite Q.
  destruct Hb as [-> | ->], Im as [<-|[<-|[<-|[]]]]; discriminate.
Qed.

(** the response of the pair *)
Definition pair_self (t : R) : R := fls t 1 (3 / 40) 100 4 100 4 true true.
Definition pair_cross (t : R) : R := fls t 1 5 100 4 100 4 true true.
Lemma pair_order t : 0 < t -> 0 < pair_cross t < pair_self t.
Proof. intros Ht. unfold pair_cross, pair_self. split; [apply C75_positive; lra|apply C75_decreasing_in_distance; lra]. Qed.
Lemma pair_matrix uw t i j : (i < 2)%nat -> (j < 2)%nat ->
  detailed_matrix (line_kernel 1 t uw) pair_field [1; 1]%nat [[1]; [1]] i j = if Nat.eqb i j then pair_self t else pair_cross t.
Proof.
  intros Hi Hj. rewrite C49_response; [|split; [auto|split; [auto|intros [|[|b]] Hb; cbn in *; auto; lia]]|exact pair_vertical|intros r [<-|[<-|[]]]; (split; [cbn; lra|intros x [<-|[]]; lra])|cbn; lia|cbn; lia].
  assert (S : forall k, (k < 2)%nat -> nth k (bore_segments pair_field [1; 1]%nat [[1]; [1]]) no_bore = nth k pair_field no_bore).
  { intros [|[|k]] Hk; [| |lia]; cbn; unfold mixb, mk_bore; rewrite ?sin_0, ?cos_0; destruct (tilted 0); f_equal; lra. }
  rewrite !S by auto. unfold response. rewrite pair_planar by auto. rewrite Nat.eqb_sym.
  destruct (pair_bore _ (nth_In pair_field no_bore Hi)) as [x ->], (pair_bore _ (nth_In pair_field no_bore Hj)) as [y ->]. cbn [bH bD br mixb].
  destruct (Nat.eqb i j); unfold pair_self, pair_cross; f_equal; unfold Rmax; destruct (Rle_dec _ _); lra.
Qed.

Lemma pair_length k : (k < 2)%nat -> segment_length pair_field [1; 1]%nat [[1]; [1]] k = 100.
Proof. intros Hk. destruct k as [|[|k]]; [| |lia]; cbn; lra. Qed.

Lemma pair_definite uw t : 0 < t -> definite 2 (segment_length pair_field [1; 1]%nat [[1]; [1]]) (detailed_matrix (line_kernel 1 t uw) pair_field [1; 1]%nat [[1]; [1]]).
Proof.
  intros Ht x [i [Hi Nx]]. pose proof (pair_order t Ht) as [P1 P2]. cbn [sumn]. rewrite !pair_length, !pair_matrix by lia. cbn [Nat.eqb].
  set (a := pair_self t) in *. set (b := pair_cross t) in *. set (u := x O) in *. set (v := x 1%nat) in *.
  assert (0 < u * u + v * v). { destruct i as [|[|i]]; [| |lia]; fold u v in Nx; nra. }
  replace (0 + 100 * u * (0 + a * u + b * v) + 100 * v * (0 + b * u + a * v)) with (100 * ((a - b) * (u * u + v * v) + b * (u + v) * (u + v))) by ring.
  apply Rmult_lt_0_compat; [lra|]. assert (0 < (a - b) * (u * u + v * v)) by (apply Rmult_lt_0_compat; lra). assert (0 <= b * (u + v) * (u + v)) by (rewrite Rmult_assoc; apply Rmult_le_pos; [lra|apply Rle_0_sqr]). lra.
Qed.

Lemma pair_solved link uw l : times (VArr l) <> None -> no_repeats ((3 / 40) ^ 2 / 25) l ->
  exists g, gfunction link uw (with_time (pair_call "detailed") (VArr l)) = Some (G1 g).
Proof.
  intros Nt Nr. rewrite gfunction_arr. pose proof (pair_constructed "detailed" None ltac:(left; auto) ltac:(left; auto)) as Nc.
  change (with_bc (pair_call "detailed") None) with (pair_call "detailed") in Nc.
  destruct (construct _) as [[q s]|] eqn:Ec; [|contradiction].
  assert (F : q_method q = "detailed"%string /\ q_bs q = pair_field /\ v_n s = [1; 1]%nat /\ v_r s = [[1]; [1]] /\ q_bc q = "UBWT"%string /\ q_net q = None).
  { pose proof (construct_boreholes _ _ _ Ec) as Eb. destruct (GFun_Methods_Proofs.make_segments _ _ _ Ec) as [En Er]. unfold construct in Ec.
    destruct (resolve _) as [q0|] eqn:Eq; [|discriminate]. destruct (check _ q0); [|discriminate]. destruct (make_solver _ q0); [|discriminate]. injection Ec as -> ->.
    unfold resolve in Eq. cbn in Eq. injection Eq as <-. auto 10. }
  destruct F as [F1 [F2 [F3 [F4 [F5 F6]]]]]. unfold evaluate. destruct (times (VArr l)) as [t|] eqn:Et; [|contradiction].
  destruct (times_some _ _ Et) as [Em [Nl [So Po]]]. destruct (pair_threshold "detailed") as [r [Er Eth]]. rewrite F2. cbn [pair_call boreholes_of c_source] in Er. rewrite Er.
  unfold make_system. rewrite F1. change (String.eqb (lower "detailed") "detailed") with true. cbv iota. rewrite <- Eth. unfold solve. rewrite F5.
  unfold detailed_system. cbn [y_n y_H y_h]. rewrite F2, F3, F4.
  assert (D : forall h l, defined_at (fun t => Some (h t)) l = true) by (intros h l0; apply forallb_forall; auto). rewrite D.
  change (String.eqb "UBWT" "UHTR") with false. change (String.eqb "UBWT" "UBWT") with true. cbv iota.
  set (thr := (3 / 40) ^ 2 / 25) in *. assert (Tp : 0 < thr) by (unfold thr; lra).
  assert (Nr' : no_repeats thr t) by (rewrite Em; apply clamp_repeats; auto).
  assert (Ne : t <> []) by (rewrite Em; destruct l; [contradiction|discriminate]).
  pose proof (long_grid t thr Ne Tp So Nr') as Gt.
  destruct (ubwt_some 2 (segment_length pair_field [1; 1]%nat [[1]; [1]]) (fun i j t => detailed_matrix (line_kernel 1 t uw) pair_field [1; 1]%nat [[1]; [1]] i j) (time_long t thr)) as [Q [g E]]; auto.
  { intros x Hx. apply pair_definite. apply (long_positive t thr Tp So); auto. }
  rewrite ubwt_zero in E by (apply long_positive; auto). rewrite ubwt_run. change (n_sources pair_field [1; 1]%nat [[1]; [1]]) with 2%nat. cbn [pair_call c_alpha].
  match goal with |- context [match ?x with _ => _ end] => change x with (Some (Q, g)) || idtac end.
  match type of E with ?x = _ => match goal with |- context [grun ?a ?b ?c ?d ?e ?f] => change (grun a b c d e f) with x end end.
  rewrite E. eexists. reflexivity.
Qed.
