(** Examples of figures: a field with groups of different sizes, and an inclined borehole. *)
From Coq Require Import String Permutation.
From Verif Require Import Base LinAlg FLS_Model FLS_Spec.
From Verif Require Import Bore_Model Bore_Spec Bore_Proofs Net_Model Solve_Model Solve_Spec Detailed_Model Detailed_Spec Detailed_Proofs
  Sim_Model Sim_Spec Sim_Group_Proofs Eq_Model Eq_Spec Eq_Group_Proofs Eq_Cluster_Proofs Eq_Mix_Proofs Eq_Square_Proofs GFun_Model GFun_Spec GFun_Causal_Proofs GFun_Eval_Proofs GFun_Field_Proofs GFun_Uniform_Proofs GFun_Pair_Proofs
  Prof_Model Prof_Spec.
Local Open Scope R_scope.

Definition trio_field : list bore := [mixb 100 0 0; mixb 100 10 0; mixb 50 5 0].
Definition trio_call : call := mkcall (Field trio_field) 1 (VArr [1; 2]) "equivalent" (Some "UHTR"%string) VNone VNone VNone pair_options.

Lemma trio_planar a b : (a < 3)%nat -> (b < 3)%nat -> planar (nth a trio_field no_bore) (nth b trio_field no_bore) =
  if Nat.eqb a b then 0 else if (Nat.eqb a 2 || Nat.eqb b 2)%bool then 5 else 10.
Proof.
  intros Ha Hb. destruct a as [|[|[|a]]], b as [|[|[|b]]]; try lia; cbn [nth trio_field mixb Nat.eqb orb]; unfold planar; cbn [bx by_ mixb];
    match goal with |- sqrt ?e = _ => first [replace e with (5 * 5) by ring; apply sqrt_square; lra | replace e with (10 * 10) by ring; apply sqrt_square; lra | replace e with 0 by ring; apply sqrt_0] end.
Qed.

Lemma trio_data : exists u v, steady_data trio_field = [u; u; v] /\ 0 <= u.
Proof.
  set (st := fun d h h' => fls_steady d h 4 h' 4 true true). set (a := Rmax (sqrt 0) (3 / 40)). set (b := Rmax (sqrt 100) (3 / 40)). set (c := Rmax (sqrt 25) (3 / 40)).
  exists (st a 100 100 + st b 100 100 + st c 50 100), (2 * st c 100 50 + st a 50 50).
  assert (Pa : 0 < a /\ 0 < b /\ 0 < c). { unfold a, b, c. repeat split; (apply Rlt_le_trans with (3 / 40); [lra|apply Rmax_r]). }
  assert (P : forall d h h', 0 < d -> 0 < h -> 0 < h' -> 0 <= st d h h') by (intros; apply steady_nonneg; auto; lra).
  split.
  - unfold steady_data, trio_field, mixb, planar. cbn [map Rsum bH bD br bx by_].
    repeat match goal with |- context [sqrt ?e] =>
      lazymatch e with 0 => fail | 25 => fail | 100 => fail | _ => first [replace e with 0 by ring | replace e with 25 by ring | replace e with 100 by ring] end end.
    fold a b c. change (fun d h h' => fls_steady d h 4 h' 4 true true) with st. fold (st a 100 100) (st b 100 100) (st c 50 100) (st a 50 50) (st c 100 50).
    f_equal; [ring|f_equal; [ring|f_equal; ring]].
  - pose proof (P a 100 100). pose proof (P b 100 100). pose proof (P c 50 100). lra.
Qed.

Lemma trio_clusters link kC : agglomerative link -> clusters link kC (/ 10 ^ 6) trio_field = ([0; 0; 1]%nat, 2%nat).
Proof.
  intros Ag. destruct trio_data as [u [v [D Pu]]]. unfold clusters. change (Nat.ltb 1 (length trio_field)) with true. cbv iota.
  assert (U : unique_boreholes (/ 10 ^ 6) trio_field = [[0; 1]; [2]]%nat).
  { unfold unique_boreholes. cbn [length trio_field seq fold_left]. repeat (cbn [add_group nth app trio_field]; first [rewrite mix_close | rewrite mix_far by auto]). reflexivity. }
  rewrite U, D. cbn [fold_left]. unfold cluster_step. cbn [length Nat.ltb Nat.leb map nth]. destruct (two_equal link kC Ag u Pu) as [-> ->]. reflexivity.
Qed.
Definition trio_groups : list ebore := [EBore 100 4 (3 / 40) [0; 10] [0; 0] 0 [0; 0]; EBore 50 4 (3 / 40) [5] [0] 0 [0]].
Lemma trio_boreholes link kC : agglomerative link -> equivalent_boreholes link kC (/ 10 ^ 6) trio_field = Some trio_groups.
Proof. intros Ag. unfold equivalent_boreholes. rewrite trio_clusters by auto. reflexivity. Qed.

Lemma trio_bore b : In b trio_field -> exists h x, b = mixb h x 0 /\ (h = 100 \/ h = 50).
Proof. intros [<-|[<-|[<-|[]]]]; eauto. Qed.

Lemma trio_vertical : vertical_field trio_field.
Proof.
  split.
  - intros b I. destruct (trio_bore b I) as [h [x [-> Hh]]]. cbn; lra.
  - intros a b A B Nq. cbn [length trio_field] in A, B. rewrite trio_planar by auto. rewrite (proj2 (Nat.eqb_neq a b)) by auto. destruct (trio_bore _ (nth_In trio_field no_bore A)) as [h [x [-> _]]]. cbn [br mixb]. destruct (_ || _)%bool; lra.
Qed.

Lemma trio_regular : regular_field (/ 10 ^ 6) (1 / 100) 1 104 trio_field 1 [1].
Proof.
  assert (T : 0 < / 10 ^ 30 < 1). { split; [apply Rinv_0_lt_compat, pow_lt; lra|]. rewrite <- Rinv_1. apply Rinv_lt_contravar; [rewrite Rmult_1_l; apply pow_lt; lra|]. apply Rlt_pow_R1; [lra|lia]. }
  unfold regular_field. split; [cbn; lia|]. split; [exact trio_vertical|]. split; [auto|]. split; [|split].
  - intros r [<-|[]]. split; [cbn; lra|]. intros x [<-|[]]. lra.
  - split; [lra|]. split; [apply Rinv_0_lt_compat, pow_lt; lra|]. split; [lra|].
    intros s I. cbn in I. destruct I as [<-|[<-|[<-|[<-|[<-|[<-|[]]]]]]]; cbn; rewrite ?cos_0; (split; [first [exists 100%Z; field | exists 50%Z; field]|]; split; [exists 4%Z; field|]; lra).
  - split; [|split; [|split; [|split]]].
    + intros a b Ia Ib _. destruct (trio_bore a Ia) as [h [x [-> _]]], (trio_bore b Ib) as [h' [y [-> _]]]. auto.
    + intros a b Ia Ib _. destruct (trio_bore a Ia) as [h [x [-> _]]], (trio_bore b Ib) as [h' [y [-> _]]]. auto.
    + intros a b c L1 L2 L3 S. cbn [length trio_field] in L3. assert (a = 0%nat /\ b = 1%nat /\ c = 2%nat) as (-> & -> & ->) by lia. destruct S as [S _]. cbn in S. lra.
    + lra.
    + intros a b A B Nq. cbn [length trio_field] in A, B. rewrite trio_planar by auto. rewrite (proj2 (Nat.eqb_neq a b)) by auto. cbn [nth trio_field mixb br]. destruct (_ || _)%bool; lra.
Qed.

Lemma trio_apart : distances_apart (1 / 100) trio_field.
Proof.
  intros x y [a [b [A [B [N ->]]]]] [a' [b' [A' [B' [N' ->]]]]] L. cbn [length trio_field] in *. rewrite !trio_planar in * by auto.
  rewrite (proj2 (Nat.eqb_neq a b)), (proj2 (Nat.eqb_neq a' b')) in * by auto. destruct (Nat.eqb a 2 || Nat.eqb b 2)%bool, (Nat.eqb a' 2 || Nat.eqb b' 2)%bool; lra.
Qed.

Lemma trio_sharp : sharp_equivalent trio_call 1 104 1 [1].
Proof. split; [reflexivity|]. split; [reflexivity|]. split; [exact trio_regular|exact trio_apart]. Qed.

Lemma trio_unique : find_duplicates trio_field = Some [].
Proof.
  unfold find_duplicates. assert (E : lmax (map br trio_field) = Some (3 / 40)). { cbn. f_equal. unfold Rmax; repeat (destruct (Rle_dec _ _)); auto. }
  rewrite E. assert (P : argwhere_lt (3 / 40) 0 (pdist trio_field) = []); [|rewrite P; reflexivity].
  pose proof (trio_planar 0 1 ltac:(lia) ltac:(lia)) as P01. pose proof (trio_planar 0 2 ltac:(lia) ltac:(lia)) as P02. pose proof (trio_planar 1 2 ltac:(lia) ltac:(lia)) as P12.
  cbn [nth trio_field Nat.eqb orb] in P01, P02, P12. cbn [pdist trio_field map app argwhere_lt]. rewrite P01, P02, P12. rewrite (proj2 (Rltb_false 5 (3 / 40))), (proj2 (Rltb_false 10 (3 / 40))) by lra. auto.
Qed.
Lemma trio_checks : check_segments trio_field [1; 1; 1]%nat [[1]; [1]; [1]] = true.
Proof.
  unfold check_segments. cbn [length trio_field Nat.ltb Nat.leb Nat.eqb forallb combine andb fst snd Rsum].
  replace (1 - (1 + 0)) with 0 by ring. rewrite Rabs_R0. rewrite (proj2 (Rltb_true 0 (1 / 10 ^ 6))); [auto|]. apply Rdiv_lt_0_compat; [lra|apply pow_lt; lra].
Qed.
Lemma trio_equivalent_checks : equivalent_checks pair_options trio_field [1; 1; 1]%nat [[1]; [1]; [1]] = true.
Proof.
  unfold equivalent_checks. cbn [pair_options o_disTol o_tol]. rewrite !(proj2 (Rltb_true 0 _)) by (try lra; apply Rinv_0_lt_compat, pow_lt; lra).
  cbn [hd forallb Nat.eqb andb trio_field btilt mixb]. assert (T : tilted 0 = false).
  { unfold tilted. apply Rltb_false. rewrite Rabs_R0. left. apply Rinv_0_lt_compat, pow_lt. lra. }
  rewrite T. cbn [negb andb]. assert (C : all_close [1] [1] = true).
  { unfold all_close, close. cbn [combine forallb fst snd]. rewrite Rminus_eq_0, Rabs_R0, andb_true_r. apply Rleb_true. pose proof (Rabs_pos 1).
    assert (0 < 1 / 10 ^ 8) by (apply Rdiv_lt_0_compat; [lra|apply pow_lt; lra]). assert (0 < 1 / 10 ^ 5) by (apply Rdiv_lt_0_compat; [lra|apply pow_lt; lra]). nra. }
  rewrite C. auto.
Qed.

Lemma trio_constructed l : exists q s, construct (with_time trio_call (VArr l)) = Some (q, s) /\ q_method q = "equivalent"%string.
Proof.
  pose proof trio_unique as U. pose proof trio_checks as C. pose proof trio_equivalent_checks as Q.
  unfold construct, resolve. cbn [with_time trio_call c_source c_bc c_mb c_mn c_cp c_method c_options is_none andb]. change (String.eqb "UHTR" "MIFT") with false. cbn [andb]. cbv zeta.
  unfold check, make_solver. cbn [q_bs q_net q_method q_bc q_mb q_mn q_cp]. rewrite U. unfold check_flows, solver_flows, equivalent_network. cbn [q_bs q_net q_method q_bc q_mb q_mn q_cp with_time trio_call c_time c_options].
  change (String.eqb "UHTR" "MIFT") with false.
  cbn [length trio_field Nat.eqb negb andb pair_options o_n o_r o_tol o_disTol format_segments format_ratios repeat]. fold trio_field. rewrite C.
  change (mkoptions (SInt 1) (Detailed_Model.RArray [1]) None (/ 10 ^ 6) (1 / 100) 1) with pair_options. rewrite Q. destruct l; eexists _, _; split; reflexivity.
Qed.
Lemma trio_threshold : threshold_of trio_call ((3 / 40) ^ 2 / 25).
Proof.
  exists (3 / 40). cbn [trio_call boreholes_of c_source c_options c_alpha pair_options o_thr trio_field map br mixb]. unfold lmax, time_threshold. cbn [fold_left].
  split; [f_equal; unfold Rmax; repeat (destruct (Rle_dec _ _)); auto|]. field.
Qed.

(** * One inclined borehole *)

Definition lean : bore := Bore 100 4 (3 / 40) 0 0 (PI / 3) 0.
Definition lean_call : call := mkcall (Field [lean]) 1 (VArr [1; 2]) "detailed" (Some "UHTR"%string) VNone VNone VNone pair_options.

Lemma lean_checks : check_segments [lean] [1]%nat [[1]] = true.
Proof.
  unfold check_segments. cbn [length Nat.ltb Nat.leb Nat.eqb forallb combine andb fst snd Rsum].
  replace (1 - (1 + 0)) with 0 by ring. rewrite Rabs_R0. rewrite (proj2 (Rltb_true 0 (1 / 10 ^ 6))); [auto|]. apply Rdiv_lt_0_compat; [lra|apply pow_lt; lra].
Qed.
Lemma times_12 : times (VArr [1; 2]) = Some [1; 2].
Proof.
  unfold times. cbn [numbers map]. rewrite !Rmax_left by lra. assert (I : increasing [1; 2] = true); [|rewrite I; reflexivity]. cbn. rewrite ?(proj2 (Rleb_true 1 2)), ?(proj2 (Rltb_true 1 2)) , ?(proj2 (Rltb_false 2 1)) by lra. reflexivity.
Qed.
Lemma lean_constructed : exists s, construct lean_call = Some (mkrequest [lean] None "detailed" "UHTR" VNone VNone VNone, s).
Proof.
  pose proof lean_checks as C.
  unfold construct, resolve. cbn [lean_call c_source c_bc c_mb c_mn c_cp c_method c_options c_time is_none andb]. change (String.eqb "UHTR" "MIFT") with false. cbn [andb]. cbv zeta.
  unfold check, make_solver. cbn [q_bs q_net q_method q_bc q_mb q_mn q_cp]. change (find_duplicates [lean]) with (Some (@nil (nat * nat))). unfold check_flows, solver_flows, equivalent_network. cbn [q_bs q_net q_method q_bc q_mb q_mn q_cp lean_call c_time c_options].
  change (String.eqb "UHTR" "MIFT") with false.
  cbn [length Nat.eqb negb andb pair_options o_n o_r o_tol o_disTol format_segments format_ratios repeat]. rewrite C. eexists. reflexivity.
Qed.
Lemma lean_solved link uw : exists g, gfunction link uw lean_call = Some (G1 g).
Proof.
  destruct lean_constructed as [s K]. unfold gfunction. rewrite K. change (c_time lean_call) with (VArr [1; 2]). cbv iota beta. unfold evaluate. rewrite times_12.
  unfold make_system. cbn [q_bs q_net q_method q_bc q_mb q_mn q_cp map]. change (lmax [br lean]) with (Some (3 / 40)). change (String.eqb (lower "detailed") "detailed") with true. cbv iota zeta.
  unfold solve. change (String.eqb "UHTR" "UHTR") with true. cbv iota zeta.
  match goal with |- context [defined_at ?h ?l] => assert (D : defined_at h l = true) by (apply forallb_forall; intros; reflexivity); rewrite D end. eexists. reflexivity.
Qed.
