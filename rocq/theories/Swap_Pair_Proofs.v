(** Two boreholes in a row and in a column: the example of C170 with similarities. *)
From Coq Require Import String Reals Lra Lia List.
From Verif Require Import Base LinAlg FLS_Model.
From Verif Require Import Bore_Model Bore_Spec Field_Model Field_Spec Field_Proofs Field_Props Net_Model Solve_Model Detailed_Model Detailed_Spec
  Sim_Model Sim_Spec Eq_Model Eq_Mix_Proofs GFun_Model GFun_Spec GFun_Pair_Proofs Swap_Proofs.
Import ListNotations.
Local Open Scope R_scope.
Local Open Scope string_scope.

Section Duo.
Variables X Y : R.
Hypothesis Five : X * X + Y * Y = 25.
Definition duo : list bore := [mixb 100 0 0; mixb 100 X Y].

Lemma duo_planar a b : (a < 2)%nat -> (b < 2)%nat -> planar (nth a duo no_bore) (nth b duo no_bore) = if Nat.eqb a b then 0 else 5.
Proof.
  intros Ha Hb. destruct a as [|[|a]], b as [|[|b]]; try lia; cbn [nth duo mixb Nat.eqb]; unfold planar; cbn [bx by_ mixb];
    match goal with |- sqrt ?e = _ => first [replace e with 0 by ring; apply sqrt_0 | replace e with (5 * 5) by (ring_simplify; lra); apply sqrt_square; lra] end.
Qed.

Lemma duo_bore b : In b duo -> exists x y, b = mixb 100 x y.
Proof. intros [<-|[<-|[]]]; eauto. Qed.

Lemma duo_sharp alpha time m bc : sharp (mkcall (GFun_Model.Field duo) alpha time m bc VNone VNone VNone pair_options) 1 104.
Proof.
  set (c := mkcall _ _ _ _ _ _ _ _ _). unfold sharp.
  change (segments_of c) with [1; 1]%nat. change (ratios_of c) with [[1]; [1]].
  change (boreholes_of c) with duo. cbn [c c_options pair_options o_tol o_disTol].
  assert (O1 : forall r, In r [[1]; [1]] -> r = [1]) by (intros r [<-|[<-|[]]]; auto).
  split; [split; [auto|split; [auto|intros [|[|b]] Hb; cbn in *; auto; lia]]|].
  split.
  { split.
    - intros b I. destruct (duo_bore b I) as (x & y & ->). cbn; lra.
    - intros a b A B Nq. cbn [List.length duo] in A, B. rewrite duo_planar by auto. rewrite (proj2 (Nat.eqb_neq a b)) by auto.
      destruct (duo_bore _ (nth_In duo no_bore A)) as (x & y & ->). cbn. lra. }
  split; [intros r Hr; rewrite (O1 r Hr); split; [cbn; lra|intros x [<-|[]]; lra]|].
  split.
  { assert (T : 0 < / 10 ^ 30 < 1). { split; [apply Rinv_0_lt_compat, pow_lt; lra|]. rewrite <- Rinv_1. apply Rinv_lt_contravar; [rewrite Rmult_1_l; apply pow_lt; lra|]. apply Rlt_pow_R1; [lra|lia]. }
    split; [lra|]. split; [apply Rinv_0_lt_compat, pow_lt; lra|]. split; [lra|].
    intros s I. cbn in I. destruct I as [<-|[<-|[<-|[<-|[]]]]]; cbn; rewrite ?cos_0; (split; [exists 100%Z; field|]; split; [exists 4%Z; field|]; lra). }
  split; [intros a b Ia Ib _; destruct (duo_bore a Ia) as (x & y & ->), (duo_bore b Ib) as (x' & y' & ->); auto|].
  split; [split; [intros r r' I I' _ _; rewrite (O1 r I), (O1 r' I'); auto|intros r I _ k Hk; rewrite (O1 r I) in *; destruct k; cbn in *; auto; lia]|].
  split; [lra|]. split; [cbn; lia|]. split.
  - intros a b Ia Ib _. destruct (duo_bore a Ia) as (x & y & ->), (duo_bore b Ib) as (x' & y' & ->); auto.
  - intros x y [a [b [A [B [N ->]]]]] [a' [b' [A' [B' [N' ->]]]]] L. cbn [List.length duo] in *. rewrite !duo_planar in * by auto.
    rewrite (proj2 (Nat.eqb_neq a b)), (proj2 (Nat.eqb_neq a' b')) in * by auto. lra.
Qed.
End Duo.

Lemma two_list (l : list bore) : List.length l = 2%nat -> l = [nth 0 l b0; nth 1 l b0].
Proof. destruct l as [|a [|b [|c l]]]; cbn; intros E; try discriminate. reflexivity. Qed.

Lemma upright_mixb q : upright_bore 100 4 (3 / 40) q = mixb 100 (fst q) (snd q).
Proof. unfold upright_bore, mk_bore, mixb. rewrite no_tilt. reflexivity. Qed.

Lemma row_list f : rectangle_field 2 1 5 7 100 4 (3 / 40) 0 None = Some f -> to_boreholes f = duo 5 0.
Proof.
  intros E. destruct (C14_rectangle 2 1 5 7 100 4 (3 / 40) 0 None) as (f1 & E1 & _ & L & _ & S). rewrite E in E1. injection E1 as <-.
  rewrite (list_of_positions _ _ _ _ _ S). rewrite (two_list _ L). cbn [map].
  pose proof (C14_row_order 2 1 5 7 100 4 (3 / 40) 0 None f 0 0 E ltac:(lia) ltac:(lia)) as P0.
  pose proof (C14_row_order 2 1 5 7 100 4 (3 / 40) 0 None f 1 0 E ltac:(lia) ltac:(lia)) as P1. cbn [Nat.mul Nat.add] in P0, P1.
  rewrite P0, P1, !upright_mixb. unfold duo, lattice. cbn [fst snd INR]. f_equal; [f_equal; ring|]. f_equal. f_equal; ring.
Qed.

Lemma column_list f : rectangle_field 1 2 7 5 100 4 (3 / 40) 0 None = Some f -> to_boreholes f = duo 0 5.
Proof.
  intros E. destruct (C14_rectangle 1 2 7 5 100 4 (3 / 40) 0 None) as (f1 & E1 & _ & L & _ & S). rewrite E in E1. injection E1 as <-.
  rewrite (list_of_positions _ _ _ _ _ S). rewrite (two_list _ L). cbn [map].
  pose proof (C14_row_order 1 2 7 5 100 4 (3 / 40) 0 None f 0 0 E ltac:(lia) ltac:(lia)) as P0.
  pose proof (C14_row_order 1 2 7 5 100 4 (3 / 40) 0 None f 0 1 E ltac:(lia) ltac:(lia)) as P1. cbn [Nat.mul Nat.add] in P0, P1.
  rewrite P0, P1, !upright_mixb. unfold duo, lattice. cbn [fst snd INR]. f_equal; [f_equal; ring|]. f_equal. f_equal; ring.
Qed.
