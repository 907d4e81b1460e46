(** Properties of the finite line source solution: C38 - C43, C74 - C77. *)
From Coq Require Import Reals Lra Lia List Bool Psatz.
From Verif Require Import Base FLS_Model FLS_Spec FLS_Erf_Proofs FLS_Proofs FLS_Sol_Proofs FLS_Line_Proofs
  FLS_Steady_Proofs FLS_Incl_Proofs FLS_Incl_Steady_Proofs FLS_Exact_Proofs FLS_More_Proofs FLS_Heat_Proofs.
From Coquelicot Require Import Coquelicot.
Local Open Scope R_scope.

(** Two inclined boreholes side by side, 5 m apart, and a vertical one. *)
Definition ex_b1 : bh := mkbh 150 4 (3/40) 0 0 (PI / 6) 0.
Definition ex_b2 : bh := mkbh 100 2 (3/40) 0 5 (PI / 6) 0.
Definition ex_b3 : bh := mkbh 100 4 (3/40) 5 0 0 0.
Definition ex_uw : list (R * R) := ((1/4), (1/2)) :: ((3/4), (1/2)) :: nil.

Lemma ex_apart : apart ex_b1 ex_b2. Proof. unfold apart; cbn; lra. Qed.
Lemma ex_clear : clear_nodes ex_uw ex_b1 ex_b2 true true.
Proof.
  assert (P : forall x y : R, 0 < x ^ 2 + 25 + y ^ 2) by (intros; pose proof (pow2_ge_0 x); pose proof (pow2_ge_0 y); lra).
  intros c _. rewrite (excess_apart _ _ ex_apart).
  split; intros _ v; unfold dist2, mirror, point, ex_b1, ex_b2; cbn [fst snd b_x b_y b_D b_tilt b_ori b_H]; rewrite sin_0;
    match goal with |- 0 < 0 + (?a ^ 2 + ?b ^ 2 + ?c ^ 2) => replace (b ^ 2) with 25 by ring; pose proof (P a c); lra end.
Qed.

(** * C38 *)

(** Reciprocity of the transient solution between vertical boreholes. *)
Theorem C38_transient : forall time alpha dis H1 D1 H2 D2 rea img, H1 <> 0 -> H2 <> 0 ->
  H2 * fls time alpha dis H1 D1 H2 D2 rea img = H1 * fls time alpha dis H2 D2 H1 D1 rea img.
Proof. exact recip_transient. Qed.
Print Assumptions C38_transient.

(** Reciprocity of the steady-state solution. *)
Theorem C38_steady : forall dis H1 D1 H2 D2 rea img, dis <> 0 -> H1 <> 0 -> H2 <> 0 ->
  H2 * fls_steady dis H1 D1 H2 D2 rea img = H1 * fls_steady dis H2 D2 H1 D1 rea img.
Proof. exact recip_steady. Qed.
Print Assumptions C38_steady.

(** Reciprocity of the approximation, whatever its coefficients. *)
Theorem C38_approximation : forall exp1 erfc ab time alpha dis H1 D1 H2 D2 rea img, 0 < alpha -> 0 < time -> H1 <> 0 -> H2 <> 0 ->
  H2 * fls_approx exp1 erfc ab time alpha dis H1 D1 H2 D2 rea img = H1 * fls_approx exp1 erfc ab time alpha dis H2 D2 H1 D1 rea img.
Proof. exact recip_approx. Qed.
Print Assumptions C38_approximation.

(** Reciprocity between boreholes of any inclination, integrated exactly along both. *)
Theorem C38_inclined : forall b1 b2 time alpha rea img, 0 < alpha -> 0 < time -> b_H b1 <> 0 -> b_H b2 <> 0 -> (rea = true -> same_excess b1 b2) ->
  b_H b2 * fls_inclined b1 b2 exact time alpha rea img = b_H b1 * fls_inclined b2 b1 exact time alpha rea img.
Proof. exact recip_inclined. Qed.
Print Assumptions C38_inclined.

Example C38_example : 50 * fls_steady 5 100 4 50 2 true true = 100 * fls_steady 5 50 2 100 4 true true
  /\ 100 * fls_inclined ex_b1 ex_b2 exact 1000000 (1/1000000) true true = 150 * fls_inclined ex_b2 ex_b1 exact 1000000 (1/1000000) true true.
Proof.
  split; [apply C38_steady; lra|]. apply (C38_inclined ex_b1 ex_b2); cbn; try lra. intros _. unfold same_excess, wall_excess; cbn. f_equal. ring.
Qed.

(** * C39 *)

(** The receiving borehole is split into consecutive segments. *)
Theorem C39_receiver : forall time alpha dis H1 D1 D2 hs rea img,
  0 < alpha -> 0 < time -> dis <> 0 -> Rsum hs <> 0 -> (forall h, In h hs -> h <> 0) ->
  Rsum hs * fls time alpha dis H1 D1 (Rsum hs) D2 rea img
  = Rsum (map (fun c => snd c * fls time alpha dis H1 D1 (snd c) (fst c) rea img) (split_at D2 hs)).
Proof. exact split_receiver. Qed.
Print Assumptions C39_receiver.

(** The emitting borehole is split into consecutive segments. *)
Theorem C39_emitter : forall time alpha dis D1 H2 D2 hs rea img, 0 < alpha -> 0 < time -> dis <> 0 ->
  fls time alpha dis (Rsum hs) D1 H2 D2 rea img
  = Rsum (map (fun c => fls time alpha dis (snd c) (fst c) H2 D2 rea img) (split_at D1 hs)).
Proof. exact split_emitter. Qed.
Print Assumptions C39_emitter.

Theorem C39_receiver_steady : forall dis H1 D1 D2 hs rea img, Rsum hs <> 0 -> (forall h, In h hs -> h <> 0) ->
  Rsum hs * fls_steady dis H1 D1 (Rsum hs) D2 rea img
  = Rsum (map (fun c => snd c * fls_steady dis H1 D1 (snd c) (fst c) rea img) (split_at D2 hs)).
Proof. exact split_receiver_steady. Qed.
Print Assumptions C39_receiver_steady.

Theorem C39_emitter_steady : forall dis D1 H2 D2 hs rea img,
  fls_steady dis (Rsum hs) D1 H2 D2 rea img
  = Rsum (map (fun c => fls_steady dis (snd c) (fst c) H2 D2 rea img) (split_at D1 hs)).
Proof. exact split_emitter_steady. Qed.
Print Assumptions C39_emitter_steady.

Theorem C39_receiver_approximation : forall exp1 erfc ab time alpha dis H1 D1 D2 hs rea img,
  0 < alpha -> 0 < time -> Rsum hs <> 0 -> (forall h, In h hs -> h <> 0) ->
  Rsum hs * fls_approx exp1 erfc ab time alpha dis H1 D1 (Rsum hs) D2 rea img
  = Rsum (map (fun c => snd c * fls_approx exp1 erfc ab time alpha dis H1 D1 (snd c) (fst c) rea img) (split_at D2 hs)).
Proof. exact split_receiver_approx. Qed.
Print Assumptions C39_receiver_approximation.

Theorem C39_emitter_approximation : forall exp1 erfc ab time alpha dis D1 H2 D2 hs rea img,
  fls_approx exp1 erfc ab time alpha dis (Rsum hs) D1 H2 D2 rea img
  = Rsum (map (fun c => fls_approx exp1 erfc ab time alpha dis (snd c) (fst c) H2 D2 rea img) (split_at D1 hs)).
Proof. exact split_emitter_approx. Qed.
Print Assumptions C39_emitter_approximation.

(** Splitting a receiving borehole of any inclination, for any quadrature rule along
    the emitting one. *)
Theorem C39_inclined_receiver : forall uw b1 b2 time alpha rea img hs,
  0 < alpha -> 0 < time -> b_H b2 = Rsum hs -> Rsum hs <> 0 -> (forall h, In h hs -> h <> 0) ->
  apart b1 b2 -> (forall c, In c (split_at 0 hs) -> apart b1 (part b2 c)) -> clear_nodes uw b1 b2 rea img ->
  b_H b2 * fls_inclined b1 b2 (rule uw) time alpha rea img
  = Rsum (map (fun c => snd c * fls_inclined b1 (part b2 c) (rule uw) time alpha rea img) (split_at 0 hs)).
Proof. exact split_inclined. Qed.
Print Assumptions C39_inclined_receiver.

Example C39_example :
  100 * fls 1000000 (1/1000000) 5 50 4 100 4 true true
  = 20 * fls 1000000 (1/1000000) 5 50 4 20 4 true true + (30 * fls 1000000 (1/1000000) 5 50 4 30 (4 + 20) true true
    + (50 * fls 1000000 (1/1000000) 5 50 4 50 (4 + 20 + 30) true true + 0)).
Proof.
  pose proof (C39_receiver 1000000 (1/1000000) 5 50 4 4 (20 :: 30 :: 50 :: nil) true true ltac:(lra) ltac:(lra) ltac:(lra)) as H.
  cbn in H. replace (20 + (30 + (50 + 0))) with 100 in H by ring. apply H; [lra|]. intros h [<-|[<-|[<-|[]]]]; lra.
Qed.

Example C39_inclined_example :
  100 * fls_inclined ex_b1 ex_b2 (rule ex_uw) 1000000 (1/1000000) true true
  = Rsum (map (fun c => snd c * fls_inclined ex_b1 (part ex_b2 c) (rule ex_uw) 1000000 (1/1000000) true true) (split_at 0 (40 :: 60 :: nil))).
Proof.
  apply (C39_inclined_receiver ex_uw ex_b1 ex_b2); try (cbn; lra).
  - intros h [<-|[<-|[]]]; lra.
  - exact ex_apart.
  - intros c _. unfold apart, part, ex_b1, ex_b2. cbn [fst snd b_x b_y b_r b_tilt b_ori]. rewrite sin_0, Rmult_0_r, Rplus_0_r.
    match goal with |- _ <= ?a ^ 2 + _ => pose proof (pow2_ge_0 a) end. lra.
  - exact ex_clear.
Qed.

(** * C40 *)

Theorem C40_transient : forall time alpha dis H1 D1 H2 D2, 0 < alpha -> 0 < time -> dis <> 0 ->
  fls time alpha dis H1 D1 H2 D2 true true = fls time alpha dis H1 D1 H2 D2 true false + fls time alpha dis H1 D1 H2 D2 false true.
Proof. exact parts_transient. Qed.
Print Assumptions C40_transient.

Theorem C40_steady : forall dis H1 D1 H2 D2,
  fls_steady dis H1 D1 H2 D2 true true = fls_steady dis H1 D1 H2 D2 true false + fls_steady dis H1 D1 H2 D2 false true.
Proof. exact parts_steady. Qed.
Print Assumptions C40_steady.

Theorem C40_approximation : forall exp1 erfc ab time alpha dis H1 D1 H2 D2,
  fls_approx exp1 erfc ab time alpha dis H1 D1 H2 D2 true true
  = fls_approx exp1 erfc ab time alpha dis H1 D1 H2 D2 true false + fls_approx exp1 erfc ab time alpha dis H1 D1 H2 D2 false true.
Proof. exact parts_approx. Qed.
Print Assumptions C40_approximation.

Theorem C40_inclined_steady : forall b1 b2 uw,
  inclined_steady b1 b2 (rule uw) true true = inclined_steady b1 b2 (rule uw) true false + inclined_steady b1 b2 (rule uw) false true.
Proof. exact steady_parts. Qed.
Print Assumptions C40_inclined_steady.

(** Inclined boreholes whose heads are at least one radius apart. *)
Theorem C40_inclined_transient : forall uw b1 b2 time alpha, 0 < alpha -> 0 < time -> apart b1 b2 -> clear_nodes uw b1 b2 true true ->
  fls_inclined b1 b2 (rule uw) time alpha true true
  = fls_inclined b1 b2 (rule uw) time alpha true false + fls_inclined b1 b2 (rule uw) time alpha false true.
Proof. exact incl_parts_sum. Qed.
Print Assumptions C40_inclined_transient.

(** False for every inclined borehole on itself, at every time and for every
    quadrature rule with positive weights: the image alone ignores the radius. *)
Theorem C40_inclined_self_refuted : forall uw, uw <> nil -> (forall c, In c uw -> 0 <= fst c /\ 0 < snd c) ->
  exists b, 0 < b_tilt b < PI / 2 /\ 0 < b_H b /\ 0 < b_D b /\ 0 < b_r b /\ forall time alpha, 0 < alpha -> 0 < time ->
  fls_inclined b b (rule uw) time alpha true false + fls_inclined b b (rule uw) time alpha false true
  < fls_inclined b b (rule uw) time alpha true true.
Proof.
  intros uw N W. exists ex_b1. pose proof PI_RGT_0. cbn. repeat split; try lra.
  intros. apply self_parts; auto; cbn; lra.
Qed.
Print Assumptions C40_inclined_self_refuted.

Theorem C40_inclined_self_all : forall uw b time alpha, uw <> nil -> (forall c, In c uw -> 0 <= fst c /\ 0 < snd c) ->
  0 < b_H b -> 0 < b_D b -> 0 < b_r b -> 0 < b_tilt b < PI / 2 -> 0 < alpha -> 0 < time ->
  fls_inclined b b (rule uw) time alpha true false + fls_inclined b b (rule uw) time alpha false true
  < fls_inclined b b (rule uw) time alpha true true.
Proof. exact self_parts. Qed.
Print Assumptions C40_inclined_self_all.

Example C40_example :
  fls 1000000 (1/1000000) 5 100 4 50 2 true true = fls 1000000 (1/1000000) 5 100 4 50 2 true false + fls 1000000 (1/1000000) 5 100 4 50 2 false true
  /\ fls_inclined ex_b1 ex_b2 (rule ex_uw) 1000000 (1/1000000) true true
     = fls_inclined ex_b1 ex_b2 (rule ex_uw) 1000000 (1/1000000) true false + fls_inclined ex_b1 ex_b2 (rule ex_uw) 1000000 (1/1000000) false true.
Proof. split; [apply C40_transient; lra|apply C40_inclined_transient; [lra|lra|exact ex_apart|exact ex_clear]]. Qed.

Example C40_nodes_example : ex_uw <> nil /\ forall c, In c ex_uw -> 0 <= fst c /\ 0 < snd c.
Proof. split; [discriminate|]. intros c [<-|[<-|[]]]; cbn; lra. Qed.

(** * C41 *)

Theorem C41_array : forall times alpha dis H1 D1 H2 D2 rea img, 0 < alpha -> dis <> 0 -> (forall t, In t times -> 0 < t) ->
  fls_array times alpha dis H1 D1 H2 D2 rea img = map (fun t => fls t alpha dis H1 D1 H2 D2 rea img) times.
Proof. exact array_times. Qed.
Print Assumptions C41_array.

Theorem C41_equivalent_array : forall times alpha dw H1 D1 H2 D2 N2 rea img,
  0 < alpha -> (forall c, In c dw -> fst c <> 0) -> (forall t, In t times -> 0 < t) ->
  fls_equivalent_array times alpha dw H1 D1 H2 D2 N2 rea img = map (fun t => fls_equivalent t alpha dw H1 D1 H2 D2 N2 rea img) times.
Proof. exact equiv_times. Qed.
Print Assumptions C41_equivalent_array.

Theorem C41_inclined_array : forall uw b1 b2 times alpha rea img, 0 < alpha -> (forall t, In t times -> 0 < t) -> clear_nodes uw b1 b2 rea img ->
  fls_inclined_array b1 b2 (rule uw) times alpha rea img = map (fun t => fls_inclined b1 b2 (rule uw) t alpha rea img) times.
Proof. exact incl_times. Qed.
Print Assumptions C41_inclined_array.

(** times in any order *)
Example C41_example :
  fls_array (3600 :: 1000000 :: 7200 :: nil) (1/1000000) 5 100 4 50 2 true true
  = fls 3600 (1/1000000) 5 100 4 50 2 true true :: fls 1000000 (1/1000000) 5 100 4 50 2 true true :: fls 7200 (1/1000000) 5 100 4 50 2 true true :: nil
  /\ fls_inclined_array ex_b1 ex_b2 (rule ex_uw) (3600 :: 7200 :: nil) (1/1000000) true true
  = fls_inclined ex_b1 ex_b2 (rule ex_uw) 3600 (1/1000000) true true :: fls_inclined ex_b1 ex_b2 (rule ex_uw) 7200 (1/1000000) true true :: nil.
Proof.
  split.
  - apply C41_array; try lra. intros t [<-|[<-|[<-|[]]]]; lra.
  - apply C41_inclined_array; [lra| |exact ex_clear]. intros t [<-|[<-|[]]]; lra.
Qed.

(** * C42 *)

(** Zero tilts, exact integration along the emitting borehole; the image alone needs
    boreholes at least one radius apart. *)
Theorem C42_integrand : forall b1 b2, upright b1 -> upright b2 -> forall rea img s, s <> 0 -> 0 <= b_r b1 -> (rea = false -> apart b1 b2) ->
  inclined_integrand b1 b2 exact rea img s = fls_integrand (bh_distance b1 b2) (b_H b1) (b_D b1) (b_H b2) (b_D b2) rea img s.
Proof. exact up_integrand. Qed.
Print Assumptions C42_integrand.

Theorem C42_transient : forall b1 b2, upright b1 -> upright b2 -> forall time alpha rea img,
  0 < alpha -> 0 < time -> 0 <= b_r b1 -> (rea = false -> apart b1 b2) ->
  fls_inclined b1 b2 exact time alpha rea img = fls time alpha (bh_distance b1 b2) (b_H b1) (b_D b1) (b_H b2) (b_D b2) rea img.
Proof. exact up_transient. Qed.
Print Assumptions C42_transient.

Theorem C42_steady : forall b1 b2 rea img, upright b1 -> upright b2 -> 0 < b_r b1 -> 0 < b_H b2 -> (img = true -> apart b1 b2) ->
  inclined_steady b1 b2 exact rea img = fls_steady (bh_distance b1 b2) (b_H b1) (b_D b1) (b_H b2) (b_D b2) rea img.
Proof. exact up_steady. Qed.
Print Assumptions C42_steady.

(** The image alone of a vertical borehole on itself. *)
Theorem C42_image_alone_refuted : exists b, upright b /\ 0 < b_r b /\ 0 < b_H b /\ 0 < b_D b /\ forall s, s <> 0 ->
  inclined_integrand b b exact false true s < fls_integrand (bh_distance b b) (b_H b) (b_D b) (b_H b) (b_D b) false true s.
Proof.
  exists ex_b3. cbn. repeat split; try lra. intros s Hs. apply (image_alone ex_b3); auto; cbn; [reflexivity|lra|lra].
Qed.
Print Assumptions C42_image_alone_refuted.

Example C42_example :
  inclined_integrand ex_b3 ex_b3 exact true true 2 = fls_integrand (bh_distance ex_b3 ex_b3) 100 4 100 4 true true 2
  /\ inclined_steady ex_b3 (mkbh 50 1 (3/40) 0 0 0 0) exact true true = fls_steady (bh_distance ex_b3 (mkbh 50 1 (3/40) 0 0 0 0)) 100 4 50 1 true true.
Proof.
  split.
  - apply (C42_integrand ex_b3 ex_b3); [reflexivity|reflexivity|lra|cbn; lra|discriminate].
  - apply (C42_steady ex_b3); [reflexivity|reflexivity|cbn; lra|cbn; lra|]. intros _. unfold apart; cbn; lra.
Qed.

(** * C43 *)

Theorem C43_equivalent : forall time alpha dw H1 D1 H2 D2 N2 rea img,
  0 < alpha -> 0 < time -> (forall c, In c dw -> fst c <> 0) -> N2 <> 0 -> H2 <> 0 ->
  fls_equivalent time alpha dw H1 D1 H2 D2 N2 rea img
  = Rsum (map (fun c => snd c * fls time alpha (fst c) H1 D1 H2 D2 rea img) dw) / N2.
Proof. exact equiv_mean. Qed.
Print Assumptions C43_equivalent.

Example C43_example : fls_equivalent 1000000 (1/1000000) ((5, 4) :: (10, 2) :: nil) 100 4 100 4 3 true true
  = (4 * fls 1000000 (1/1000000) 5 100 4 100 4 true true + (2 * fls 1000000 (1/1000000) 10 100 4 100 4 true true + 0)) / 3.
Proof. apply (C43_equivalent 1000000 (1/1000000) ((5, 4) :: (10, 2) :: nil)); try lra. intros c [<-|[<-|[]]]; cbn; lra. Qed.

(** * C74 *)

(** The integrand is the double integral of point sources over both boreholes, the
    image counted negatively. *)
Theorem C74_vertical : forall dis H1 D1 H2 D2 rea img s, s <> 0 ->
  fls_integrand dis H1 D1 H2 D2 rea img s = line_source rea img s dis H1 D1 H2 D2.
Proof. exact line_source_eq. Qed.
Print Assumptions C74_vertical.

(** Any inclination: the distances are those of the points of the boreholes in space. *)
Theorem C74_inclined : forall b1 b2 rea img s, s <> 0 ->
  inclined_integrand b1 b2 exact rea img s
  = (if rea then inclined_source b1 b2 (wall_excess b1 b2) false s else 0)
    - (if img then inclined_source b1 b2 (if rea then wall_excess b1 b2 else 0) true s else 0).
Proof. exact incl_exact. Qed.
Print Assumptions C74_inclined.

Theorem C74_inclined_nodes : forall uw b1 b2 s, s <> 0 ->
  inclined_integrand b1 b2 (rule uw) true true s
  = nodes_source uw b1 b2 (wall_excess b1 b2) false s - nodes_source uw b1 b2 (wall_excess b1 b2) true s.
Proof. exact incl_rule_full. Qed.
Print Assumptions C74_inclined_nodes.

(** At steady state the logarithms are integrals of 1 / distance. *)
Theorem C74_inclined_steady : forall uw b1 b2, 0 < b_H b2 -> apart b1 b2 -> clear_nodes uw b1 b2 true true ->
  inclined_steady b1 b2 (rule uw) true true
  = (1/2) / b_H b2 * (b_H b1 * (rule uw (steady_source b1 b2 0 false) - rule uw (steady_source b1 b2 0 true))).
Proof.
  intros uw b1 b2 HH A C. rewrite (steady_rule uw b1 b2 true true HH).
  - rewrite (excess_apart _ _ A). reflexivity.
  - intros c Hc. destruct (C c Hc) as [R I]. split; auto. intros E. specialize (I E). cbn in I. rewrite (excess_apart _ _ A) in I. auto.
Qed.
Print Assumptions C74_inclined_steady.

(** The rate of change of the response is the heat kernel spread over both boreholes,
    and there is no response at the initial time. *)
Theorem C74_heat_kernel : forall time alpha dis H1 D1 H2 D2 rea img, 0 < alpha -> 0 < time -> dis <> 0 -> H2 <> 0 ->
  is_derive (fun t => fls t alpha dis H1 D1 H2 D2 rea img) time (2 * PI * alpha / H2 * heat_line rea img alpha time dis H1 D1 H2 D2).
Proof. exact fls_heat. Qed.
Print Assumptions C74_heat_kernel.

Theorem C74_initial : forall alpha dis H1 D1 H2 D2 rea img, 0 < alpha -> dis <> 0 ->
  filterlim (fun t => fls t alpha dis H1 D1 H2 D2 rea img) (at_right 0) (locally 0).
Proof. exact fls_start. Qed.
Print Assumptions C74_initial.

Theorem C74_inclined_heat_kernel : forall uw b1 b2 time alpha rea img, 0 < alpha -> 0 < time -> b_H b2 <> 0 -> clear_nodes uw b1 b2 rea img ->
  is_derive (fun t => fls_inclined b1 b2 (rule uw) t alpha rea img) time
    (2 * PI * alpha / b_H b2 *
      ((if rea then rule uw (fun u => b_H b1 * heat_seen b1 b2 (wall_excess b1 b2) false alpha time u) else 0)
       - (if img then rule uw (fun u => b_H b1 * heat_seen b1 b2 (if rea then wall_excess b1 b2 else 0) true alpha time u) else 0))).
Proof. exact incl_heat. Qed.
Print Assumptions C74_inclined_heat_kernel.

Theorem C74_inclined_initial : forall uw b1 b2 alpha rea img, 0 < alpha -> clear_nodes uw b1 b2 rea img ->
  filterlim (fun t => fls_inclined b1 b2 (rule uw) t alpha rea img) (at_right 0) (locally 0).
Proof. exact incl_start. Qed.
Print Assumptions C74_inclined_initial.

Example C74_heat_example :
  is_derive (fun t => fls t (1/1000000) 5 100 4 50 2 true true) 3600 (2 * PI * (1/1000000) / 50 * heat_line true true (1/1000000) 3600 5 100 4 50 2)
  /\ filterlim (fun t => fls_inclined ex_b1 ex_b2 (rule ex_uw) t (1/1000000) true true) (at_right 0) (locally 0).
Proof. split; [apply C74_heat_kernel; lra|apply C74_inclined_initial; [lra|exact ex_clear]]. Qed.

Example C74_example : fls_integrand 5 100 4 50 2 true true 2 = line_source true true 2 5 100 4 50 2
  /\ inclined_steady ex_b1 ex_b2 (rule ex_uw) true true
     = (1/2) / 100 * (150 * (rule ex_uw (steady_source ex_b1 ex_b2 0 false) - rule ex_uw (steady_source ex_b1 ex_b2 0 true))).
Proof. split; [apply C74_vertical; lra|]. apply (C74_inclined_steady ex_uw ex_b1 ex_b2); [cbn; lra|exact ex_apart|exact ex_clear]. Qed.

(** * C75 *)

(** The response is positive, with or without the image. *)
Theorem C75_positive : forall time alpha dis H1 D1 H2 D2 img,
  0 < alpha -> 0 < time -> dis <> 0 -> 0 < H1 -> 0 < H2 -> 0 <= D1 -> 0 <= D2 -> 0 < fls time alpha dis H1 D1 H2 D2 true img.
Proof. exact fls_pos. Qed.
Print Assumptions C75_positive.

(** The image takes heat away. *)
Theorem C75_image_negative : forall time alpha dis H1 D1 H2 D2, 0 < alpha -> 0 < time -> dis <> 0 -> 0 < H1 -> 0 < H2 ->
  fls time alpha dis H1 D1 H2 D2 false true < 0.
Proof. exact fls_image_neg. Qed.
Print Assumptions C75_image_negative.

Theorem C75_increasing_in_time : forall t1 t2 alpha dis H1 D1 H2 D2 img,
  0 < alpha -> 0 < t1 -> t1 < t2 -> dis <> 0 -> 0 < H1 -> 0 < H2 -> 0 <= D1 -> 0 <= D2 ->
  fls t1 alpha dis H1 D1 H2 D2 true img < fls t2 alpha dis H1 D1 H2 D2 true img.
Proof. exact fls_incr. Qed.
Print Assumptions C75_increasing_in_time.

Theorem C75_decreasing_in_distance : forall time alpha d1 d2 H1 D1 H2 D2 img,
  0 < alpha -> 0 < time -> 0 < d1 -> d1 < d2 -> 0 < H1 -> 0 < H2 -> 0 <= D1 -> 0 <= D2 ->
  fls time alpha d2 H1 D1 H2 D2 true img < fls time alpha d1 H1 D1 H2 D2 true img.
Proof. exact fls_decr. Qed.
Print Assumptions C75_decreasing_in_distance.

Example C75_example : 0 < fls 3600 (1/1000000) 5 100 4 50 0 true true /\ fls 3600 (1/1000000) 5 100 4 50 0 true true < fls 7200 (1/1000000) 5 100 4 50 0 true true.
Proof. split; [apply C75_positive; lra|apply C75_increasing_in_time; lra]. Qed.

(** * C76 *)

(** The transient solution tends to the steady state, with a bound of the difference. *)
Theorem C76_steady_limit : forall alpha d H1 D1 H2 D2 rea img, 0 < d -> 0 < alpha -> 0 < H2 ->
  is_lim (fun time => fls time alpha d H1 D1 H2 D2 rea img) p_infty (fls_steady d H1 D1 H2 D2 rea img).
Proof. exact steady_limit. Qed.
Print Assumptions C76_steady_limit.

Theorem C76_steady_error : forall time alpha d H1 D1 H2 D2 rea img, 0 < d -> 0 < alpha -> 0 < time -> 0 < H2 ->
  Rabs (fls_steady d H1 D1 H2 D2 rea img - fls time alpha d H1 D1 H2 D2 rea img)
  <= 4 * (Rabs D1 + Rabs H1 + Rabs D2 + Rabs H2) ^ 2 / (H2 * sqrt (alpha * time)).
Proof. exact fls_near. Qed.
Print Assumptions C76_steady_error.

(** Boreholes of any inclination at least one radius apart. *)
Theorem C76_inclined : forall uw b1 b2 alpha rea img, 0 < alpha -> 0 < b_H b2 -> apart b1 b2 -> clear_nodes uw b1 b2 rea img ->
  is_lim (fun t => fls_inclined b1 b2 (rule uw) t alpha rea img) p_infty (inclined_steady b1 b2 (rule uw) rea img).
Proof. exact incl_lim_steady. Qed.
Print Assumptions C76_inclined.

(** One of the parts alone, at any distance. *)
Theorem C76_inclined_part : forall uw b1 b2 alpha rea img, 0 < alpha -> 0 < b_H b2 -> rea && img = false -> clear_nodes uw b1 b2 rea img ->
  is_lim (fun t => fls_inclined b1 b2 (rule uw) t alpha rea img) p_infty (inclined_steady b1 b2 (rule uw) rea img).
Proof. exact incl_lim_part. Qed.
Print Assumptions C76_inclined_part.

(** False for an inclined borehole on itself: the value at infinite time is below the
    limit of the values at finite times. *)
Theorem C76_inclined_self_refuted : forall uw alpha, uw <> nil -> (forall c, In c uw -> 0 <= fst c /\ 0 < snd c) -> 0 < alpha ->
  exists b, 0 < b_tilt b < PI / 2 /\ 0 < b_H b /\ 0 < b_D b /\ 0 < b_r b /\
  exists l, is_lim (fun t => fls_inclined b b (rule uw) t alpha true true) p_infty (Finite l) /\ inclined_steady b b (rule uw) true true < l.
Proof.
  intros uw alpha N W Ha. exists ex_b1. pose proof PI_RGT_0. cbn. repeat split; try lra.
  apply (self_limit uw ex_b1); auto; cbn; lra.
Qed.
Print Assumptions C76_inclined_self_refuted.

Example C76_example : is_lim (fun t => fls_inclined ex_b1 ex_b2 (rule ex_uw) t (1/1000000) true true) p_infty (inclined_steady ex_b1 ex_b2 (rule ex_uw) true true).
Proof. apply C76_inclined; [lra|cbn; lra|exact ex_apart|exact ex_clear]. Qed.

(** * C77 *)

(** Lengths times l and times times l^2: the response does not change. *)
Theorem C77_scaling : forall l time alpha dis H1 D1 H2 D2 rea img, 0 < l -> 0 < alpha -> 0 < time -> dis <> 0 -> H2 <> 0 ->
  fls (l ^ 2 * time) alpha (l * dis) (l * H1) (l * D1) (l * H2) (l * D2) rea img = fls time alpha dis H1 D1 H2 D2 rea img.
Proof. exact fls_scale. Qed.
Print Assumptions C77_scaling.

(** Only the product of time and diffusivity matters. *)
Theorem C77_diffusivity : forall k time alpha dis H1 D1 H2 D2 rea img, k <> 0 ->
  fls (time / k) (k * alpha) dis H1 D1 H2 D2 rea img = fls time alpha dis H1 D1 H2 D2 rea img.
Proof. exact fls_diffusivity. Qed.
Print Assumptions C77_diffusivity.

Example C77_example : fls (2 ^ 2 * 3600) (1/1000000) (2 * 5) (2 * 100) (2 * 4) (2 * 50) (2 * 2) true true = fls 3600 (1/1000000) 5 100 4 50 2 true true.
Proof. apply C77_scaling; lra. Qed.
