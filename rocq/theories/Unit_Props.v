(** Units of length and time: C127. *)
From Coq Require Import String Reals Lra Lia List.
From Verif Require Import Base LinAlg FLS_Model FLS_Spec.
From Verif Require Import Bore_Model Bore_Spec Net_Model Solve_Model Detailed_Model Detailed_Spec Sim_Model Sim_Spec Eq_Model Eq_Spec Eq_Mix_Proofs
  GFun_Model GFun_Spec GFun_Pair_Proofs GFun_Props Prof_Trio_Proofs Prof_Props Sym_Spec Unit_Spec Unit_Geo_Proofs Unit_Main_Proofs.
Import ListNotations.
Local Open Scope R_scope.
Local Open Scope string_scope.

(** * C127: the units of length and time do not count *)

(** Vertical or inclined boreholes, with method "detailed", at uniform heat extraction
    rates or uniform temperature (the boundary conditions of fields without pipes). *)
Theorem C127_units : forall link uw l mu c bs, 0 < l -> 0 < mu -> c_source c = GFun_Model.Field bs -> lower (c_method c) = "detailed" ->
  0 < c_alpha c -> sized bs -> some_ratios (ratios_of c) -> positive_threshold (c_options c) -> clear_segments uw c ->
  gfunction link uw (call_in_units l mu c) = gfunction link uw c.
Proof. intros link uw l mu c bs Pl Pm. apply unit_gfunction; auto. Qed.
Print Assumptions C127_units.

(** The same for vertical boreholes: no node is on another segment. *)
Theorem C127_vertical : forall link uw l mu c bs, 0 < l -> 0 < mu -> c_source c = GFun_Model.Field bs -> lower (c_method c) = "detailed" ->
  0 < c_alpha c -> upright bs -> some_ratios (ratios_of c) -> positive_threshold (c_options c) ->
  gfunction link uw (call_in_units l mu c) = gfunction link uw c.
Proof.
  intros link uw l mu c bs Pl Pm Es Dt Pa U Rs Th. apply (C127_units link uw l mu c bs); auto. { intros b Hb. destruct (U b Hb) as (_ & H & _ & Hr). auto. }
  unfold clear_segments. replace (boreholes_of c) with bs by (unfold boreholes_of; rewrite Es; auto).
  assert (K : forall bs ns rs, upright bs -> forall e, In e (borehole_segments bs ns rs) -> btilt e = 0 /\ 0 < br e).
  { clear. induction bs as [|b bs IH]; intros ns rs U e He; destruct ns as [|n ns], rs as [|r rs]; cbn [borehole_segments] in He; try contradiction.
    apply in_app_iff in He as [He|He].
    - unfold segments in He. apply in_map_iff in He as [[z q] [<- _]]. destruct (U b (or_introl eq_refl)) as (T & _ & _ & Hr). cbn [mk_bore btilt br]. auto.
    - apply (IH ns rs); auto. intros b' Hb. apply U. right. auto. }
  intros e r He Hr. destruct (K _ _ _ U e He) as [Te Re]. destruct (K _ _ _ U r Hr) as [Tr _]. apply up_off; auto.
Qed.
Print Assumptions C127_vertical.

(** The form without dimensions: lengths over any length L, times over L ^ 2 / alpha, and
    a diffusivity of 1. *)
Theorem C127_dimensionless : forall link uw L c bs, 0 < L -> c_source c = GFun_Model.Field bs -> lower (c_method c) = "detailed" ->
  0 < c_alpha c -> upright bs -> some_ratios (ratios_of c) -> positive_threshold (c_options c) ->
  c_alpha (call_in_units (1 / L) (c_alpha c / L ^ 2) c) = 1 /\ gfunction link uw (call_in_units (1 / L) (c_alpha c / L ^ 2) c) = gfunction link uw c.
Proof.
  intros link uw L c bs PL Es Dt Pa U Rs Th. split.
  - cbn [call_in_units c_alpha]. field. split; lra.
  - apply (C127_vertical link uw _ _ c bs); auto. + apply Rdiv_lt_0_compat; lra. + apply Rdiv_lt_0_compat; [auto|apply pow_lt; auto].
Qed.
Print Assumptions C127_dimensionless.

(** With method "similarities", for fields that the tolerances do not confuse in either
    unit. *)
Theorem C127_similarities : forall link uw l mu c bs u M u' M', 0 < l -> 0 < mu -> c_source c = GFun_Model.Field bs -> 0 < c_alpha c -> positive_threshold (c_options c) ->
  sharp c u M -> sharp (call_in_units l mu c) u' M' ->
  gfunction link uw (with_method (call_in_units l mu c) "similarities") = gfunction link uw (with_method c "similarities").
Proof.
  intros link uw l mu c bs u M u' M' Pl Pm Es Pa Th Sh Sh'. rewrite (C89_similarities link uw c u M Sh), (C89_similarities link uw _ u' M' Sh').
  destruct Sh as (A1 & A2 & A3 & _). change (with_method (call_in_units l mu c) "detailed") with (call_in_units l mu (with_method c "detailed")).
  apply (C127_vertical link uw l mu _ bs); auto.
  - replace bs with (boreholes_of c) by (unfold boreholes_of; rewrite Es; auto). exact (proj1 A2).
  - intros r x Hr. apply (A3 r Hr).
Qed.
Print Assumptions C127_similarities.

(** The pair of 100 m in feet and hours, and an inclined borehole of two segments:
    the nodes of a segment are on the extension of the other one. *)
Definition halves : options := mkoptions (SInt 2) (Detailed_Model.RArray [1 / 2; 1 / 2]) None (/ 10 ^ 6) (1 / 100) 1.
Definition leaning : call := mkcall (GFun_Model.Field [lean]) 1 (VArr [1; 2]) "detailed" (Some "UHTR") VNone VNone VNone halves.
Lemma leaning_solved link uw : exists g, gfunction link uw leaning = Some (G1 g).
Proof.
  assert (C : check_segments [lean] [2]%nat [[1 / 2; 1 / 2]] = true).
  { unfold check_segments. cbn [length Nat.ltb Nat.leb Nat.eqb forallb combine andb fst snd Rsum].
    replace (1 - (1 / 2 + (1 / 2 + 0))) with 0 by lra. rewrite Rabs_R0. rewrite (proj2 (Rltb_true 0 (1 / 10 ^ 6))); [auto|]. apply Rdiv_lt_0_compat; [lra|apply pow_lt; lra]. }
  assert (K : exists s, construct leaning = Some (mkrequest [lean] None "detailed" "UHTR" VNone VNone VNone, s)).
  { unfold construct, resolve. cbn [leaning c_source c_bc c_mb c_mn c_cp c_method c_options c_time is_none andb]. change (String.eqb "UHTR" "MIFT") with false. cbn [andb]. cbv zeta.
    unfold check, make_solver. cbn [q_bs q_net q_method q_bc q_mb q_mn q_cp]. change (find_duplicates [lean]) with (Some (@nil (nat * nat))). unfold check_flows, solver_flows, equivalent_network. cbn [q_bs q_net q_method q_bc q_mb q_mn q_cp leaning c_time c_options].
    change (String.eqb "UHTR" "MIFT") with false.
    cbn [length Nat.eqb negb andb halves o_n o_r o_tol o_disTol format_segments format_ratios repeat]. rewrite C. eexists. reflexivity. }
  destruct K as [s K]. unfold gfunction. rewrite K. change (c_time leaning) with (VArr [1; 2]). cbv iota beta. unfold evaluate. rewrite times_12.
  unfold make_system. cbn [q_bs q_net q_method q_bc q_mb q_mn q_cp map]. change (lmax [br lean]) with (Some (3 / 40)). change (String.eqb (lower "detailed") "detailed") with true. cbv iota zeta.
  unfold solve. change (String.eqb "UHTR" "UHTR") with true. cbv iota zeta.
  match goal with |- context [defined_at ?h ?l] => assert (D : defined_at h l = true) by (apply forallb_forall; intros; reflexivity); rewrite D end. eexists. reflexivity.
Qed.

Example C127_ex : (upright pair_field /\ some_ratios (ratios_of (pair_call "detailed")) /\ exists g, gfunction plain_link [] (call_in_units (1000 / 305) (1 / 3600) (pair_call "detailed")) = Some (G1 g)) /\
  (sized [lean] /\ some_ratios (ratios_of leaning) /\ clear_segments [(1 / 2, 1)] leaning /\ exists g, gfunction plain_link [(1 / 2, 1)] (call_in_units (1 / 100) (1 / 10) leaning) = Some (G1 g)).
Proof.
  split.
  - assert (U : upright pair_field) by (exact (proj1 pair_vertical)).
    assert (Rp : some_ratios (ratios_of (pair_call "detailed"))). { intros r x Hr Hx. cbn in Hr. destruct Hr as [<-|[<-|[]]]; destruct Hx as [<-|[]]; lra. }
    split; [exact U|]. split; [exact Rp|].
    rewrite (C127_vertical plain_link [] (1000 / 305) (1 / 3600) (pair_call "detailed") pair_field ltac:(lra) ltac:(lra) eq_refl eq_refl Rlt_0_1 U Rp I). apply pair_12.
  - assert (Sz : sized [lean]). { intros b [<-|[]]. cbn. lra. }
    assert (Rp : some_ratios (ratios_of leaning)). { intros r x Hr Hx. cbn in Hr. destruct Hr as [<-|[]]; destruct Hx as [<-|[<-|[]]]; lra. }
    assert (Cl : clear_segments [(1 / 2, 1)] leaning).
    { assert (Sg : forall e, In e (borehole_segments (boreholes_of leaning) (segments_of leaning) (ratios_of leaning)) -> exists z, (z = 0 \/ z = 50) /\ bD e = 4 + z * (1 / 2) /\ btilt e = PI / 3 /\ bH e = 50 /\ br e = 3 / 40 /\ bx e = z * sin (PI / 3) /\ by_ e = 0).
      { intros e He. cbn in He. unfold mk_bore in He. rewrite !cos_PI3, sin_0, cos_0 in He.
        destruct He as [<-|[<-|[]]]; [exists 0|exists 50]; cbn [bD btilt bH br bx by_]; (split; [auto|]); (split; [lra|]); (split; [auto|]); (split; [lra|]); (split; [auto|]); (split; [lra|]); lra. }
      intros e r He Hr. destruct (Sg e He) as (z & Hz & De & Te & Le & Re & Xe & Ye), (Sg r Hr) as (y & Hy & Dr & Tr & Lr & Rr & Xr & Yr). clear He Hr Sg.
      intros c image [<-|[]] v Hv. unfold to_bh in *. cbn [b_H] in Hv. rewrite Lr in Hv. cbn [fst].
      set (d := dist2 _ _). pose proof (Rmax_l 0 (br e ^ 2 - ((bx e - bx r) ^ 2 + (by_ e - by_ r) ^ 2))) as W. unfold wall_excess. cbn [b_r b_x b_y].
      assert (Dd : (if image then 4 + z * (1 / 2) + (25 + v) * (1 / 2) else z * (1 / 2) + 25 * (1 / 2) - (y * (1 / 2) + v * (1 / 2))) ^ 2 <= d).
      { unfold d, dist2. match goal with |- _ <= ?a ^ 2 + ?b ^ 2 + ?c ^ 2 => pose proof (pow2_ge_0 a); pose proof (pow2_ge_0 b); set (q := c) in * end.
        destruct image.
        - assert (Q : 4 + z * (1 / 2) + (25 + v) * (1 / 2) <= - q).
          { unfold q, mirror, point. cbn [fst snd b_D b_H b_tilt]. rewrite Te, Tr, cos_PI3, De, Dr, Le. destruct Hy; lra. }
          assert ((4 + z * (1 / 2) + (25 + v) * (1 / 2)) ^ 2 <= (- q) ^ 2) by (apply pow_incr; split; [destruct Hz; lra|auto]). nra.
        - assert (Q : z * (1 / 2) + 25 * (1 / 2) - (y * (1 / 2) + v * (1 / 2)) = q).
          { unfold q, point. cbn [fst snd b_D b_H b_tilt]. rewrite Te, Tr, cos_PI3, De, Dr, Le. lra. }
          rewrite Q. lra. }
      destruct image. { assert (0 < (4 + z * (1 / 2) + (25 + v) * (1 / 2)) ^ 2) by (apply pow_lt; destruct Hz; lra). lra. }
      destruct (Req_dec z y) as [E|E].
      { pose proof (Rmax_r 0 (br e ^ 2 - ((bx e - bx r) ^ 2 + (by_ e - by_ r) ^ 2))) as W2. rewrite Xe, Xr, Ye, Yr, E, Re in W2 at 1. rewrite Xe, Xr, Ye, Yr, E, Re in *.
        replace ((3 / 40) ^ 2 - ((y * sin (PI / 3) - y * sin (PI / 3)) ^ 2 + (0 - 0) ^ 2)) with (9 / 1600) in * by field. pose proof (Rmax_r 0 (9 / 1600)).
        match type of Dd with ?a ^ 2 <= _ => pose proof (pow2_ge_0 a) end. lra. }
      match type of Dd with ?a ^ 2 <= _ => assert (0 < a ^ 2) end; [|lra].
      destruct Hz as [-> | ->], Hy as [-> | ->]; try lra; nra. }
    split; [exact Sz|]. split; [exact Rp|]. split; [exact Cl|].
    rewrite (C127_units plain_link _ (1 / 100) (1 / 10) leaning [lean] ltac:(lra) ltac:(lra) eq_refl eq_refl Rlt_0_1 Sz Rp I Cl). apply leaning_solved.
Qed.
