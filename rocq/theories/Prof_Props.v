(** Properties of the figures of a g-function object: C114 - C120.  The figures are those of
    an object made with the option profiles=True and with a time. *)
From Coq Require Import String.
From Verif Require Import Base LinAlg FLS_Model.
From Verif Require Import Bore_Model Net_Model Net_Spec Net_Extra_Proofs Solve_Model Solve_Spec Detailed_Model Detailed_Spec Sim_Model Sim_Spec Eq_Model Eq_Spec Eq_Mix_Proofs GFun_Model GFun_Spec GFun_Eval_Proofs GFun_Field_Proofs GFun_Pair_Proofs GFun_Mift_Proofs GFun_Two_Proofs
  Prof_Model Prof_Spec Prof_Proofs Prof_Call_Proofs Prof_Main_Proofs Prof_Field_Proofs Prof_Fig_Proofs Prof_Depth_Proofs Prof_Shape_Proofs Prof_Last_Proofs Prof_Neg_Proofs Prof_Axis_Proofs Prof_Trio_Proofs.
Local Open Scope string_scope.
Local Open Scope R_scope.

(** * Examples *)

Lemma late_12 : no_repeats ((3 / 40) ^ 2 / 25) [1; 2] /\ forall t, In t [1; 2] -> (3 / 40) ^ 2 / 25 < t.
Proof. split; [intros [|k] Hk _; cbn in *; [lra|lia]|intros t [<-|[<-|[]]]; lra]. Qed.
Lemma pair_sound m : sound (pair_call m).
Proof. destruct (pair_sharp m) as (S1 & _ & S3 & _). split; [auto|]. split; auto. cbn. lra. Qed.
Lemma pair_12 link uw : exists g, gfunction link uw (pair_call "detailed") = Some (G1 g).
Proof. apply (pair_solved link uw [1; 2]); [rewrite times_12; discriminate|apply late_12]. Qed.
Definition warm_pair : call := with_bc (pair_call "detailed") (Some "UHTR").
Lemma warm_solved link uw : exists g, gfunction link uw warm_pair = Some (G1 g).
Proof.
  destruct (pair_sharp "detailed") as (S1 & S2 & S3 & _).
  destruct (uhtr_detailed link uw (pair_call "detailed") ((3 / 40) ^ 2 / 25) ltac:(cbn; lra) (pair_threshold _) ltac:(lra) [1; 2] eq_refl) as [g [G _]]; auto; [apply pair_constructed; cbn; auto|rewrite times_12; discriminate|].
  exists g. exact G.
Qed.
Definition flows_pair : call := with_time (pair_mift perfect flowing "detailed" (VFloat 1) (VFloat 1) (VArr2 [[1; 1 / 2]; [1 / 2; 1 / 4]]) VNone (VFloat 1)) (VArr [1; 2]).
Lemma flows_solved link uw : exists g, gfunction link uw flows_pair = Some (G3 2 g).
Proof.
  apply (pair_rows_solved perfect flowing 1 ltac:(lra) link uw (VFloat 1) (VFloat 1) [[1; 1 / 2]; [1 / 2; 1 / 4]] [1; 2]); [discriminate| |rewrite times_12; discriminate|apply late_12|apply late_12].
  intros row [<-|[<-|[]]]; split; auto; eexists _, _; apply each_drives; lra.
Qed.

(** * C114 *)

(** The mean over the field of the heat extraction rates of the boreholes is 1 at all times. *)
Theorem C114_each : forall link uw c n fig t, each_borehole c -> sound c -> has_times c t -> heat_figure link uw true c None n = Some fig ->
  map fst fig = seq 0 (List.length (boreholes_of c)) /\ forall p, (p < List.length t)%nat -> field_average (boreholes_of c) fig p = 1.
Proof. exact heat_each. Qed.
Print Assumptions C114_each.
(** With equivalent boreholes the curves are those of the groups, and the weights their lengths. *)
Theorem C114_groups : forall link uw c E n fig t, grouped link c E -> segmented (boreholes_of c) (segments_of c) (ratios_of c) -> good_ratios (ratios_of c) -> Rsum (map group_length E) <> 0 ->
  has_times c t -> heat_figure link uw true c None n = Some fig ->
  map fst fig = seq 0 (List.length E) /\ forall p, (p < List.length t)%nat -> group_average E fig p = 1.
Proof. exact heat_groups. Qed.
Print Assumptions C114_groups.
(** The figures exist for all methods, boundary conditions and flows. *)
Theorem C114_exists : forall link uw c g n, gfunction link uw c = Some g -> plain c \/ fluid c -> flow_index g n ->
  (exists fig, heat_figure link uw true c None n = Some fig) /\ exists fig, temperature_figure link uw true c None n = Some fig.
Proof.
  intros link uw c g n G Ok N. destruct (evaluated_some _ _ _ _ G) as [V E]. apply (figures_some link uw c g V None n); auto. intros l j X. discriminate X.
Qed.
Print Assumptions C114_exists.
Lemma pair_plain m : plain (pair_call m).
Proof. split; [eexists; reflexivity|split; reflexivity]. Qed.
Example C114_ex : each_borehole (pair_call "detailed") /\ sound (pair_call "detailed") /\ has_times (pair_call "detailed") [1; 2] /\
  exists fig, heat_figure plain_link [] true (pair_call "detailed") None 0 = Some fig.
Proof.
  split; [left; reflexivity|]. split; [apply pair_sound|]. split; [exact times_12|]. destruct (pair_12 plain_link []) as [g G].
  destruct (C114_exists _ _ _ _ O G (or_introl (pair_plain _)) eq_refl) as [F _]. exact F.
Qed.
Lemma trio_solved link uw : agglomerative link -> exists g, gfunction link uw trio_call = Some (G1 g) /\ List.length g = 2%nat.
Proof.
  intros Ag. destruct (trio_constructed []) as (q & s & K & _).
  destruct (uhtr_equivalent_object link uw trio_call ((3 / 40) ^ 2 / 25) ltac:(cbn; lra) trio_threshold ltac:(lra) [1; 2] 1 104 1 [1] eq_refl) as (g & G & Lg & _); auto;
    [change (with_bc trio_call (Some "UHTR")) with trio_call; rewrite K; discriminate|rewrite times_12; discriminate|exact trio_sharp|].
  exists g. split; [exact G|exact Lg].
Qed.
Lemma trio_grouped link : agglomerative link -> grouped link trio_call trio_groups.
Proof. intros Ag. split; [exact (trio_constructed [1; 2])|exact (trio_boreholes link _ Ag)]. Qed.
Lemma trio_segmented : segmented (boreholes_of trio_call) (segments_of trio_call) (ratios_of trio_call) /\ good_ratios (ratios_of trio_call).
Proof.
  change (segments_of trio_call) with [1; 1; 1]%nat. change (ratios_of trio_call) with [[1]; [1]; [1]].
  split; [split; [auto|split; [auto|intros [|[|[|b]]] Hb; cbn in *; auto; lia]]|]. intros r [<-|[<-|[<-|[]]]]; (split; [cbn; lra|intros x [<-|[]]; lra]).
Qed.
Lemma trio_plain : plain trio_call.
Proof. split; [eexists; reflexivity|split; reflexivity]. Qed.
Example C114_groups_ex : grouped plain_link trio_call trio_groups /\ Rsum (map group_length trio_groups) <> 0 /\ has_times trio_call [1; 2] /\
  exists fig, heat_figure plain_link [] true trio_call None 0 = Some fig.
Proof.
  split; [apply trio_grouped, plain_ok|]. split; [unfold group_length; cbn; lra|]. split; [exact times_12|]. destruct (trio_solved plain_link [] plain_ok) as (g & G & _).
  destruct (C114_exists _ _ _ _ O G (or_introl trio_plain) eq_refl) as [F _]. exact F.
Qed.

(** * C115 *)

(** Uniform heat extraction rates: the mean wall temperature is the g-function. *)
Theorem C115_mean : forall link uw c g n fig t, boundary c = "UHTR" -> each_borehole c -> sound c -> has_times c t -> gfunction link uw c = Some (G1 g) ->
  temperature_figure link uw true c None n = Some fig ->
  map fst fig = seq 0 (List.length (boreholes_of c)) /\ forall p, (p < List.length t)%nat -> field_average (boreholes_of c) fig p = nth p g 0.
Proof. exact wall_mean. Qed.
Print Assumptions C115_mean.
(** A uniform wall temperature: each curve is the g-function, with all methods. *)
Theorem C115_uniform : forall link uw c g iB n fig t, boundary c = "UBWT" -> has_times c t -> gfunction link uw c = Some (G1 g) -> temperature_figure link uw true c iB n = Some fig ->
  forall i cv p, In (i, cv) fig -> (p < List.length t)%nat -> List.length cv = List.length t /\ height cv p = nth p g 0.
Proof.
  intros link uw c g iB n fig t B Ht G F i cv p I Hp. destruct (evaluated_some _ _ _ _ G) as [V E].
  destruct (evaluated_parts _ _ _ _ E) as (q & s & y & g' & r & _ & _ & _ & T & _). unfold has_times in Ht. rewrite Ht in T. injection T as ->.
  exact (wall_uniform link uw c g V iB n fig E G F B i cv p I Hp).
Qed.
Print Assumptions C115_uniform.
Example C115_ex : boundary warm_pair = "UHTR" /\ each_borehole warm_pair /\ sound warm_pair /\ (exists g, gfunction plain_link [] warm_pair = Some (G1 g)) /\
  exists fig, temperature_figure plain_link [] true warm_pair None 0 = Some fig.
Proof.
  split; [reflexivity|]. split; [left; reflexivity|]. split; [exact (pair_sound "detailed")|]. destruct (warm_solved plain_link []) as [g G]. split; [exists g; exact G|].
  destruct (C114_exists _ _ _ _ O G) as [_ F]; [left; exact (pair_plain "detailed")|reflexivity|exact F].
Qed.
Example C115_uniform_ex : boundary (pair_call "detailed") = "UBWT" /\ exists fig, temperature_figure plain_link [] true (pair_call "detailed") None 0 = Some fig.
Proof.
  split; [reflexivity|]. destruct (pair_12 plain_link []) as [g G]. destruct (C114_exists _ _ _ _ O G (or_introl (pair_plain _)) eq_refl) as [_ F]. exact F.
Qed.

(** * C116 *)

(** Without a time, the mean over the profile of a borehole is the last value of its curve
    over time, and the points lie in the middles of the segments. *)
Theorem C116_last_heat : forall link uw c t iB iB' n i ft fp cv pr, each_borehole c -> segmented (boreholes_of c) (segments_of c) (ratios_of c) -> good_ratios (ratios_of c) ->
  has_times c t -> boundary c <> "UHTR" -> heat_figure link uw true c iB n = Some ft -> In (i, cv) ft -> heat_profile_figure link uw true c None iB' n = Some fp -> In (i, pr) fp ->
  shows (nth i (boreholes_of c) no_bore) (nth i (ratios_of c) []) pr (height cv (List.length t - 1)).
Proof. intros link uw c t iB iB' n i ft fp cv pr Ea Sg Gr Ht Nb Ft It Fp Ip. exact (each_last link uw c Ea Sg Gr true t Ht Nb iB iB' n i ft fp cv pr Ft It Ip Fp). Qed.
Print Assumptions C116_last_heat.
Theorem C116_last_temperature : forall link uw c t iB iB' n i ft fp cv pr, each_borehole c -> segmented (boreholes_of c) (segments_of c) (ratios_of c) -> good_ratios (ratios_of c) ->
  has_times c t -> boundary c <> "UBWT" -> temperature_figure link uw true c iB n = Some ft -> In (i, cv) ft -> temperature_profile_figure link uw true c None iB' n = Some fp -> In (i, pr) fp ->
  shows (nth i (boreholes_of c) no_bore) (nth i (ratios_of c) []) pr (height cv (List.length t - 1)).
Proof. intros link uw c t iB iB' n i ft fp cv pr Ea Sg Gr Ht Nb Ft It Fp Ip. exact (each_last link uw c Ea Sg Gr false t Ht Nb iB iB' n i ft fp cv pr Ft It Ip Fp). Qed.
Print Assumptions C116_last_temperature.
(** With a time between two times of the object, it is the value on the line between them. *)
Theorem C116_at_heat : forall link uw c t iB iB' n i ft fp cv pr g x p z, each_borehole c -> segmented (boreholes_of c) (segments_of c) (ratios_of c) -> good_ratios (ratios_of c) ->
  has_times c t -> boundary c <> "UHTR" -> gfunction link uw c = Some (G1 g) -> strictly t -> within_step t p x z ->
  heat_figure link uw true c iB n = Some ft -> In (i, cv) ft -> heat_profile_figure link uw true c (Some z) iB' n = Some fp -> In (i, pr) fp ->
  shows (nth i (boreholes_of c) no_bore) (nth i (ratios_of c) []) pr (between cv p x).
Proof. intros link uw c t iB iB' n i ft fp cv pr g x p z Ea Sg Gr Ht Nb G St W Ft It Fp Ip. exact (each_at link uw c Ea Sg Gr true t Ht Nb iB iB' n i ft fp cv pr Ft It Ip g x p z G St W Fp). Qed.
Print Assumptions C116_at_heat.
Theorem C116_at_temperature : forall link uw c t iB iB' n i ft fp cv pr g x p z, each_borehole c -> segmented (boreholes_of c) (segments_of c) (ratios_of c) -> good_ratios (ratios_of c) ->
  has_times c t -> boundary c <> "UBWT" -> gfunction link uw c = Some (G1 g) -> strictly t -> within_step t p x z ->
  temperature_figure link uw true c iB n = Some ft -> In (i, cv) ft -> temperature_profile_figure link uw true c (Some z) iB' n = Some fp -> In (i, pr) fp ->
  shows (nth i (boreholes_of c) no_bore) (nth i (ratios_of c) []) pr (between cv p x).
Proof. intros link uw c t iB iB' n i ft fp cv pr g x p z Ea Sg Gr Ht Nb G St W Ft It Fp Ip. exact (each_at link uw c Ea Sg Gr false t Ht Nb iB iB' n i ft fp cv pr Ft It Ip g x p z G St W Fp). Qed.
Print Assumptions C116_at_temperature.
(** Uniform heat extraction rates are shown as 1 from one end to the other. *)
Theorem C116_uniform : forall link uw c t iB n fig i pr, boundary c = "UHTR" -> each_borehole c -> heat_profile_figure link uw true c t iB n = Some fig -> In (i, pr) fig ->
  let b := nth i (boreholes_of c) no_bore in pr = [(1, bD b); (1, bD b + bH b)].
Proof. exact uniform_profile. Qed.
Print Assumptions C116_uniform.
(** The profiles exist at the last time, and at the times between the first one and the last
    one; there is no extrapolation. *)
Theorem C116_exists_heat : forall link uw c g t, each_borehole c -> segmented (boreholes_of c) (segments_of c) (ratios_of c) -> good_ratios (ratios_of c) -> boundary c <> "UHTR" ->
  gfunction link uw c = Some (G1 g) -> plain c \/ fluid c -> has_times c t ->
  (exists fp, heat_profile_figure link uw true c None None 0 = Some fp) /\
  (strictly t -> forall p x z, within_step t p x z -> exists fp, heat_profile_figure link uw true c (Some z) None 0 = Some fp) /\
  forall z, z < hd 0 t \/ last t 0 < z -> heat_profile_figure link uw true c (Some z) None 0 = None.
Proof.
  intros link uw c g t Ea Sg Gr Nb G Ok Ht. split; [exact (last_exists link uw c true _ O Ea Sg Gr Nb G Ok eq_refl)|]. split.
  - intros St p x z W. exact (at_exists link uw c true g t p x z Ea Sg Gr Nb G Ok Ht St W).
  - intros z Hz. exact (outside link uw c true g t z Nb Ea G Ok Ht Hz O).
Qed.
Print Assumptions C116_exists_heat.
Theorem C116_exists_temperature : forall link uw c g t, each_borehole c -> segmented (boreholes_of c) (segments_of c) (ratios_of c) -> good_ratios (ratios_of c) -> boundary c <> "UBWT" ->
  gfunction link uw c = Some (G1 g) -> plain c \/ fluid c -> has_times c t ->
  (exists fp, temperature_profile_figure link uw true c None None 0 = Some fp) /\
  (strictly t -> forall p x z, within_step t p x z -> exists fp, temperature_profile_figure link uw true c (Some z) None 0 = Some fp) /\
  forall z, z < hd 0 t \/ last t 0 < z -> temperature_profile_figure link uw true c (Some z) None 0 = None.
Proof.
  intros link uw c g t Ea Sg Gr Nb G Ok Ht. split; [exact (last_exists link uw c false _ O Ea Sg Gr Nb G Ok eq_refl)|]. split.
  - intros St p x z W. exact (at_exists link uw c false g t p x z Ea Sg Gr Nb G Ok Ht St W).
  - intros z Hz. exact (outside link uw c false g t z Nb Ea G Ok Ht Hz O).
Qed.
Print Assumptions C116_exists_temperature.
Lemma strictly_12 : strictly [1; 2] /\ within_step [1; 2] 0 (1 / 2) (3 / 2).
Proof. split; [intros [|p] Hp; cbn in *; [lra|lia]|]. repeat split; cbn; try lia; lra. Qed.
Example C116_ex : each_borehole (pair_call "detailed") /\ sound (pair_call "detailed") /\ boundary (pair_call "detailed") <> "UHTR" /\ strictly [1; 2] /\ within_step [1; 2] 0 (1 / 2) (3 / 2) /\
  (exists ft, heat_figure plain_link [] true (pair_call "detailed") None 0 = Some ft) /\
  (exists fp, heat_profile_figure plain_link [] true (pair_call "detailed") None None 0 = Some fp) /\
  (exists fp, heat_profile_figure plain_link [] true (pair_call "detailed") (Some (3 / 2)) None 0 = Some fp).
Proof.
  destruct (pair_sound "detailed") as [Sg [Gr Hs]]. destruct (pair_12 plain_link []) as [g G]. assert (Ea : each_borehole (pair_call "detailed")) by (left; reflexivity).
  assert (Nb : boundary (pair_call "detailed") <> "UHTR") by (intros X; discriminate X).
  destruct (C116_exists_heat plain_link [] _ g [1; 2] Ea Sg Gr Nb G (or_introl (pair_plain _)) times_12) as [L [A _]].
  destruct (C114_exists _ _ _ _ O G (or_introl (pair_plain _)) eq_refl) as [F _].
  split; auto. split; [split; auto|]. split; auto. split; [apply strictly_12|]. split; [apply strictly_12|]. split; auto. split; auto. apply (A (proj1 strictly_12) O (1 / 2)), strictly_12.
Qed.
Example C116_temperature_ex : each_borehole warm_pair /\ sound warm_pair /\ boundary warm_pair <> "UBWT" /\ boundary warm_pair = "UHTR" /\
  (exists fp, temperature_profile_figure plain_link [] true warm_pair None None 0 = Some fp) /\
  (exists fp, temperature_profile_figure plain_link [] true warm_pair (Some (3 / 2)) None 0 = Some fp).
Proof.
  destruct (pair_sound "detailed") as [Sg [Gr Hs]]. destruct (warm_solved plain_link []) as [g G]. assert (Ea : each_borehole warm_pair) by (left; reflexivity).
  assert (Nb : boundary warm_pair <> "UBWT") by (intros X; discriminate X).
  destruct (C116_exists_temperature plain_link [] warm_pair g [1; 2] Ea Sg Gr Nb G (or_introl (pair_plain "detailed")) times_12) as [L [A _]].
  split; auto. split; [exact (pair_sound "detailed")|]. split; auto. split; [reflexivity|]. split; auto. apply (A (proj1 strictly_12) O (1 / 2)), strictly_12.
Qed.

(** * C117 *)

(** Several flows: the profiles at the last time exist for each flow. *)
Theorem C117_last : forall link uw c k g n, each_borehole c -> segmented (boreholes_of c) (segments_of c) (ratios_of c) -> good_ratios (ratios_of c) -> boundary c = "MIFT" ->
  gfunction link uw c = Some (G3 k g) -> plain c \/ fluid c -> (n < k)%nat ->
  (exists fp, heat_profile_figure link uw true c None None n = Some fp) /\ exists fp, temperature_profile_figure link uw true c None None n = Some fp.
Proof.
  intros link uw c k g n Ea Sg Gr B G Ok N. split.
  - apply (last_exists link uw c true (G3 k g) n); auto. rewrite B. intros X; discriminate X.
  - apply (last_exists link uw c false (G3 k g) n); auto. rewrite B. intros X; discriminate X.
Qed.
Print Assumptions C117_last.
(** With a time there is none, for any time. *)
Theorem C117_none : forall link uw c k g z n, each_borehole c -> segmented (boreholes_of c) (segments_of c) (ratios_of c) -> good_ratios (ratios_of c) -> (2 <= List.length (boreholes_of c))%nat ->
  gfunction link uw c = Some (G3 k g) -> heat_profile_figure link uw true c (Some z) None n = None /\ temperature_profile_figure link uw true c (Some z) None n = None.
Proof. intros link uw c k g z n Ea Sg Gr L G. split; [exact (several_none link uw c true k g z n Ea Sg Gr L G)|exact (several_none link uw c false k g z n Ea Sg Gr L G)]. Qed.
Print Assumptions C117_none.
Lemma flows_sound : each_borehole flows_pair /\ segmented (boreholes_of flows_pair) (segments_of flows_pair) (ratios_of flows_pair) /\ good_ratios (ratios_of flows_pair) /\ fluid flows_pair.
Proof.
  destruct (pair_sound "detailed") as [Sg [Gr Hs]]. split; [left; reflexivity|]. split; [exact Sg|]. split; [exact Gr|]. split; [eexists; reflexivity|right; reflexivity].
Qed.
Theorem C117_time_refuted : exists link uw c k g t z n, each_borehole c /\ segmented (boreholes_of c) (segments_of c) (ratios_of c) /\ good_ratios (ratios_of c) /\
  gfunction link uw c = Some (G3 k g) /\ fluid c /\ has_times c t /\ within_step t 0 (1 / 2) z /\ (n < k)%nat /\
  (exists fp, heat_profile_figure link uw true c None None n = Some fp) /\ (exists fp, temperature_profile_figure link uw true c None None n = Some fp) /\
  heat_profile_figure link uw true c (Some z) None n = None /\ temperature_profile_figure link uw true c (Some z) None n = None.
Proof.
  destruct (flows_solved plain_link []) as [g G]. destruct flows_sound as (Ea & Sg & Gr & Fl). exists plain_link, [], flows_pair, 2%nat, g, [1; 2], (3 / 2), 1%nat.
  split; [exact Ea|]. split; [exact Sg|]. split; [exact Gr|]. split; [exact G|]. split; [exact Fl|]. split; [exact times_12|]. split; [apply strictly_12|]. split; [lia|].
  destruct (C117_last plain_link [] flows_pair 2 g 1 Ea Sg Gr eq_refl G (or_intror Fl) ltac:(lia)) as [A B]. split; [exact A|]. split; [exact B|].
  exact (C117_none plain_link [] flows_pair 2 g (3 / 2) 1 Ea Sg Gr (le_n 2) G).
Qed.
Print Assumptions C117_time_refuted.

(** * C118 *)

(** A uniform wall temperature: the profiles of temperatures never exist, for any time. *)
Theorem C118_none : forall link uw c t n, agglomerative link -> boundary c = "UBWT" -> temperature_profile_figure link uw true c t None n = None.
Proof. intros link uw c t n Ag B. exact (wall_profile_none link uw c t n Ag B). Qed.
Print Assumptions C118_none.
Theorem C118_refuted : exists link uw c g, agglomerative link /\ gfunction link uw c = Some (G1 g) /\ plain c /\
  (exists fig, heat_profile_figure link uw true c None None 0 = Some fig) /\ (exists fig, temperature_figure link uw true c None 0 = Some fig) /\
  temperature_profile_figure link uw true c None None 0 = None.
Proof.
  destruct (pair_12 plain_link []) as [g G]. exists plain_link, [], (pair_call "detailed"), g. split; [exact plain_ok|]. split; [exact G|]. split; [apply pair_plain|].
  split; [apply C116_ex|]. split; [apply C115_uniform_ex|]. apply C118_none; [exact plain_ok|reflexivity].
Qed.
Print Assumptions C118_refuted.

(** * C119 *)

(** The profiles of vertical boreholes are drawn at the depths of their points. *)
Theorem C119_vertical_heat : forall link uw c t iB n fp i pr, each_borehole c -> segmented (boreholes_of c) (segments_of c) (ratios_of c) -> good_ratios (ratios_of c) -> boundary c <> "UHTR" ->
  heat_profile_figure link uw true c t iB n = Some fp -> In (i, pr) fp -> btilt (nth i (boreholes_of c) no_bore) = 0 ->
  at_depths (nth i (boreholes_of c) no_bore) (nth i (ratios_of c) []) pr.
Proof. intros link uw c. exact (vertical_depths link uw c true). Qed.
Print Assumptions C119_vertical_heat.
Theorem C119_vertical_temperature : forall link uw c t iB n fp i pr, each_borehole c -> segmented (boreholes_of c) (segments_of c) (ratios_of c) -> good_ratios (ratios_of c) -> boundary c <> "UBWT" ->
  temperature_profile_figure link uw true c t iB n = Some fp -> In (i, pr) fp -> btilt (nth i (boreholes_of c) no_bore) = 0 ->
  at_depths (nth i (boreholes_of c) no_bore) (nth i (ratios_of c) []) pr.
Proof. intros link uw c. exact (vertical_depths link uw c false). Qed.
Print Assumptions C119_vertical_temperature.
Example C119_ex : btilt (nth 0 (boreholes_of (pair_call "detailed")) no_bore) = 0 /\ exists fp, heat_profile_figure plain_link [] true (pair_call "detailed") None None 0 = Some fp.
Proof. split; [reflexivity|apply C116_ex]. Qed.
(** Those of an inclined borehole are not: distances along the borehole are added to the
    depth of its head. *)
Theorem C119_inclined_refuted : exists link uw c fp i pr, each_borehole c /\ sound c /\ temperature_profile_figure link uw true c None None 0 = Some fp /\ In (i, pr) fp /\
  (exists v, pr = [(v, 4); (v, 104)]) /\ true_depth (nth i (boreholes_of c) no_bore) (bH (nth i (boreholes_of c) no_bore)) = 54 /\
  ~ at_depths (nth i (boreholes_of c) no_bore) (nth i (ratios_of c) []) pr.
Proof.
  destruct (lean_solved plain_link []) as [g G]. assert (Ea : each_borehole lean_call) by (left; reflexivity).
  assert (Sd : sound lean_call).
  { change (sound lean_call) with (segmented [lean] [1]%nat [[1]] /\ good_ratios [[1]] /\ Rsum (map bH [lean]) <> 0).
    split; [split; [auto|split; [auto|intros [|b] Hb; cbn in *; auto; lia]]|]. split; [intros r [<-|[]]; split; [cbn; lra|intros x [<-|[]]; lra]|cbn; lra]. }
  assert (Nb : boundary lean_call <> "UBWT") by (intros X; discriminate X). assert (Pl : plain lean_call) by (split; [eexists; reflexivity|split; reflexivity]).
  destruct Sd as (Sg & Gr & Hs) eqn:Es; clear Es.
  destruct (C116_exists_temperature plain_link [] lean_call g [1; 2] Ea Sg Gr Nb G (or_introl Pl) times_12) as [[fp Fp] _].
  destruct (C114_exists _ _ _ _ O G (or_introl Pl) eq_refl) as [_ [ft Ft]].
  assert (K : map fst fp = [O] /\ map fst ft = [O]).
  { destruct (wall_mean plain_link [] lean_call g 0 ft [1; 2] eq_refl Ea (conj Sg (conj Gr Hs)) times_12 G Ft) as [K2 _]. split; [|exact K2].
    change (temperature_profile_figure plain_link [] true lean_call None None 0) with (fig_d plain_link [] lean_call false None None 0) in Fp.
    destruct (fig_d_eval _ _ _ _ _ _ _ _ Fp) as [V E]. destruct (each_parts _ _ _ _ E Ea) as (B1 & _). rewrite (fig_d_on _ _ _ false V _ _ _ E) in Fp. apply depth_figure_curves in Fp. destruct Fp as [X _]. rewrite X. cbn [requested]. rewrite B1. reflexivity. }
  destruct K as [K1 K2]. destruct fp as [|[i pr] [|]]; try discriminate K1. destruct ft as [|[i' cv] [|]]; try discriminate K2. injection K1 as ->. injection K2 as ->.
  pose proof (C116_last_temperature plain_link [] lean_call [1; 2] None None 0 0 _ _ cv pr Ea Sg Gr times_12 Nb Ft (or_introl eq_refl) Fp (or_introl eq_refl)) as [S1 _].
  change (nth 0 (ratios_of lean_call) []) with [1] in *. change (nth 0 (boreholes_of lean_call) no_bore) with lean in *. specialize (S1 eq_refl). cbn [bD bH lean] in S1. replace (4 + 100) with 104 in S1 by ring.
  assert (TD : true_depth lean (bH lean) = 54) by (unfold true_depth; cbn [bD bH btilt lean]; rewrite cos_PI3; field).
  exists plain_link, [], lean_call, [(O, pr)], O, pr. split; [exact Ea|]. split; [exact (conj Sg (conj Gr Hs))|]. split; [exact Fp|]. split; [left; reflexivity|].
  change (nth 0 (ratios_of lean_call) []) with [1]. change (nth 0 (boreholes_of lean_call) no_bore) with lean. split; [eexists; exact S1|]. split; [exact TD|].
  unfold at_depths. cbn [List.length Nat.eqb]. rewrite TD, S1. cbn [map snd]. intros X. injection X as _ X. lra.
Qed.
Print Assumptions C119_inclined_refuted.

(** * C120 *)

(** The times of the figures over time are those of the g-function: logarithms over the
    characteristic time of the mean length of the boreholes. *)
Theorem C120_g : forall link uw c i j t cv, c_alpha c <> 0 -> has_times c t -> Rsum (map bH (boreholes_of c)) <> 0 -> g_figure link uw c i j = Some cv ->
  map fst cv = axis (map bH (boreholes_of c)) (c_alpha c) t.
Proof. intros link uw c i j t cv A. exact (g_axis link uw c A i j t cv). Qed.
Print Assumptions C120_g.
Theorem C120_heat : forall link uw c iB n t fig i cv, c_alpha c <> 0 -> each_borehole c -> has_times c t -> Rsum (map bH (boreholes_of c)) <> 0 ->
  heat_figure link uw true c iB n = Some fig -> In (i, cv) fig -> map fst cv = axis (map bH (boreholes_of c)) (c_alpha c) t.
Proof. intros link uw c iB n t fig i cv A. exact (each_axis link uw c A true iB n t fig i cv). Qed.
Print Assumptions C120_heat.
Theorem C120_temperature : forall link uw c iB n t fig i cv, c_alpha c <> 0 -> each_borehole c -> has_times c t -> Rsum (map bH (boreholes_of c)) <> 0 ->
  temperature_figure link uw true c iB n = Some fig -> In (i, cv) fig -> map fst cv = axis (map bH (boreholes_of c)) (c_alpha c) t.
Proof. intros link uw c iB n t fig i cv A. exact (each_axis link uw c A false iB n t fig i cv). Qed.
Print Assumptions C120_temperature.
(** The curve of the g-function goes through its values. *)
Theorem C120_values : forall link uw c g t, gfunction link uw c = Some (G1 g) -> has_times c t -> List.length g = List.length t -> exists cv, g_figure link uw c 0 0 = Some cv /\ map snd cv = g.
Proof. exact g_some. Qed.
Print Assumptions C120_values.
Example C120_ex : c_alpha (pair_call "detailed") <> 0 /\ Rsum (map bH (boreholes_of (pair_call "detailed"))) <> 0 /\ has_times (pair_call "detailed") [1; 2] /\
  exists fig, heat_figure plain_link [] true (pair_call "detailed") None 0 = Some fig.
Proof. split; [cbn; lra|]. split; [cbn; lra|]. split; [exact times_12|apply C114_ex]. Qed.
(** With equivalent boreholes the mean is the one over the groups, whatever their sizes: the
    figures of the same object have different times. *)
Theorem C120_groups_refuted : exists link uw c t cg fh ft i ch ct, agglomerative link /\ has_times c t /\ g_figure link uw c 0 0 = Some cg /\
  heat_figure link uw true c None 0 = Some fh /\ In (i, ch) fh /\ temperature_figure link uw true c None 0 = Some ft /\ In (i, ct) ft /\
  map fst ch <> map fst cg /\ map fst ct <> map fst cg.
Proof.
  destruct (trio_solved plain_link [] plain_ok) as (g & G & Lg). destruct (C120_values plain_link [] trio_call g [1; 2] G times_12 Lg) as [cg [Cg _]].
  pose proof (trio_grouped plain_link plain_ok) as Gd. destruct (C114_exists _ _ _ _ O G (or_introl trio_plain) eq_refl) as [[fh Fh] [ft Ft]].
  assert (A0 : c_alpha trio_call <> 0) by (cbn; lra). assert (He : Rsum (map eH trio_groups) <> 0) by (cbn; lra). assert (Hb : Rsum (map bH (boreholes_of trio_call)) <> 0) by (cbn; lra).
  destruct trio_segmented as [Sg Gr]. destruct (heat_groups plain_link [] trio_call trio_groups 0 fh [1; 2] Gd Sg Gr ltac:(unfold group_length; cbn; lra) times_12 Fh) as [K _].
  assert (Kt : map fst ft = map fst fh).
  { unfold heat_figure, temperature_figure, on in *. destruct (evaluated plain_link [] trio_call) as [V|]; [|discriminate Fh]. apply time_figure_curves in Fh. apply time_figure_curves in Ft. destruct Fh as [-> _], Ft as [-> _]. reflexivity. }
  rewrite K in Kt. destruct fh as [|[i ch] fh]; [discriminate K|]. destruct ft as [|[i' ct] ft]; [discriminate Kt|]. injection K as -> K. injection Kt as -> Kt.
  exists plain_link, [], trio_call, [1; 2], cg, ((O, ch) :: fh), ((O, ct) :: ft), O, ch, ct.
  split; [exact plain_ok|]. split; [exact times_12|]. split; [exact Cg|]. split; [exact Fh|]. split; [left; reflexivity|]. split; [exact Ft|]. split; [left; reflexivity|].
  rewrite (C120_g _ _ _ 0 0 [1; 2] cg A0 times_12 Hb Cg).
  rewrite (grouped_axis plain_link [] trio_call A0 true None 0 [1; 2] _ O ch trio_groups Gd times_12 He Fh (or_introl eq_refl)).
  rewrite (grouped_axis plain_link [] trio_call A0 false None 0 [1; 2] _ O ct trio_groups Gd times_12 He Ft (or_introl eq_refl)).
  assert (X : axis (map eH trio_groups) (c_alpha trio_call) [1; 2] <> axis (map bH (boreholes_of trio_call)) (c_alpha trio_call) [1; 2]); [|split; exact X].
  unfold axis. cbn [map trio_groups eH trio_call boreholes_of c_source trio_field mixb bH c_alpha List.length Rsum]. intros X. injection X as X _.
  revert X. match goal with |- ln ?a = ln ?b -> _ => replace a with (1 / 625) by (field; lra); replace b with (81 / 62500) by (field; lra) end.
  intros X. apply ln_inv in X; lra.
Qed.
Print Assumptions C120_groups_refuted.
