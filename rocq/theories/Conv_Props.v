(** Friction factors, convection and the resistances made of them: C36, C72, C73. *)
From Coq Require Import Reals Lra Lia List Bool Psatz.
From Verif Require Import Base Conv_Model Conv_Spec Conv_Proofs Conv_Main_Proofs.
From Coquelicot Require Import Coquelicot.
Local Open Scope R_scope.

(** Water in the examples: 1 g/(m s), 1000 kg/m3, 0.5 W/(m K), 4000 J/(kg K). *)
Definition water : fluid := mkfluid (/ 1000) 1000 (/ 2) 4000.

Lemma water_good : good_fluid water.
Proof. unfold good_fluid, water. cbn. lra. Qed.

(** A flow rate of Reynolds number 10000 in a pipe of radius 2 cm. *)
Lemma ex_reynolds : reynolds (PI / 10) (2 / 100) (/ 1000) 1000 = 10000.
Proof. pose proof PI_RGT_0. unfold reynolds. rewrite Rabs_pos_eq by lra. field. lra. Qed.

(** ** C72 *)

Example C72_example : 2300 <= reynolds (PI / 10) (2 / 100) (/ 1000) 1000 /\ 0 < 2 / 100 /\ 0 <= / 1000000 /\
  / 1000000 / (2 * (2 / 100)) <= / 10 /\ 0 < default_tol <= / 2.
Proof. rewrite ex_reynolds. unfold default_tol. lra. Qed.

(** The loop ends: the friction factor exists and does not depend on how long one
    is ready to wait. *)
Theorem C72_terminates m r mu rho eps tol : 0 < r -> 0 <= eps -> eps / (2 * r) <= / 10 -> 0 < tol <= / 2 ->
  exists N f, forall fuel, (N <= fuel)%nat -> friction_factor fuel m r mu rho eps tol = Some f.
Proof. exact (friction_terminates m r mu rho eps tol). Qed.
Print Assumptions C72_terminates.

(** From 2300 on the value returned satisfies the Colebrook-White equation within
    the tolerance, relative to 1 / sqrt f. *)
Theorem C72_colebrook fuel m r mu rho eps tol f : 0 < r -> 0 <= eps -> eps / (2 * r) <= / 10 -> 0 < tol <= / 2 ->
  0 < mu -> 0 < rho -> 2300 <= reynolds_of m (2 * PI * r) mu -> friction_factor fuel m r mu rho eps tol = Some f ->
  0 < f /\ colebrook_miss (reynolds_of m (2 * PI * r) mu) (eps / (2 * r)) f <= tol * (1 / sqrt f).
Proof.
  intros Hr H0 H1 Ht Hmu Hrho HR Q. rewrite <- (reynolds_duct m r mu rho) in * by auto.
  apply ok_miss; [lra|]. apply (friction_ok fuel); auto.
Qed.
Print Assumptions C72_colebrook.

(** The equation has one solution, and the value returned is within the tolerance
    of it. *)
Theorem C72_unique Re E : 2300 <= Re -> 0 <= E <= / 10 -> exists! f, colebrook Re E f.
Proof. exact (colebrook_unique Re E). Qed.
Print Assumptions C72_unique.

Theorem C72_near fuel m r mu rho eps tol f fx : 0 < r -> 0 <= eps -> eps / (2 * r) <= / 10 -> 0 < tol <= / 2 ->
  0 < mu -> 0 < rho -> 2300 <= reynolds_of m (2 * PI * r) mu -> friction_factor fuel m r mu rho eps tol = Some f ->
  colebrook (reynolds_of m (2 * PI * r) mu) (eps / (2 * r)) fx ->
  Rabs (1 / sqrt f - 1 / sqrt fx) <= tol * (1 / sqrt f).
Proof.
  intros Hr H0 H1 Ht Hmu Hrho HR Q Hc. rewrite <- (reynolds_duct m r mu rho) in * by auto.
  apply (ok_near (reynolds m r mu rho) (eps / (2 * r))); auto.
  - split; auto. apply Rmult_le_pos; [auto|left; apply Rinv_0_lt_compat; lra].
  - apply (friction_ok fuel); auto.
Qed.
Print Assumptions C72_near.

(** Below 2300, f Re = 64. *)
Theorem C72_laminar fuel m r mu rho eps tol : 0 < r -> 0 < mu -> 0 < rho -> m <> 0 ->
  reynolds_of m (2 * PI * r) mu < 2300 ->
  exists f, friction_factor fuel m r mu rho eps tol = Some f /\ f * reynolds_of m (2 * PI * r) mu = 64.
Proof.
  intros Hr Hmu Hrho Hm HR. rewrite <- (reynolds_duct m r mu rho) in * by auto.
  exists (64 / reynolds m r mu rho). split; [apply friction_laminar; auto|].
  assert (0 < reynolds m r mu rho).
  { rewrite reynolds_duct by auto. unfold reynolds_of. pose proof (Rabs_pos_lt m Hm). pose proof PI_RGT_0.
    apply Rdiv_lt_0_compat; [lra|]. apply Rmult_lt_0_compat; [|lra]. apply Rmult_lt_0_compat; lra. }
  field. lra.
Qed.
Print Assumptions C72_laminar.

(** ** C36 *)

(** For every friction law continuous from 2300 on, every laminar value and every
    Prandtl number making the correlation defined, the Nusselt number is continuous
    at every Reynolds number, the two limits included. *)
Theorem C36_continuous lam Pr (F : R -> R) Re0 :
  continuity_pt (fun Re => F (Rmax Re 2300)) Re0 -> 0 < F (Rmax Re0 2300) ->
  0 < 1 + 127 / 10 * sqrt (125 / 1000 * F (Rmax Re0 2300)) * (Rpower Pr (2 / 3) - 1) ->
  continuity_pt (fun Re => nusselt lam Re Pr (F Re)) Re0.
Proof. exact (cont_nusselt lam Pr F Re0). Qed.
Print Assumptions C36_continuous.

Example C36_continuous_example : continuity_pt (fun Re => nusselt (366 / 100) Re 7 (3 / 100)) 4000.
Proof.
  apply (C36_continuous (366 / 100) 7 (fun _ => 3 / 100) 4000); [apply continuity_pt_const; intros ? ?; reflexivity|lra|].
  pose proof (denom_pos_ge1 7 (3 / 100) ltac:(lra)) as P. unfold denom in P. lra.
Qed.

(** In particular with the friction factor that solves the Colebrook-White
    equation, for Prandtl numbers from 0.5 on, the convection coefficient is a
    continuous function of the mass flow rate. *)
Theorem C36_flow_continuous E F r mu rho k cp : 0 <= E <= / 10 -> 0 < k -> / 2 <= cp * mu / k ->
  (forall Re, 2300 <= Re -> colebrook Re E (F Re)) -> forall m,
  continuity_pt (fun m => k * nusselt (366 / 100) (reynolds m r mu rho) (cp * mu / k) (F (reynolds m r mu rho)) / (2 * r)) m.
Proof. exact (exact_continuous_m E F r mu rho k cp). Qed.
Print Assumptions C36_flow_continuous.

Example C36_flow_example : exists F, forall Re, 2300 <= Re -> colebrook Re (1 / 100) (F Re).
Proof.
  exists (fun Re => iota (fun f => colebrook (Rmax Re 2300) (1 / 100) f)). intros Re HR.
  rewrite (Rmax_left Re 2300) by lra. apply (iota_correct (fun f => colebrook Re (1 / 100) f)). apply C72_unique; lra.
Qed.

(** The coefficient returned is that continuous function within the tolerance of
    the friction factor. *)
Theorem C36_close fuel m r mu rho k cp eps h fx : 0 < r -> 0 < k -> k <= cp * mu -> 0 <= eps -> eps / (2 * r) <= / 10 ->
  2300 <= reynolds m r mu rho -> conv_circular fuel m r mu rho k cp eps = Some h ->
  colebrook (reynolds m r mu rho) (eps / (2 * r)) fx ->
  let hx := k * nusselt (366 / 100) (reynolds m r mu rho) (cp * mu / k) fx / (2 * r) in
  (1 - / 10 ^ 6) ^ 2 * hx <= h <= (1 + / 10 ^ 6) ^ 2 * hx.
Proof. exact (circular_close fuel m r mu rho k cp eps h fx). Qed.
Print Assumptions C36_close.

(** The Reynolds numbers of the code are 4 m / (perimeter mu). *)
Theorem C36_reynolds m mu rho : 0 < mu -> 0 < rho ->
  (forall r, 0 < r -> reynolds m r mu rho = reynolds_of m (2 * PI * r) mu) /\
  (forall a b, 0 < a -> a < b -> reynolds_annulus m a b mu rho = reynolds_of m (2 * PI * a + 2 * PI * b) mu).
Proof. intros. split; intros; [apply reynolds_duct|apply reynolds_annulus_duct]; auto. Qed.
Print Assumptions C36_reynolds.

(** Laminar values. *)
Theorem C36_laminar fuel m r mu rho k cp eps : reynolds m r mu rho < 2300 ->
  conv_circular fuel m r mu rho k cp eps = Some (366 / 100 * k / (2 * r)).
Proof. exact (circular_laminar fuel m r mu rho k cp eps). Qed.
Print Assumptions C36_laminar.

Example C36_laminar_example : reynolds (PI / 100) (2 / 100) (/ 1000) 1000 < 2300.
Proof. pose proof PI_RGT_0. unfold reynolds. rewrite Rabs_pos_eq by lra. replace (1000 * (PI / 100 / 1000 / (PI * (2 / 100) ^ 2)) * (2 * (2 / 100)) / / 1000) with 1000 by (field; lra). lra. Qed.

Theorem C36_annulus_laminar fuel m a b mu rho k cp eps h : reynolds_annulus m a b mu rho <= 2300 ->
  conv_annulus fuel m a b mu rho k cp eps = Some h ->
  h = ((366 / 100 + 12 / 10 * Rpower (a / b) (- (8 / 10))) * k / (2 * (b - a)),
       (366 / 100 + 12 / 10 * Rpower (a / b) (5 / 10)) * k / (2 * (b - a))).
Proof. exact (annulus_laminar fuel m a b mu rho k cp eps h). Qed.
Print Assumptions C36_annulus_laminar.

(** From 4000 on, the formula of Gnielinski. *)
Theorem C36_turbulent fuel m r mu rho k cp eps h : 4000 <= reynolds m r mu rho ->
  conv_circular fuel m r mu rho k cp eps = Some h ->
  exists f, friction_factor fuel m r mu rho eps (/ 10 ^ 6) = Some f /\
    let Re := reynolds m r mu rho in let Pr := cp * mu / k in
    h = k / (2 * r) * ((f / 8) * (Re - 1000) * Pr / (1 + 127 / 10 * sqrt (f / 8) * (Rpower Pr (2 / 3) - 1))).
Proof.
  intros HR. unfold conv_circular. change default_tol with (/ 10 ^ 6).
  destruct (friction_factor _ _ _ _ _ _ _) as [f|]; [|discriminate]. intros H. injection H as <-.
  exists f. split; auto. cbv zeta. unfold nusselt. rewrite (proj2 (Rleb_true _ _) HR). unfold nusselt_turbulent.
  replace (f / 8) with (125 / 1000 * f) by field. unfold Rdiv. ring.
Qed.
Print Assumptions C36_turbulent.

(** Between 2300 and 4000, linear interpolation between the laminar value and the
    formula at 4000 (with the friction factor of the flow). *)
Theorem C36_transition lam Re Pr f : 2300 <= Re <= 4000 ->
  (4000 - 2300) * nusselt lam Re Pr f = (4000 - Re) * lam
    + (Re - 2300) * ((f / 8) * (4000 - 1000) * Pr / (1 + 127 / 10 * sqrt (f / 8) * (Rpower Pr (2 / 3) - 1))).
Proof.
  intros H. replace (f / 8) with (125 / 1000 * f) by field. exact (nusselt_transition lam Re Pr f H).
Qed.
Print Assumptions C36_transition.

(** The sign of the mass flow rate is irrelevant. *)
Theorem C36_sign fuel m mu rho k cp eps :
  (forall r, conv_circular fuel (- m) r mu rho k cp eps = conv_circular fuel m r mu rho k cp eps) /\
  (forall a b, conv_annulus fuel (- m) a b mu rho k cp eps = conv_annulus fuel m a b mu rho k cp eps).
Proof. split; intros; [apply circular_sign|apply annulus_sign]. Qed.
Print Assumptions C36_sign.

(** The friction factor of an annulus is taken at the Reynolds number of a pipe of
    radius r_out - r_in with the same mass flow rate, not at that of the annulus: in
    this turbulent annulus 1 / sqrt f is off by more than 1. *)
Theorem C36_annulus_friction_refuted : exists m a b mu rho k cp, let Re := reynolds_of m (2 * PI * a + 2 * PI * b) mu in
  4000 <= Re /\ (exists N, forall fuel, (N <= fuel)%nat -> exists h, conv_annulus fuel m a b mu rho k cp 0 = Some h) /\
  forall fuel h fx, conv_annulus fuel m a b mu rho k cp 0 = Some h -> colebrook Re 0 fx -> exists f,
    snd h = k * nusselt_turbulent Re (cp * mu / k) f / (2 * (b - a)) /\ 1 / sqrt fx + 1 <= 1 / sqrt f.
Proof. exact annulus_friction. Qed.
Print Assumptions C36_annulus_friction_refuted.

(** ** C73 *)

Example C73_example : good_fluid water /\ in_annulus 1 0 (fun i => match i with O => 5 / 100 | _ => 2 / 100 end)
  (fun i => match i with O => 6 / 100 | _ => 3 / 100 end) (fun _ => 2 / 5).
Proof. split; [apply water_good|]. unfold in_annulus. lra. Qed.

(** The resistances exist and are positive; that of a U-tube exceeds the conduction
    resistance of its wall. *)
Theorem C73_utube fl m eps r_in r_out k_p ty : good_fluid fl -> 0 <= eps ->
  ty = SINGLE_UTUBE \/ ty = DOUBLE_UTUBE_PARALLEL \/ ty = DOUBLE_UTUBE_SERIES ->
  0 < r_in 0%nat -> r_in 0%nat < r_out 0%nat -> 0 < k_p 0%nat -> eps / (2 * r_in 0%nat) <= / 10 ->
  exists N v, ln (r_out 0%nat / r_in 0%nat) / (2 * PI * k_p 0%nat) < v /\
    forall fuel, (N <= fuel)%nat -> fluid_to_pipe fuel ty m r_in r_out k_p eps fl = Some v.
Proof. intros H1 H2. exact (utube_defined fl m eps r_in r_out k_p H1 H2 ty). Qed.
Print Assumptions C73_utube.

Theorem C73_coaxial fl m eps r_in r_out k_p ty i o : good_fluid fl -> 0 <= eps ->
  ty = COAXIAL_ANNULAR_IN /\ i = 1%nat /\ o = 0%nat \/ ty = COAXIAL_ANNULAR_OUT /\ i = 0%nat /\ o = 1%nat ->
  in_annulus i o r_in r_out k_p -> eps / (2 * r_in i) <= / 10 -> eps / (2 * (r_in o - r_out i)) <= / 10 ->
  exists N v w, 0 < v /\ 0 < w /\ forall fuel, (N <= fuel)%nat ->
    fluid_to_pipe fuel ty m r_in r_out k_p eps fl = Some v /\ fluid_to_fluid fuel ty m r_in r_out k_p eps fl = Some w.
Proof. intros H1 H2. exact (coaxial_defined fl m eps r_in r_out k_p H1 H2 ty i o). Qed.
Print Assumptions C73_coaxial.

(** No fluid to fluid resistance for U-tubes. *)
Theorem C73_utube_none fuel m r_in r_out k_p eps fl ty :
  ty = SINGLE_UTUBE \/ ty = DOUBLE_UTUBE_PARALLEL \/ ty = DOUBLE_UTUBE_SERIES ->
  fluid_to_fluid fuel ty m r_in r_out k_p eps fl = None.
Proof. intros [-> | [-> | ->]]; reflexivity. Qed.
Print Assumptions C73_utube_none.

(** The direction of the flow is irrelevant. *)
Theorem C73_sign fuel ty m r_in r_out k_p eps fl :
  fluid_to_pipe fuel ty (- m) r_in r_out k_p eps fl = fluid_to_pipe fuel ty m r_in r_out k_p eps fl /\
  fluid_to_fluid fuel ty (- m) r_in r_out k_p eps fl = fluid_to_fluid fuel ty m r_in r_out k_p eps fl.
Proof. exact (resist_sign fuel ty m r_in r_out k_p eps fl). Qed.
Print Assumptions C73_sign.

(** The order in which the two pipes of a coaxial exchanger are given is irrelevant
    once the type says which one is the annulus. *)
Theorem C73_order fuel m r_in r_out k_p eps fl :
  fluid_to_pipe fuel COAXIAL_ANNULAR_IN m (swapped r_in) (swapped r_out) (swapped k_p) eps fl
  = fluid_to_pipe fuel COAXIAL_ANNULAR_OUT m r_in r_out k_p eps fl /\
  fluid_to_fluid fuel COAXIAL_ANNULAR_IN m (swapped r_in) (swapped r_out) (swapped k_p) eps fl
  = fluid_to_fluid fuel COAXIAL_ANNULAR_OUT m r_in r_out k_p eps fl.
Proof. exact (resist_swap fuel m r_in r_out k_p eps fl). Qed.
Print Assumptions C73_order.

(** Two U-tubes in parallel share the flow. *)
Theorem C73_parallel fuel m r_in r_out k_p eps fl :
  fluid_to_pipe fuel DOUBLE_UTUBE_PARALLEL (2 * m) r_in r_out k_p eps fl = fluid_to_pipe fuel SINGLE_UTUBE m r_in r_out k_p eps fl.
Proof. exact (resist_parallel fuel m r_in r_out k_p eps fl). Qed.
Print Assumptions C73_parallel.

(** Two U-tubes in series take the whole flow. *)
Theorem C73_series fuel m r_in r_out k_p eps fl :
  fluid_to_pipe fuel DOUBLE_UTUBE_SERIES m r_in r_out k_p eps fl = fluid_to_pipe fuel SINGLE_UTUBE m r_in r_out k_p eps fl.
Proof. exact (resist_series fuel m r_in r_out k_p eps fl). Qed.
Print Assumptions C73_series.

(** In laminar flow the film resistance is 1 / (3.66 pi k). *)
Theorem C73_laminar fuel m r_in r_out k_p eps fl : 0 < fl_k fl -> 0 < r_in 0%nat ->
  reynolds m (r_in 0%nat) (fl_mu fl) (fl_rho fl) < 2300 ->
  fluid_to_pipe fuel SINGLE_UTUBE m r_in r_out k_p eps fl
  = Some (ln (r_out 0%nat / r_in 0%nat) / (2 * PI * k_p 0%nat) + 1 / (366 / 100 * PI * fl_k fl)).
Proof. exact (resist_laminar fuel m r_in r_out k_p eps fl). Qed.
Print Assumptions C73_laminar.

(** The resistances of a coaxial exchanger in laminar flow: the wall of the outer
    pipe and the outer film of the annulus; the film of the inner pipe, its wall and
    the inner film of the annulus. *)
Theorem C73_coaxial_laminar fuel m r_in r_out k_p eps fl v w : in_annulus 1 0 r_in r_out k_p -> 0 < fl_k fl ->
  reynolds_annulus m (r_out 1%nat) (r_in 0%nat) (fl_mu fl) (fl_rho fl) <= 2300 ->
  reynolds m (r_in 1%nat) (fl_mu fl) (fl_rho fl) < 2300 ->
  fluid_to_pipe fuel COAXIAL_ANNULAR_IN m r_in r_out k_p eps fl = Some v ->
  fluid_to_fluid fuel COAXIAL_ANNULAR_IN m r_in r_out k_p eps fl = Some w ->
  let gap := (r_in 0%nat - r_out 1%nat) / (PI * fl_k fl) in
  let ratio := r_out 1%nat / r_in 0%nat in
  v = ln (r_out 0%nat / r_in 0%nat) / (2 * PI * k_p 0%nat)
      + gap / ((366 / 100 + 12 / 10 * Rpower ratio (5 / 10)) * r_in 0%nat) /\
  w = 1 / (366 / 100 * PI * fl_k fl) + ln (r_out 1%nat / r_in 1%nat) / (2 * PI * k_p 1%nat)
      + gap / ((366 / 100 + 12 / 10 * Rpower ratio (- (8 / 10))) * r_out 1%nat).
Proof. exact (coaxial_laminar fuel m r_in r_out k_p eps fl v w). Qed.
Print Assumptions C73_coaxial_laminar.

(** Layers of one material add up. *)
Theorem C73_layers a b c k : 0 < a -> 0 < b -> 0 < c -> 0 < k -> conduction a c k = conduction a b k + conduction b c k.
Proof. exact (conduction_layers a b c k). Qed.
Print Assumptions C73_layers.
