(** Cross-sections with any number of pipes: C130 - C132. *)
From Coq Require Import Reals Lra Lia List Bool PeanoNat ZArith Psatz.
From Verif Require Import Base LinAlg LinInv Bore_Model Net_Model Pipe_Model Res_Model Res_Spec Res_Proofs Res_Geom_Proofs Def_Psd_Proofs
  Multi_Model Multi_Spec Cross_Model Cross_Spec Cross_Form_Proofs Cross_Multi_Proofs Multi_Max_Proofs Multi_Ex_Proofs Cross_Eff_Proofs.
Import ListNotations.
Local Open Scope R_scope.

(** ** C130 *)

(** The resistances of pipes that fit in the borehole exist, and heat never flows
    from cold to hot overall. *)
Theorem C130_positive : forall a, pipes_fit a -> a_J a = 0%nat ->
  exists Rm Rd, thermal_resistances a = Some (Rm, Rd)
  /\ (forall i j, Rm i j = Rm j i)
  /\ (forall q, some_flow (length (a_pos a)) q -> 0 < lost_work (length (a_pos a)) Rm q)
  /\ (forall T Tb, (exists i, (i < length (a_pos a))%nat /\ T i <> Tb) ->
        0 < sumn (length (a_pos a)) (fun i => (T i - Tb) * circuit_flow (length (a_pos a)) Rd T Tb i)).
Proof.
  intros a F J. destruct (resistances_exist a F J) as (Rm & Rd & E). exists Rm, Rd. split; [exact E|]. destruct (resistances_are a J _ _ E) as [-> D].
  split; [intros; apply line_source_sym|]. split; [intros q; rewrite lost_work_form; apply work_pos; auto|]. intros T Tb. apply (circuit_work _ _ (work_pos a F) Rd D).
Qed.
Print Assumptions C130_positive.

(** A borehole with several U-tubes that passes the checks of the geometry is built, and
    it meets the hypothesis of C95 - C107 if no resistance is infinite. *)
Theorem C130_multiple : forall pos r_in r_out b ks kg Rfp n k rev, (0 < n)%nat -> length pos = (2 * n)%nat ->
  0 < ks -> 0 < kg -> 0 < Rfp -> 0 < r_in < r_out -> 0 < br b -> disks_fit pos (2 * n) r_out (br b) ->
  exists u, multiple_utube pos r_in r_out b ks kg Rfp n k 0 rev = Some u
  /\ ((forall p q, (p < 2 * n)%nat -> (q < 2 * n)%nat -> x_Rd u p q <> 0) -> passive_circuit u).
Proof.
  intros pos r_in r_out b ks kg Rfp n k rev Hn L H1 H2 H3 H4 H5 H6. apply multi_passive; auto. apply check_utube_iff; auto. intuition lia.
Qed.
Print Assumptions C130_multiple.

(** Two U-tubes in a borehole of radius 75 mm: pipes of radius 20 mm at 40 mm from the axis *)
Definition ring : list (R * R) := [(1/25, 0); (0, 1/25); (- (1/25), 0); (0, - (1/25))].
Definition wide_bore : bore := Bore 100 4 (3/40) 0 0 0 0.

Lemma ring_check : check_utube ring (1/60) (1/50) (3/40) 2 2 (1/10) 2 0 = true.
Proof.
  unfold check_utube, ring. cbn [Nat.mul Nat.add seq forallb Nat.sub nth fst snd].
  assert (S : forall x y, 0 <= y -> x = y ^ 2 -> sqrt x = y) by (intros x y Hy ->; apply sqrt_pow2; auto).
  assert (D : forall x, (1/25) ^ 2 <= x -> 2 * (1/50) <= sqrt x) by (intros x Hx; replace (2 * (1/50)) with (sqrt ((1/25) ^ 2)) by (apply S; lra); apply sqrt_le_1_alt; auto).
  rewrite (S ((1/25) ^ 2 + 0 ^ 2) (1/25)), (S (0 ^ 2 + (1/25) ^ 2) (1/25)), (S ((- (1/25)) ^ 2 + 0 ^ 2) (1/25)), (S (0 ^ 2 + (- (1/25)) ^ 2) (1/25)) by lra.
  rewrite !andb_true_iff, !Rltb_true, !Rleb_true, Z.leb_le. repeat split; try lra; try lia; apply D; lra.
Qed.

Lemma ring_matrix : exists a b c, a - c <> 0 /\ b <> 0 /\ c * (a + c) <> 2 * b ^ 2
  /\ forall i j, (i < 4)%nat -> (j < 4)%nat -> line_source (tube_args ring (1/50) (3/40) 2 2 (1/10) 0) i j
       = if Nat.eqb i j then a else if Nat.eqb ((i + 2) mod 4) j then c else b.
Proof.
  set (k := 1 / (2 * PI * 2)). assert (K : 0 < k) by (apply Rdiv_lt_0_compat; [lra|pose proof PI_RGT_0; lra]).
  assert (S : forall x y, 0 <= y -> x = y ^ 2 -> sqrt x = y) by (intros x y Hy ->; apply sqrt_pow2; auto).
  set (d := sqrt ((1/25) ^ 2 + (1/25) ^ 2)). assert (D : 0 < d < 3/40). { unfold d. split; [apply sqrt_lt_R0; lra|]. rewrite <- (S ((3/40) ^ 2) (3/40)) by lra. apply sqrt_lt_1_alt. lra. }
  exists (1/10 + k * ln (15/4)), (- k * ln (d / (3/40))), (- k * ln (16/15)).
  assert (B : ln (d / (3/40)) < 0). { rewrite <- ln_1. apply ln_increasing; [apply Rdiv_lt_0_compat; lra|]. apply (Rmult_lt_reg_r (3/40)); [lra|]. unfold Rdiv at 1. rewrite Rmult_assoc, Rinv_l by lra. lra. }
  assert (C1 : 0 < ln (16/15)) by (rewrite <- ln_1; apply ln_increasing; lra). assert (C2 : ln (16/15) < ln (15/4)) by (apply ln_increasing; lra).
  split; [nra|]. split; [nra|]. split.
  { assert (0 < k * (- ln (d / (3/40)))) by (apply Rmult_lt_0_compat; lra). assert (0 < k * ln (16/15)) by (apply Rmult_lt_0_compat; lra). assert (0 < k * (ln (15/4) - ln (16/15))) by (apply Rmult_lt_0_compat; lra). nra. }
  assert (Sg : ls_sigma (tube_args ring (1/50) (3/40) 2 2 (1/10) 0) = 0) by (unfold ls_sigma; cbn; lra).
  intros i j Hi Hj. unfold line_source. rewrite Sg. unfold p_x, p_y. cbn [tube_args a_pos a_rout a_rb a_ks a_kg a_Rfp]. fold k.
  replace (3 / 40 / nth i (repeat (1/50) (length ring)) 0) with (15/4) by (rewrite repeat_nth by (cbn; lia); field).
  rewrite repeat_nth by (cbn; lia). replace (- 1 / (2 * PI * 2)) with (- k) by (unfold k; field; apply PI_neq0).
  destruct i as [|[|[|[|i]]]], j as [|[|[|[|j]]]]; try lia; cbn -[sqrt ln pow Rdiv Rminus Ropp]; try (rewrite Rmult_0_l; ring_simplify; reflexivity);
    rewrite !Rmult_0_l, ?Rplus_0_r, ?Rminus_0_r; auto; do 2 f_equal.
  all: try (f_equal; unfold d; f_equal; field).
  all: unfold Rdiv at 1; rewrite (S _ (2/25)) by lra; field.
Qed.

Example C130_example : pipes_fit (tube_args ring (1/50) (3/40) 2 2 (1/10) 0)
  /\ exists u, multiple_utube ring (1/60) (1/50) wide_bore 2 2 (1/10) 2 InSeries 0 true = Some u /\ passive_circuit u.
Proof.
  split; [exact (tube_fit ring (1/60) (1/50) (3/40) 2 2 (1/10) 2 0 ltac:(lia) eq_refl ring_check)|].
  pose proof ring_check as Ch. destruct (multi_passive ring (1/60) (1/50) wide_bore 2 2 (1/10) 2 InSeries true ltac:(lia) eq_refl Ch) as (u & E & P). exists u. split; [exact E|]. apply P. clear P.
  unfold multiple_utube in E. cbn [wide_bore br] in E. change (Z.of_nat 0) with 0%Z in E. rewrite Ch in E. destruct (thermal_resistances _) as [[Rm Rd]|] eqn:Et in E; [|discriminate]. injection E as <-. cbn [x_Rd].
  apply resistances_are in Et; [|reflexivity]. destruct Et as [_ D]. change (length (a_pos _)) with 4%nat in D. destruct ring_matrix as (a & b & c & H1 & H2 & H3 & Hm).
  unfold delta_circuit in D. destruct (inv_mx 4 _) as [Ri|] eqn:Ei in D; [|discriminate]. injection D as <-.
  assert (So : forall i j, (i < 4)%nat -> sumn 4 (fun k => (if Nat.eqb i k then a else if Nat.eqb ((i + 2) mod 4) k then c else b) * Ri k j) = id_mx i j).
  { intros i j Hi. rewrite <- (lin_solve_mx_sound 4 _ _ _ Ei i j Hi). apply sumn_ext. intros k Hk. rewrite Hm by auto. reflexivity. }
  assert (Nz : forall i j, (i < 4)%nat -> (j < 4)%nat -> delta_K 4 Ri i j <> 0).
  { assert (Sy : forall i j, (i < 4)%nat -> (j < 4)%nat -> Ri i j = Ri j i) by (apply (inv_sym 4 _ Ri Ei); intros; apply line_source_sym).
    assert (Col : forall j, (j < 4)%nat -> Ri ((j + 1) mod 4) j <> 0 /\ Ri ((j + 2) mod 4) j <> 0 /\ Ri ((j + 3) mod 4) j <> 0 /\ Ri 0%nat j + Ri 1%nat j + Ri 2%nat j + Ri 3%nat j <> 0).
    { intros j Hj. pose proof (So 0%nat j ltac:(lia)) as E0. pose proof (So 1%nat j ltac:(lia)) as E1. pose proof (So 2%nat j ltac:(lia)) as E2. pose proof (So 3%nat j ltac:(lia)) as E3.
      destruct j as [|[|[|[|j]]]]; [..|lia]; cbn in E0, E1, E2, E3; cbn.
      - pose proof (ring_of_four a b c (Ri 0%nat 0%nat) (Ri 1%nat 0%nat) (Ri 2%nat 0%nat) (Ri 3%nat 0%nat) H1 H2 H3 ltac:(lra) ltac:(lra) ltac:(lra) ltac:(lra)) as (A1 & A2 & A3 & A4). do 3 (split; [assumption|]). intros Q; apply A4; lra.
      - pose proof (ring_of_four a b c (Ri 1%nat 1%nat) (Ri 2%nat 1%nat) (Ri 3%nat 1%nat) (Ri 0%nat 1%nat) H1 H2 H3 ltac:(lra) ltac:(lra) ltac:(lra) ltac:(lra)) as (A1 & A2 & A3 & A4). do 3 (split; [assumption|]). intros Q; apply A4; lra.
      - pose proof (ring_of_four a b c (Ri 2%nat 2%nat) (Ri 3%nat 2%nat) (Ri 0%nat 2%nat) (Ri 1%nat 2%nat) H1 H2 H3 ltac:(lra) ltac:(lra) ltac:(lra) ltac:(lra)) as (A1 & A2 & A3 & A4). do 3 (split; [assumption|]). intros Q; apply A4; lra.
      - pose proof (ring_of_four a b c (Ri 3%nat 3%nat) (Ri 0%nat 3%nat) (Ri 1%nat 3%nat) (Ri 2%nat 3%nat) H1 H2 H3 ltac:(lra) ltac:(lra) ltac:(lra) ltac:(lra)) as (A1 & A2 & A3 & A4). do 3 (split; [assumption|]). intros Q; apply A4; lra. }
    intros i j Hi Hj. destruct (Nat.eq_dec i j) as [<-|Ne].
    - rewrite delta_diag by auto. rewrite (sumn_ext 4 _ (fun j => Ri j i)) by (intros; apply Sy; auto). destruct (Col i Hi) as (_ & _ & _ & Q). cbn. intros Z; apply Q; lra.
    - unfold delta_K. rewrite (proj2 (Nat.eqb_neq i j)) by auto. apply Ropp_neq_0_compat. destruct (Col j Hj) as (A1 & A2 & A3 & _).
      destruct i as [|[|[|[|i]]]], j as [|[|[|[|j]]]]; try lia; assumption. }
  intros p q Hp Hq. specialize (Nz p q Hp Hq). unfold inverse_of. destruct (Reqb (delta_K 4 Ri p q) 0) eqn:Z; [apply Reqb_true in Z; contradiction|]. cbn. intros Q. apply (Rinv_neq_0_compat _ Nz). lra.
Qed.

(** ** C131 *)

(** The local borehole resistance is positive.  It does not increase with more pipes, with
    larger pipes, with better conductors or with smaller resistances of the pipes. *)
Theorem C131_local : forall a b Rm Rd Rm' Rd', pipes_fit a -> pipes_fit b -> a_J a = 0%nat -> a_J b = 0%nat -> (0 < length (a_pos a))%nat -> conducts_better a b ->
  thermal_resistances a = Some (Rm, Rd) -> thermal_resistances b = Some (Rm', Rd') ->
  0 < local_resistance (length (a_pos b)) Rd' <= local_resistance (length (a_pos a)) Rd.
Proof. exact better_resistance. Qed.
Print Assumptions C131_local.

Example C131_example : let a := tube_args (firstn 2 ring) (1/50) (3/40) 1 1 (1/5) 0 in let b := tube_args ring (1/50) (3/40) 2 2 (1/10) 0 in
  pipes_fit a /\ pipes_fit b /\ conducts_better a b.
Proof.
  pose proof C130_example as (F & _). split; [|split; [exact F|]].
  - destruct F as (_ & _ & _ & _ & _ & A & B). unfold pipes_fit. cbn [tube_args a_pos a_rout a_rb a_ks a_kg a_Rfp]. rewrite !repeat_length. do 2 (split; [reflexivity|]). do 3 (split; [lra|]). split.
    + intros i Hi. cbn in Hi. rewrite !repeat_nth by (cbn; lia). destruct (A i) as (_ & _ & Q); [cbn; lia|]. cbn [tube_args a_rout a_pos a_rb] in Q. rewrite repeat_nth in Q by (cbn; lia). split; [lra|]. split; [lra|]. destruct i as [|[|i]]; [exact Q..|lia].
    + intros i j Hi Hj Ne. cbn in Hi, Hj. rewrite !repeat_nth by (cbn; lia). pose proof (B i j) as Q. cbn [tube_args a_rout a_pos] in Q. rewrite !repeat_nth in Q by (cbn; lia). specialize (Q ltac:(cbn; lia) ltac:(cbn; lia) Ne). destruct i as [|[|i]], j as [|[|j]]; try lia; exact Q.
  - split; [reflexivity|]. split; [reflexivity|]. split; [cbn; lra|]. split; [cbn; lra|]. intros i Hi. cbn [tube_args a_pos a_rout a_Rfp] in *. cbn in Hi. rewrite !repeat_nth by (cbn; lia). lra.
Qed.

(** ** C132 *)

(** The effective resistance of a borehole with several U-tubes in series or in parallel is
    at least the local one, whatever the flow rate and the borehole length. *)
Theorem C132_effective : forall eig u x c, x_kind u <> Separate -> usable u (x :: nil) (c :: nil) -> reversals_meant u (x :: nil) -> passive_circuit u ->
  0 < bH (x_b u) -> eig_ok eig u (x :: nil) (c :: nil) ->
  exists R, m_effective eig u (x :: nil) (c :: nil) = Some R /\ 0 < m_local u <= R.
Proof. exact effective_local. Qed.
Print Assumptions C132_effective.

(** Also for the boreholes of C130 *)
Theorem C132_built : forall eig pos r_in r_out b ks kg Rfp n k rev u x c, multiple_utube pos r_in r_out b ks kg Rfp n k 0 rev = Some u ->
  (0 < n)%nat -> length pos = (2 * n)%nat -> (forall p q, (p < 2 * n)%nat -> (q < 2 * n)%nat -> x_Rd u p q <> 0) ->
  k <> Separate -> x <> 0 -> 0 < c -> (0 < x \/ rev = true) -> 0 < bH b -> eig_ok eig u (x :: nil) (c :: nil) ->
  exists R, m_effective eig u (x :: nil) (c :: nil) = Some R /\ 0 < m_local u <= R.
Proof.
  intros eig pos r_in r_out b ks kg Rfp n k rev u x c E Hn L Nz K Hx Hc Dir HP EO.
  assert (Fs : check_utube pos r_in r_out (br b) ks kg Rfp n 0 = true /\ x_n u = n /\ x_b u = b /\ x_kind u = k /\ x_reversible u = rev).
  { unfold multiple_utube in E. change (Z.of_nat 0) with 0%Z in E. destruct (check_utube pos r_in r_out (br b) ks kg Rfp n 0); [|discriminate].
    destruct (thermal_resistances _) as [[Rm Rd]|]; [|discriminate]. injection E as <-. auto. }
  destruct Fs as (Ch & En & Eb & Ek & Er). destruct (multi_passive pos r_in r_out b ks kg Rfp n k rev Hn L Ch) as (v & Ev & Pv). rewrite E in Ev. injection Ev as <-.
  assert (N1 : n_inlets u = 1%nat) by (unfold n_inlets; rewrite Ek; destruct k; auto; contradiction).
  apply C132_effective; auto.
  - congruence.
  - split; [lia|]. rewrite N1. split; [auto|]. split; [auto|]. intros i Hi. assert (i = 0%nat) by lia. subst i. cbn. auto.
  - destruct Dir as [D|D]; [right|left; congruence]. rewrite N1. intros i Hi. assert (i = 0%nat) by lia. subst i. cbn. auto.
  - rewrite Eb. auto.
Qed.
Print Assumptions C132_built.

Example C132_example : x_kind (two_tubes InSeries false) <> Separate
  /\ usable (two_tubes InSeries false) (1 :: nil) (1 :: nil) /\ reversals_meant (two_tubes InSeries false) (1 :: nil) /\ passive_circuit (two_tubes InSeries false)
  /\ eig_ok ex_eig (two_tubes InSeries false) (1 :: nil) (1 :: nil) /\ 0 < bH (x_b (two_tubes InSeries false)).
Proof.
  split; [discriminate|]. split; [apply (two_usable InSeries); auto|]. split; [apply (two_meant InSeries); auto|].
  split; [apply positive_passive, two_positive|]. split; [apply (two_eig InSeries); auto|cbn; lra].
Qed.
