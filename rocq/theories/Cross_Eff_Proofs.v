(** The effective resistance of several U-tubes is at least the local one. *)
From Coq Require Import Reals Lra Lia List Psatz.
From Verif Require Import Base LinAlg LinInv Bore_Model Net_Model Net_Spec Pipe_Model Pipe_Spec
  Multi_Model Multi_Spec Multi_Setup_Proofs Multi_Energy_Proofs Multi_Main_Proofs Multi_Query_Proofs Multi_Net_Proofs Res_Model Cross_Model.
From Coquelicot Require Import Coquelicot.
Local Open Scope R_scope.

Section Passive.
  Variable u : multi.
  Hypothesis P : passive_circuit u.
  Hypothesis Hn : (0 < x_n u)%nat.
  Local Notation N := (2 * x_n u)%nat.
  Definition wall_conductance : R := sumn N (fun p => conductance u p p).

  Lemma shifted x t : dissipation u (fun p => x p - t) = dissipation u x - 2 * t * sumn N (fun p => conductance u p p * x p) + t ^ 2 * wall_conductance.
  Proof.
    unfold dissipation, wall_conductance.
    rewrite (sumn_ext N (fun p => sumn N (fun q => if Nat.eqb q p then 0 else conductance u p q * (x q - t - (x p - t)) ^ 2)) (fun p => sumn N (fun q => if Nat.eqb q p then 0 else conductance u p q * (x q - x p) ^ 2)))
      by (intros p _; apply sumn_ext; intros q _; destruct (Nat.eqb q p); ring).
    rewrite (sumn_ext N (fun p => conductance u p p * (x p - t) ^ 2) (fun p => conductance u p p * x p ^ 2 - 2 * t * (conductance u p p * x p) + t ^ 2 * conductance u p p)) by (intros; ring).
    rewrite sumn_plus, sumn_minus, !sumn_scal. ring.
  Qed.

  Lemma wall_pos : 0 < wall_conductance.
  Proof.
    destruct P as [_ D]. specialize (D (fun _ => 0 - -1)). pose proof (shifted (fun _ => 0) (-1)) as S. rewrite S in D. clear S.
    assert (Z : dissipation u (fun _ => 0) = 0). { unfold dissipation. rewrite !sumn_zero; [ring| |]; intros p Hp; [apply sumn_zero; intros q Hq; destruct (Nat.eqb q p)|]; ring. }
    rewrite Z, sumn_zero in D by (intros; ring). assert (E : exists p, (p < N)%nat /\ 0 - -1 <> 0) by (exists O; split; [lia|lra]). specialize (D E). lra.
  Qed.

  (** The heat received by the wall loses the least work at equal temperatures. *)
  Lemma wall_work x w : (2 * w * sumn N (fun p => conductance u p p * x p) - w ^ 2) / wall_conductance <= dissipation u x.
  Proof.
    pose proof wall_pos as W. set (s := wall_conductance) in *. pose proof (dissipation_pos u P (fun p => x p - w / s)) as D. rewrite shifted in D. fold s in D.
    set (g := sumn N (fun p => conductance u p p * x p)) in *. replace ((2 * w * g - w ^ 2) / s) with (2 * (w / s) * g - (w / s) ^ 2 * s) by (field; lra). lra.
  Qed.

  Section Profile.
    Variables (m cp : list R).
    Hypothesis Us : usable u m cp.
    Hypothesis HP : 0 < bH (x_b u).
    Local Notation H := (bH (x_b u)).
    Local Notation dn := (down u m).
    Local Notation up := (up u m).
    Local Notation st := (stream u dn up (tube_rate u m cp)).
    Local Notation wk := (work u dn up (tube_rate u m cp) 0).

    Lemma work_bound Tin T w : fluid_profile u m cp 1 None Tin (fun _ => 0) T ->
      wk T H - wk T 0 <= (2 * w * (st T H - st T 0) + w ^ 2 * H) / wall_conductance.
    Proof.
      intros (A1 & A2 & A3 & A4). pose proof wall_pos as W. set (s := wall_conductance) in *.
      assert (SS : segment_shares 1 None) by (cbn; lia). pose proof (de_0 (x_b u) 1 None SS) as D0. pose proof (de_k (x_b u) 1 None SS) as D1.
      assert (Fl : forall z, 0 < z < H -> flows u dn up (tube_rate u m cp) T 0 z). { intros z Hz. apply (A1 O z); [lia|]. rewrite D0, D1. auto. }
      set (f := fun z => wk T z - 2 * w / s * st T z - w ^ 2 / s * z).
      assert (X : forall l, (l < 1)%nat -> depth_of (x_b u) 1 None l <= depth_of (x_b u) 1 None (S l)) by (intros; apply de_step; auto).
      assert (Cc : forall p z, (p < N)%nat -> depth_of (x_b u) 1 None 0 <= z <= depth_of (x_b u) 1 None 1 -> continuous (T p) z) by (rewrite D0, D1; auto).
      destruct (MVT_gen f 0 H (fun z => - dissipation u (fun p => T p z) - 2 * w / s * sumn N (gain u 0 (fun p => T p z)) - w ^ 2 / s)) as [c [Hc E]].
      - intros z. rewrite Rmin_left, Rmax_right by lra. intros Hz. pose proof (work_derive u dn up (tube_rate u m cp) P (legs_of u m) 0 T 0 z (Fl z Hz)) as E1. pose proof (stream_derive u dn up (tube_rate u m cp) (legs_of u m) T 0 z (Fl z Hz)) as E2.
        unfold f. auto_derive; [split; [eexists; exact E1|split; [eexists; exact E2|auto]]|]. rewrite (is_derive_unique (fun x : R => wk T x) _ _ E1), (is_derive_unique (fun x : R => st T x) _ _ E2).
        replace (dissipation u (fun p => T p z - 0)) with (dissipation u (fun p => T p z)); [match goal with |- ?a = ?b => change (@eq R a b) end; unfold Rdiv; ring|]. unfold dissipation. f_equal; [apply sumn_ext; intros; ring|]. f_equal. apply sumn_ext; intros; apply sumn_ext; intros q _; destruct (Nat.eqb q _); ring.
      - intros z. rewrite Rmin_left, Rmax_right by lra. intros Hz. apply continuity_pt_filterlim. assert (Rz : depth_of (x_b u) 1 None 0 <= z <= depth_of (x_b u) 1 None 1) by (rewrite D0, D1; auto).
        apply (continuous_minus (fun z => wk T z - 2 * w / s * st T z) (fun z => w ^ 2 / s * z)).
        + apply (continuous_minus (wk T) (fun z => 2 * w / s * st T z)); [apply (work_cont u dn up (tube_rate u m cp) (legs_of u m) 1 (depth_of (x_b u) 1 None) T Cc 0); auto|].
          apply (continuous_mult (fun _ => 2 * w / s) (st T)); [apply continuous_const|apply (stream_cont u dn up (tube_rate u m cp) (legs_of u m) 1 (depth_of (x_b u) 1 None) T Cc); auto].
        + apply (continuous_mult (fun _ => w ^ 2 / s) (fun z => z)); [apply continuous_const|apply continuous_id].
      - assert (G : sumn N (gain u 0 (fun p => T p c)) = - sumn N (fun p => conductance u p p * T p c)).
        { rewrite (gain_wall u P). rewrite <- sumn_opp. apply sumn_ext. intros; ring. }
        pose proof (wall_work (fun p => T p c) w) as Wd. fold s in Wd. rewrite G in E. set (g := sumn N (fun p => conductance u p p * T p c)) in *. unfold f in E.
        assert (Q : - dissipation u (fun p => T p c) - 2 * w / s * - g - w ^ 2 / s <= 0). { replace ((2 * w * g - w ^ 2) / s) with (2 * w / s * g - w ^ 2 / s) in Wd by (field; lra). lra. }
        assert (Qh : (- dissipation u (fun p => T p c) - 2 * w / s * - g - w ^ 2 / s) * (H - 0) <= 0) by nra.
        replace ((2 * w * (st T H - st T 0) + w ^ 2 * H) / s) with (2 * w / s * st T H - 2 * w / s * st T 0 + w ^ 2 / s * H) by (field; lra). lra.
    Qed.
  End Profile.
End Passive.

Lemma effective_local eig u x c : x_kind u <> Separate -> usable u (x :: nil) (c :: nil) -> reversals_meant u (x :: nil) -> passive_circuit u -> 0 < bH (x_b u) -> eig_ok eig u (x :: nil) (c :: nil) ->
  exists R, m_effective eig u (x :: nil) (c :: nil) = Some R /\ 0 < m_local u <= R.
Proof.
  intros K Us Rm P HP EO. destruct (effective eig u x c K Us Rm P HP EO) as (R & ER & PR & Q). exists R. split; [exact ER|].
  assert (Hn : (0 < x_n u)%nat) by apply Us. assert (SS : segment_shares 1 None) by (cbn; lia). pose proof (wall_pos u P Hn) as W. set (s := wall_conductance u) in *.
  change (m_local u) with (1 / s). split; [apply Rdiv_lt_0_compat; lra|].
  destruct (Q 1 0) as (out & h & Eo & Eh & QR). clear Q.
  destruct (solved eig u (x :: nil) (c :: nil) 1 None Us Rm P HP SS EO (fun _ => 1) (fun _ => 0)) as (T & F & _ & _ & (o' & Eo' & Ho) & (h' & Eh' & Hh)).
  rewrite Eo in Eo'. injection Eo' as <-. rewrite Eh in Eh'. injection Eh' as <-.
  assert (N1 : n_inlets u = 1%nat) by (unfold n_inlets; destruct (x_kind u); auto; contradiction). specialize (Hh O ltac:(lia)). specialize (Ho O ltac:(lia)).
  pose proof (leg_heat_total u (x :: nil) (c :: nil) 1 None Us SS _ _ T F) as Lt. unfold carried in Lt. rewrite N1 in Lt. cbn [sumn] in Lt. rewrite <- Hh in Lt.
  destruct (profile_work u (x :: nil) (c :: nil) 1 None Us 0 _ _ T F) as [W0 WH]. rewrite N1 in W0. cbn [sumn] in W0. rewrite <- Ho in Lt, W0.
  unfold inlet_rate in W0. set (r := Rabs (nth 0 (x :: nil) 0) * capacity_at (c :: nil) 0) in *.
  assert (Hr : 0 < r). { destruct Us as (_ & _ & _ & U). destruct (U O ltac:(lia)) as [U1 U2]. apply Rmult_lt_0_compat; auto. apply Rabs_pos_lt; auto. }
  set (S0 := - h O) in *. set (H := bH (x_b u)) in *.
  pose proof (work_bound u P Hn (x :: nil) (c :: nil) HP (fun _ => 1) T (S0 / H) F) as B. fold s H in B. rewrite WH in B.
  unfold leg_heat in Hh. rewrite (de_0 (x_b u) 1 None SS), (de_k (x_b u) 1 None SS) in Hh. fold H in Hh. rewrite <- Hh in B.
  replace (h O) with (- S0) in * by (unfold S0; ring). clearbody S0.
  assert (Z : S0 <> 0). { intros Z. rewrite Z in *. assert (r * (out O - 1) = 0) by lra. apply Rmult_integral in H0. destruct H0 as [H0|H0]; [lra|]. assert (H * (0 - (1 + out O) / 2) = 0) by lra. assert (out O = 1) by lra. rewrite H2 in H1. lra. }
  assert (B' : S0 ^ 2 / H / s <= S0 * ((1 + out O) / 2)).
  { replace ((2 * (S0 / H) * - S0 + (S0 / H) ^ 2 * H) / s) with (- (S0 ^ 2 / H / s)) in B by (field; lra). assert (r * (1 - out O) = S0) by lra. rewrite <- H0 at 2. nra. }
  assert (E2 : S0 ^ 2 * R = H * (S0 * ((1 + out O) / 2))) by (replace (S0 ^ 2 * R) with (- S0 * (- S0 * R)) by ring; rewrite QR; ring).
  assert (0 < S0 ^ 2) by nra. apply (Rmult_le_reg_l (S0 ^ 2)); auto. rewrite E2. replace (S0 ^ 2 * (1 / s)) with (H * (S0 ^ 2 / H / s)) by (field; lra). apply Rmult_le_compat_l; [lra|auto].
Qed.
