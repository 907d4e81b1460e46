(** Single U-tubes and coaxial pipes are passive. *)
From Coq Require Import Reals Lra Lia List Bool Psatz.
From Coquelicot Require Import Coquelicot.
From Verif Require Import Base LinAlg Bore_Model Bore_Proofs Net_Model Net_Spec
  Pipe_Model Pipe_Spec Pipe_Alg_Proofs Pipe_Proofs Pipe_Main_Proofs Pipe_Flow_Proofs Passive_Spec.
From Verif Require Import Multi_Model Multi_Net_Proofs.
Local Open Scope R_scope.

Lemma form_nonneg c1 c2 c12 p q : 0 < c1 + c2 -> 0 < c1 * c2 + c12 * (c1 + c2) -> 0 <= c1 * p ^ 2 + c2 * q ^ 2 + c12 * (p - q) ^ 2.
Proof.
  intros Hs Hd.
  assert (A : 0 < c1 + c12) by (assert (0 < (c1 + c12) * (c1 + c2)) by nra; nra).
  assert (E : (c1 + c12) * (c1 * p ^ 2 + c2 * q ^ 2 + c12 * (p - q) ^ 2)
    = ((c1 + c12) * p - c12 * q) ^ 2 + (c1 * c2 + c12 * (c1 + c2)) * q ^ 2) by ring.
  assert (S1 : 0 <= ((c1 + c12) * p - c12 * q) ^ 2) by apply pow2_ge_0.
  assert (S2 : 0 <= q ^ 2) by apply pow2_ge_0.
  apply Rmult_le_reg_l with (c1 + c12); [auto|]. rewrite Rmult_0_r, E. apply Rplus_le_le_0_compat; auto. apply Rmult_le_pos; lra.
Qed.

Lemma carry_derive (f g : R -> R) z a b M t c : is_derive f z a -> is_derive g z b ->
  is_derive (fun z => 1/2 * M * ((f z - t) ^ 2 - (g z - t) ^ 2) - c * (M * (f z - g z))) z
    (1/2 * M * (2 * (f z - t) * a - 2 * (g z - t) * b) - c * (M * (a - b))).
Proof.
  intros Df Dg. pose proof (is_derive_unique _ _ _ Df) as Uf. pose proof (is_derive_unique _ _ _ Dg) as Ug.
  auto_derive.
  - repeat split; eexists; eauto.
  - change (fun x => f x) with f. change (fun x => g x) with g. rewrite Uf, Ug. match goal with |- ?a = ?b => change (@eq R a b) end. ring.
Qed.

Lemma carry_cont (f g : R -> R) z M t c : continuous f z -> continuous g z ->
  continuity_pt (fun z => 1/2 * M * ((f z - t) ^ 2 - (g z - t) ^ 2) - c * (M * (f z - g z))) z.
Proof.
  intros Cf Cg. apply continuity_pt_filterlim in Cf. apply continuity_pt_filterlim in Cg.
  assert (K : forall y, continuity_pt (fun _ => y) z) by (intros y; apply continuity_pt_const; intros ? ?; auto).
  assert (F1 : continuity_pt (fun z => f z - t) z) by (apply (continuity_pt_minus f (fun _ => t)); auto).
  assert (G1 : continuity_pt (fun z => g z - t) z) by (apply (continuity_pt_minus g (fun _ => t)); auto).
  apply continuity_pt_ext with (f := fun z => 1/2 * M * ((f z - t) * (f z - t) - (g z - t) * (g z - t)) - c * (M * (f z - g z))); [intros; ring|].
  apply (continuity_pt_minus (fun z => 1/2 * M * ((f z - t) * (f z - t) - (g z - t) * (g z - t))) (fun z => c * (M * (f z - g z)))).
  - apply (continuity_pt_mult (fun _ => 1/2 * M)); auto. apply (continuity_pt_minus (fun z => (f z - t) * (f z - t)) (fun z => (g z - t) * (g z - t))).
    + apply (continuity_pt_mult (fun z => f z - t) (fun z => f z - t)); auto.
    + apply (continuity_pt_mult (fun z => g z - t) (fun z => g z - t)); auto.
  - apply (continuity_pt_mult (fun _ => c)); auto. apply (continuity_pt_mult (fun _ => M)); auto. apply (continuity_pt_minus f g); auto.
Qed.

Section Tube.
Variables (u : utube) (m cp : R) (n : nat) (r : option (list R)) (d e : nat).
Hypothesis (G : good_flow u m cp n r d e).
Variables (Tin : R) (Tb : nat -> R).
Let T i z := get_temperature u Tin n Tb m cp r z i.
Let M := Rabs m * cp.
Local Notation x := (depth u n r).

(** energy carried down minus energy carried up *)
Definition carry (t z : R) : R := 1/2 * M * ((T d z - t) ^ 2 - (T e z - t) ^ 2).
Definition flux (z : R) : R := M * (T d z - T e z).

Lemma carry_segment t k : (k < n)%nat -> carry t (x (S k)) - carry t (x k) <= (Tb k - t) * (flux (x (S k)) - flux (x k)).
Proof.
  intros Hk. pose proof (ed_step u m cp n r d e G k Hk) as St. rewrite !(ed_depth u m cp n r d e G) in St by lia.
  set (W := fun z => carry t z - (Tb k - t) * flux z).
  set (D := fun z => - (cond u d d * (T d z - Tb k) ^ 2 + cond u e e * (T e z - Tb k) ^ 2 + cond u d e * ((T d z - Tb k) - (T e z - Tb k)) ^ 2)).
  assert (Cd : forall z, continuous (T d) z /\ continuous (T e) z) by (intros z; apply (profile_continuous u m cp n r d e G Tin Tb)).
  destruct (MVT_gen W (x k) (x (S k)) D) as [c [Hc E]].
  - intros z. rewrite Rmin_left, Rmax_right by lra. intros Hz.
    destruct (energy u m cp n r d e G Tin Tb k z Hk Hz) as (a & b & Da & Db & Ea & Eb).
    change (M * a = cond u d d * (Tb k - T d z) + cond u d e * (T e z - T d z)) in Ea.
    change (- M * b = cond u e e * (Tb k - T e z) + cond u d e * (T d z - T e z)) in Eb.
    change (is_derive (T d) z a) in Da. change (is_derive (T e) z b) in Db.
    unfold W, carry, flux.
    assert (X : D z = 1/2 * M * (2 * (T d z - t) * a - 2 * (T e z - t) * b) - (Tb k - t) * (M * (a - b))).
    { unfold D. replace (1/2 * M * (2 * (T d z - t) * a - 2 * (T e z - t) * b) - (Tb k - t) * (M * (a - b))) with ((T d z - Tb k) * (M * a) + (T e z - Tb k) * (- M * b)) by field.
      rewrite Ea, Eb. ring. }
    rewrite X. exact (carry_derive (T d) (T e) z a b M t (Tb k - t) Da Db).
  - intros z Hz. destruct (Cd z) as [C1 C2]. exact (carry_cont (T d) (T e) z M t (Tb k - t) C1 C2).
  - assert (0 <= cond u d d * (T d c - Tb k) ^ 2 + cond u e e * (T e c - Tb k) ^ 2 + cond u d e * ((T d c - Tb k) - (T e c - Tb k)) ^ 2).
    { destruct G as (_ & _ & [Q1 Q2] & _). apply form_nonneg; auto. }
    unfold W in E. assert (D c * (x (S k) - x k) <= 0) by (unfold D; nra). lra.
Qed.

Lemma tube_passive t : (0 < m \/ u_reversible u = true) ->
  1/2 * M * ((get_outlet_temperature u Tin n Tb m cp r - t) ^ 2 - (Tin - t) ^ 2) <= sumn n (fun l => (Tb l - t) * get_borehole_heat u Tin n Tb m cp r l).
Proof.
  intros P. destruct (boundary u m cp n r d e G Tin Tb) as (B1 & B2 & B3).
  assert (S : sumn n (fun k => carry t (x (S k)) - carry t (x k)) <= sumn n (fun l => (Tb l - t) * get_borehole_heat u Tin n Tb m cp r l)).
  { apply sumn_le. intros k Hk. rewrite (heat_legs u m cp n r d e G Tin Tb k P). rewrite !(ed_depth u m cp n r d e G) by lia.
    pose proof (carry_segment t k Hk) as X. unfold flux in X. eapply Rle_trans; [exact X|]. right. f_equal. unfold T, M. ring. }
  rewrite (sumn_telescope n (fun k => carry t (x k))) in S. rewrite <- !(ed_depth u m cp n r d e G) in S by lia.
  rewrite (ed_0 u m cp n r d e G), (ed_n u m cp n r d e G) in S. unfold carry, T in S. cbv beta in B1, B2, B3. rewrite B1, B2, B3 in S.
  eapply Rle_trans; [|exact S]. right. ring.
Qed.
End Tube.

Lemma utube_passive u m cp n r d e : good_flow u m cp n r d e -> (0 < m \/ u_reversible u = true) -> Multi_Spec.pipe_passive (net_pipe u) m cp n r.
Proof. intros G P t tin Tb. exact (tube_passive u m cp n r d e G tin Tb t P). Qed.

Lemma utube_contracts u m cp n r d e : good_flow u m cp n r d e -> pipe_contracts (net_pipe u) m cp n r.
Proof.
  intros G. unfold pipe_contracts. cbn [net_pipe p_out]. apply Rabs_def1; [exact (out_lt1 u m cp n r d e G)|].
  unfold outlet. rewrite (vars_eq u m cp n r d e G). cbn [fst]. unfold out_in.
  pose proof (den_pos _ _ _ (bH (u_b u)) (b_sum u m cp n r d e G) (b_det u m cp n r d e G) (H_nn u m cp n r d e G)) as D.
  set (v := vars_of _ _ _) in *. pose proof (exp_pos (- 2 * vg v * bH (u_b u))) as E. set (x := exp _) in *.
  apply Rmult_lt_reg_r with (cB v + cA v * x); [exact D|]. unfold Rdiv. rewrite Rmult_assoc, Rinv_l by lra.
  assert (cA v + cB v = 2) by (unfold cA, cB; ring). nra.
Qed.

Lemma library_sound p m cp k r : library_pipe p m cp k r -> sound_pipe p m cp k r.
Proof.
  intros [(u & d & e & -> & G & Q) | (eig & u & -> & K & Us & Rm & P & HP & SS & EO)].
  - split; [exact (utube_balanced u m cp k r d e G Q)|]. split; [exact (utube_passive u m cp k r d e G Q)|exact (utube_contracts u m cp k r d e G)].
  - split; [apply multi_balanced; auto|]. split; [apply multi_passive; auto|apply out_contracts; auto].
Qed.
