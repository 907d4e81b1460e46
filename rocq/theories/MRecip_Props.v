(** Reciprocity of several U-tubes: C154, C155. *)
From Coq Require Import Psatz FunctionalExtensionality List.
From Coquelicot Require Import Coquelicot.
From Verif Require Import Base LinAlg LinInv Bore_Model Net_Model Multi_Model Multi_Spec Multi_Setup_Proofs Multi_Main_Proofs Multi_Query_Proofs Multi_Net_Proofs Multi_Max_Proofs
  Multi_Ex_Proofs Multi_Props MRecip_Proofs.
Local Open Scope R_scope.

(** Reversing all flows: for any temperatures, one set in each direction, the heat extracted
    in one direction weighted by the wall temperatures of the other. *)
Theorem C154_reciprocal : forall eig eig' u m cp k r Tin Sin Tb Sb,
  usable u m cp -> x_reversible u = true -> passive_circuit u -> 0 < bH (x_b u) -> segment_shares k r ->
  eig_ok eig u m cp -> eig_ok eig' u (map Ropp m) cp ->
  exists out h out' h', q_outlet eig u Tin k Tb m cp r = Some out /\ q_heat eig u Tin k Tb m cp r = Some h
    /\ q_outlet eig' u Sin k Sb (map Ropp m) cp r = Some out' /\ q_heat eig' u Sin k Sb (map Ropp m) cp r = Some h'
    /\ sumn k (fun l => Sb l * h l) - sumn k (fun l => Tb l * h' l)
       = sumn (n_inlets u) (fun o => Rabs (nth o m 0) * capacity_at cp o * (out o * Sin o - Tin o * out' o)).
Proof.
  intros eig eig' u m cp k r Tin Sin Tb Sb Us V P HP SS EO EO'.
  pose proof (back_usable u m cp Us) as Us'. fold (back m) in *.
  destruct (solved eig u m cp k r Us (or_introl V) P HP SS EO Tin Tb) as (T & F & _ & _ & (o & Eo & Ho) & (h & Eh & Hh)).
  destruct (solved eig' u (back m) cp k r Us' (or_introl V) P HP SS EO' Sin Sb) as (S & F' & _ & _ & (o' & Eo' & Ho') & (h' & Eh' & Hh')).
  exists o, h, o', h'. repeat (split; [assumption|]).
  rewrite (sumn_ext k (fun l => Sb l * h l) _ (fun l Hl => f_equal (Rmult (Sb l)) (Hh l Hl))).
  rewrite (sumn_ext k (fun l => Tb l * h' l) _ (fun l Hl => f_equal (Rmult (Tb l)) (Hh' l Hl))).
  rewrite (profiles_cross u m cp Us k r P HP SS Tin Sin Tb Sb T S F F'). apply sumn_ext. intros i Hi. rewrite Ho, Ho' by auto. reflexivity.
Qed.
Print Assumptions C154_reciprocal.

(** Hence the coefficients for the reversed flows are the transposed ones. *)
Lemma pick n i (f : nat -> R) : (i < n)%nat -> sumn n (fun j => f j * (if Nat.eqb j i then 1 else 0)) = f i.
Proof.
  intros Hi. rewrite (sumn_single n i); auto; [rewrite Nat.eqb_refl; ring|]. intros j Hj Ne. replace (Nat.eqb j i) with false by (symmetry; apply Nat.eqb_neq; auto). ring.
Qed.
Lemma pick' n i (f : nat -> R) : (i < n)%nat -> sumn n (fun j => (if Nat.eqb j i then 1 else 0) * f j) = f i.
Proof. intros Hi. rewrite <- (pick n i f Hi). apply sumn_ext. intros. ring. Qed.
Lemma none n (f : nat -> R) : sumn n (fun j => f j * 0) = 0.
Proof. apply sumn_zero. intros. ring. Qed.
Lemma none' n (f : nat -> R) : sumn n (fun j => 0 * f j) = 0.
Proof. apply sumn_zero. intros. ring. Qed.

Theorem C154_transposed : forall eig eig' u m cp k r,
  usable u m cp -> x_reversible u = true -> passive_circuit u -> 0 < bH (x_b u) -> segment_shares k r ->
  eig_ok eig u m cp -> eig_ok eig' u (map Ropp m) cp ->
  let rate o := Rabs (nth o m 0) * capacity_at cp o in
  exists a b c d a' b' c' d', m_heat eig u m cp k r = Some (a, b) /\ m_outlet eig u m cp k r = Some (c, d)
    /\ m_heat eig' u (map Ropp m) cp k r = Some (a', b') /\ m_outlet eig' u (map Ropp m) cp k r = Some (c', d')
    /\ (forall l j, (l < k)%nat -> (j < k)%nat -> b' l j = b j l)
    /\ (forall l o, (l < k)%nat -> (o < n_inlets u)%nat -> a' l o = - (rate o * d o l) /\ a l o = - (rate o * d' o l))
    /\ (forall o p, (o < n_inlets u)%nat -> (p < n_inlets u)%nat -> rate o * c o p = rate p * c' p o).
Proof.
  intros eig eig' u m cp k r Us V P HP SS EO EO' rate.
  pose proof (fun Tin Sin Tb Sb => C154_reciprocal eig eig' u m cp k r Tin Sin Tb Sb Us V P HP SS EO EO') as X.
  unfold q_heat, q_outlet in X. fold rate in X.
  destruct (m_heat eig u m cp k r) as [[a b]|] eqn:E1; [|destruct (X (fun _ => 0) (fun _ => 0) (fun _ => 0) (fun _ => 0)) as (? & ? & ? & ? & _ & Q & _); discriminate].
  destruct (m_outlet eig u m cp k r) as [[c d]|] eqn:E2; [|destruct (X (fun _ => 0) (fun _ => 0) (fun _ => 0) (fun _ => 0)) as (? & ? & ? & ? & Q & _); discriminate].
  destruct (m_heat eig' u (map Ropp m) cp k r) as [[a' b']|] eqn:E3; [|destruct (X (fun _ => 0) (fun _ => 0) (fun _ => 0) (fun _ => 0)) as (? & ? & ? & ? & _ & _ & _ & Q & _); discriminate].
  destruct (m_outlet eig' u (map Ropp m) cp k r) as [[c' d']|] eqn:E4; [|destruct (X (fun _ => 0) (fun _ => 0) (fun _ => 0) (fun _ => 0)) as (? & ? & ? & ? & _ & _ & Q & _); discriminate].
  exists a, b, c, d, a', b', c', d'. repeat (split; [reflexivity|]).
  assert (Y : forall Tin Sin Tb Sb,
    sumn k (fun l => Sb l * apply2 u k (a, b) Tin Tb l) - sumn k (fun l => Tb l * apply2 u k (a', b') Sin Sb l)
    = sumn (n_inlets u) (fun o => rate o * (apply2 u k (c, d) Tin Tb o * Sin o - Tin o * apply2 u k (c', d') Sin Sb o))).
  { intros Tin Sin Tb Sb. destruct (X Tin Sin Tb Sb) as (? & ? & ? & ? & Q1 & Q2 & Q3 & Q4 & Q). cbn [option_map] in *.
    injection Q1 as <-. injection Q2 as <-. injection Q3 as <-. injection Q4 as <-. exact Q. }
  clear X. unfold apply2 in Y. cbn [fst snd] in Y. split; [|split].
  - intros l j Hl Hj. specialize (Y (fun _ => 0) (fun _ => 0) (fun i => if Nat.eqb i l then 1 else 0) (fun i => if Nat.eqb i j then 1 else 0)). cbv beta in Y.
    rewrite !pick' in Y by auto. rewrite !none, !pick in Y by auto.
    rewrite (sumn_zero (n_inlets u)) in Y by (intros; ring). lra.
  - intros l o Hl Ho. split.
    + specialize (Y (fun _ => 0) (fun i => if Nat.eqb i o then 1 else 0) (fun i => if Nat.eqb i l then 1 else 0) (fun _ => 0)). cbv beta in Y.
      rewrite none', pick' in Y by auto. rewrite pick, none in Y by auto.
      rewrite (sumn_ext (n_inlets u) _ (fun i => (rate i * d i l) * (if Nat.eqb i o then 1 else 0))) in Y.
      * rewrite pick in Y by auto. lra.
      * intros i Hi. rewrite none, pick by auto. ring.
    + specialize (Y (fun i => if Nat.eqb i o then 1 else 0) (fun _ => 0) (fun _ => 0) (fun i => if Nat.eqb i l then 1 else 0)). cbv beta in Y.
      rewrite none', pick' in Y by auto. rewrite pick, none in Y by auto.
      rewrite (sumn_ext (n_inlets u) _ (fun i => - (rate i * d' i l) * (if Nat.eqb i o then 1 else 0))) in Y.
      * rewrite pick in Y by auto. lra.
      * intros i Hi. rewrite (none (n_inlets u)), (pick k l) by auto. ring.
  - intros o p Ho Hp. specialize (Y (fun i => if Nat.eqb i p then 1 else 0) (fun i => if Nat.eqb i o then 1 else 0) (fun _ => 0) (fun _ => 0)). cbv beta in Y.
    rewrite !none' in Y.
    rewrite (sumn_ext (n_inlets u) _ (fun i => (rate i * c i p) * (if Nat.eqb i o then 1 else 0) - (rate i * c' i o) * (if Nat.eqb i p then 1 else 0))) in Y.
    + rewrite sumn_minus, !pick in Y by auto. lra.
    + intros i Hi. rewrite !none, !pick by auto. ring.
Qed.
Print Assumptions C154_transposed.

(** Two U-tubes in parallel, in series or on separate circuits, with three segments *)
Example C154_example : forall q,
  usable (two_tubes q true) (two_flow q 1) (1 :: nil) /\ x_reversible (two_tubes q true) = true /\ passive_circuit (two_tubes q true)
  /\ 0 < bH (x_b (two_tubes q true)) /\ segment_shares 3 (Some (1/2 :: 1/3 :: 1/6 :: nil))
  /\ eig_ok ex_eig (two_tubes q true) (two_flow q 1) (1 :: nil) /\ eig_ok ex_eig (two_tubes q true) (map Ropp (two_flow q 1)) (1 :: nil).
Proof.
  intros q. split; [apply two_usable; auto|]. split; [reflexivity|]. split; [apply positive_passive, two_positive|]. split; [cbn; lra|]. split; [exact ex_shares|].
  split; [apply two_eig; auto|]. replace (map Ropp (two_flow q 1)) with (two_flow q (-1)) by (destruct q; cbn; repeat f_equal; ring). apply two_eig; auto.
Qed.

(** A borehole that looks the same from its outlet is its own reciprocal. *)
Theorem C155_reciprocal : forall eig u x c k r Tin Sin Tb Sb,
  x_kind u <> Separate -> (0 < x_n u)%nat -> 0 < x -> 0 < c -> passive_circuit u -> 0 < bH (x_b u) -> segment_shares k r ->
  (forall p q, (p < 2 * x_n u)%nat -> (q < 2 * x_n u)%nat -> x_Rd u (2 * x_n u - 1 - p)%nat (2 * x_n u - 1 - q)%nat = x_Rd u p q) ->
  eig_ok eig u (x :: nil) (c :: nil) ->
  exists out h out' h', q_outlet eig u Tin k Tb (x :: nil) (c :: nil) r = Some out /\ q_heat eig u Tin k Tb (x :: nil) (c :: nil) r = Some h
    /\ q_outlet eig u Sin k Sb (x :: nil) (c :: nil) r = Some out' /\ q_heat eig u Sin k Sb (x :: nil) (c :: nil) r = Some h'
    /\ sumn k (fun l => Sb l * h l) - sumn k (fun l => Tb l * h' l) = x * c * (out O * Sin O - Tin O * out' O).
Proof.
  intros eig u x c k r Tin Sin Tb Sb K Hn Hx Hc P HP SS Sy EO.
  assert (In : n_inlets u = 1%nat) by (unfold n_inlets; destruct (x_kind u); congruence).
  assert (Us : usable u (x :: nil) (c :: nil)).
  { repeat split; auto; try (rewrite In; auto); intros; assert (i = O) by lia; subst; cbn; lra. }
  assert (Rm : reversals_meant u (x :: nil)) by (right; rewrite In; intros i Hi; assert (i = O) by lia; subst; cbn; lra).
  destruct (solved eig u _ _ k r Us Rm P HP SS EO Tin Tb) as (T & F & _ & _ & (o & Eo & Ho) & (h & Eh & Hh)).
  destruct (solved eig u _ _ k r Us Rm P HP SS EO Sin Sb) as (S & F' & _ & _ & (o' & Eo' & Ho') & (h' & Eh' & Hh')).
  exists o, h, o', h'. repeat (split; [assumption|]).
  destruct (mirror_back u x c k r K Hn Hx Sy Sin Sb S F') as (B1 & B2 & B3).
  rewrite (sumn_ext k (fun l => Sb l * h l) _ (fun l Hl => f_equal (Rmult (Sb l)) (Hh l Hl))).
  rewrite (sumn_ext k (fun l => Tb l * h' l) (fun l => Tb l * leg_heat u (back (x :: nil)) (c :: nil) k r (fun p => S (opposite (x_n u) p)) l))
    by (intros l Hl; rewrite Hh' by auto; cbn [back map]; rewrite B2; reflexivity).
  rewrite (profiles_cross u (x :: nil) (c :: nil) Us k r P HP SS Tin Sin Tb Sb T _ F B1). rewrite In. cbn [sumn]. rewrite Rplus_0_l.
  cbn [back map]. rewrite B3, Ho, Ho' by (rewrite In; auto). unfold inlet_rate. cbn [nth capacity_at]. rewrite Rabs_pos_eq by lra. reflexivity.
Qed.
Print Assumptions C155_reciprocal.

(** The heat taken at segment l for one degree at the wall of segment j is the heat taken at
    segment j for one degree at the wall of segment l; the heat taken for one degree at the
    inlet follows from the share of the wall temperatures in the outlet temperature. *)
Theorem C155_symmetric : forall eig u x c k r,
  x_kind u <> Separate -> (0 < x_n u)%nat -> 0 < x -> 0 < c -> passive_circuit u -> 0 < bH (x_b u) -> segment_shares k r ->
  (forall p q, (p < 2 * x_n u)%nat -> (q < 2 * x_n u)%nat -> x_Rd u (2 * x_n u - 1 - p)%nat (2 * x_n u - 1 - q)%nat = x_Rd u p q) ->
  eig_ok eig u (x :: nil) (c :: nil) ->
  exists a b o d, m_heat eig u (x :: nil) (c :: nil) k r = Some (a, b) /\ m_outlet eig u (x :: nil) (c :: nil) k r = Some (o, d)
    /\ (forall l j, (l < k)%nat -> (j < k)%nat -> b l j = b j l)
    /\ (forall l, (l < k)%nat -> a l O = - (x * c * d O l)).
Proof.
  intros eig u x c k r K Hn Hx Hc P HP SS Sy EO.
  assert (In : n_inlets u = 1%nat) by (unfold n_inlets; destruct (x_kind u); congruence).
  pose proof (fun Tin Sin Tb Sb => C155_reciprocal eig u x c k r Tin Sin Tb Sb K Hn Hx Hc P HP SS Sy EO) as X. unfold q_heat, q_outlet in X.
  destruct (m_heat eig u (x :: nil) (c :: nil) k r) as [[a b]|] eqn:E1; [|destruct (X (fun _ => 0) (fun _ => 0) (fun _ => 0) (fun _ => 0)) as (? & ? & ? & ? & _ & Q & _); discriminate].
  destruct (m_outlet eig u (x :: nil) (c :: nil) k r) as [[o d]|] eqn:E2; [|destruct (X (fun _ => 0) (fun _ => 0) (fun _ => 0) (fun _ => 0)) as (? & ? & ? & ? & Q & _); discriminate].
  exists a, b, o, d. repeat (split; [reflexivity|]).
  assert (Y : forall Tin Sin Tb Sb,
    sumn k (fun l => Sb l * apply2 u k (a, b) Tin Tb l) - sumn k (fun l => Tb l * apply2 u k (a, b) Sin Sb l)
    = x * c * (apply2 u k (o, d) Tin Tb O * Sin O - Tin O * apply2 u k (o, d) Sin Sb O)).
  { intros Tin Sin Tb Sb. destruct (X Tin Sin Tb Sb) as (? & ? & ? & ? & Q1 & Q2 & Q3 & Q4 & Q). cbn [option_map] in *.
    injection Q1 as <-. injection Q2 as <-. injection Q3 as <-. injection Q4 as <-. exact Q. }
  clear X. unfold apply2 in Y. rewrite In in Y. cbn [fst snd sumn] in Y. split.
  - intros l j Hl Hj. specialize (Y (fun _ => 0) (fun _ => 0) (fun i => if Nat.eqb i l then 1 else 0) (fun i => if Nat.eqb i j then 1 else 0)). cbv beta in Y.
    rewrite !pick' in Y by auto. rewrite !pick in Y by auto. lra.
  - intros l Hl. specialize (Y (fun _ => 1) (fun _ => 0) (fun _ => 0) (fun i => if Nat.eqb i l then 1 else 0)). cbv beta in Y.
    rewrite none', pick' in Y by auto. rewrite none, (pick k l) in Y by auto. lra.
Qed.
Print Assumptions C155_symmetric.

(** Two U-tubes in parallel or in series in a square *)
Example C155_example : forall q, q <> Separate -> let u := two_tubes q false in
  x_kind u <> Separate /\ passive_circuit u /\ 0 < bH (x_b u)
  /\ (forall i j, (i < 2 * x_n u)%nat -> (j < 2 * x_n u)%nat -> x_Rd u (2 * x_n u - 1 - i)%nat (2 * x_n u - 1 - j)%nat = x_Rd u i j)
  /\ exists y, 0 < y /\ eig_ok ex_eig u (y :: nil) (1 :: nil).
Proof.
  intros q Hq u. split; [exact Hq|]. split; [apply positive_passive, two_positive|]. split; [cbn; lra|]. split.
  - intros i j Hi Hj. cbn in Hi, Hj |- *. destruct i as [|[|[|[|i]]]]; try lia; destruct j as [|[|[|[|j]]]]; try lia; reflexivity.
  - pose proof (two_eig q false 1 (or_introl eq_refl)) as E. destruct q; cbn [two_flow] in E; [exists (2 * 1)|exists 1|congruence]; (split; [lra|exact E]).
Qed.
