(** The resistance matrix of a cross-section is positive. *)
From Coq Require Import Reals Lra Lia List Bool PeanoNat.
From Verif Require Import Base LinAlg LinInv Bore_Model Net_Model Pipe_Model Res_Model Res_Spec Res_Proofs Def_Psd_Proofs Cross_Kernel_Proofs Cross_Psd_Proofs Cross_Spec.
From Coquelicot Require Import Coquelicot.
Local Open Scope R_scope.

Definition unit_z (a : rargs) (i : nat) : C := (p_x a i / a_rb a, p_y a i / a_rb a).
Definition unit_r (a : rargs) (i : nat) : R := nth i (a_rout a) 0 / a_rb a.
Definition image (a : rargs) (i j : nat) : R := - ln (Cmod (RtoC 1 - unit_z a i * Cconj (unit_z a j))%C).

Section Fit.
  Variable a : rargs.
  Hypothesis F : pipes_fit a.
  Local Notation n := (length (a_pos a)).

  Lemma rb_pos : 0 < a_rb a. Proof. apply F. Qed.
  Lemma mod_scaled x y : Cmod (x / a_rb a, y / a_rb a) = sqrt (x ^ 2 + y ^ 2) / a_rb a.
  Proof.
    pose proof rb_pos as P. unfold Cmod. cbn [fst snd]. replace ((x / a_rb a) ^ 2 + (y / a_rb a) ^ 2) with ((x ^ 2 + y ^ 2) / a_rb a ^ 2) by (field; lra).
    rewrite sqrt_div_alt by (apply pow_lt; auto). rewrite sqrt_pow2 by lra. reflexivity.
  Qed.
  Lemma mod_z i : Cmod (unit_z a i) = sqrt (p_x a i ^ 2 + p_y a i ^ 2) / a_rb a.
  Proof. apply mod_scaled. Qed.
  Lemma mod_zz i j : Cmod (unit_z a i - unit_z a j)%C = sqrt ((p_x a i - p_x a j) ^ 2 + (p_y a i - p_y a j) ^ 2) / a_rb a.
  Proof. pose proof rb_pos as P. rewrite <- mod_scaled. f_equal. unfold unit_z, Cminus, Cplus, Copp. cbn. f_equal; field; lra. Qed.

  Lemma unit_fit : (forall m, (m < n)%nat -> 0 < unit_r a m) /\ (forall m, (m < n)%nat -> Cmod (unit_z a m) + unit_r a m <= 1)
    /\ (forall m k, (m < n)%nat -> (k < n)%nat -> m <> k -> unit_r a m + unit_r a k <= Cmod (unit_z a m - unit_z a k)%C).
  Proof.
    pose proof rb_pos as P. destruct F as (_ & _ & _ & _ & _ & G & S). assert (Pi : 0 < / a_rb a) by (apply Rinv_0_lt_compat; auto). split; [|split].
    - intros m Hm. apply Rdiv_lt_0_compat; auto. apply G; auto.
    - intros m Hm. rewrite mod_z. destruct (G m Hm) as (_ & _ & L). unfold unit_r, Rdiv. rewrite <- Rmult_plus_distr_r. apply (Rmult_le_reg_r (a_rb a)); auto. rewrite Rmult_assoc, Rinv_l by lra. lra.
    - intros m k Hm Hk Ne. rewrite mod_zz. unfold unit_r, Rdiv. rewrite <- Rmult_plus_distr_r. apply Rmult_le_compat_r; [lra|]. apply S; auto.
  Qed.
  Lemma z_inside i : (i < n)%nat -> Cmod (unit_z a i) < 1.
  Proof. intros Hi. destruct unit_fit as (A & B & _). specialize (A i Hi). specialize (B i Hi). lra. Qed.

  Lemma circles : psd n (circle_potential (unit_z a) (unit_r a)).
  Proof. destruct unit_fit as (A & B & D). apply circles_touching; auto. Qed.
  Lemma images : psd n (image a).
  Proof. apply psd_image. intros; apply z_inside; auto. Qed.

  Lemma image_diag i : (i < n)%nat -> image a i i = - ln (1 - Cmod (unit_z a i) ^ 2).
  Proof.
    intros Hi. pose proof (z_inside i Hi). pose proof (Cmod_ge_0 (unit_z a i)). unfold image. do 2 f_equal.
    rewrite <- (Rabs_pos_eq (1 - Cmod (unit_z a i) ^ 2)) by nra. rewrite <- Cmod_R. f_equal. rewrite RtoC_minus. f_equal. destruct (unit_z a i) as [x y]. unfold Cmod. rewrite pow2_sqrt by (apply Rplus_le_le_0_compat; apply pow2_ge_0).
    unfold RtoC, Cmult, Cconj. cbn. f_equal; ring.
  Qed.

  Lemma entries i j : (i < n)%nat -> (j < n)%nat ->
    line_source a i j = (1 / (2 * PI * a_kg a) * circle_potential (unit_z a) (unit_r a) i j + 1 / (PI * (a_kg a + a_ks a)) * image a i j)
      + (if Nat.eqb i j then nth i (a_Rfp a) 0 else 0).
  Proof.
    intros Hi Hj. pose proof F as (_ & _ & Rb & Ks & Kg & G & S). pose proof PI_RGT_0 as Hpi.
    assert (Sg : 1 / (PI * (a_kg a + a_ks a)) = 1 / (2 * PI * a_kg a) * (1 + ls_sigma a)) by (unfold ls_sigma; field; repeat split; nra).
    rewrite Sg. unfold line_source, circle_potential. destruct (Nat.eqb_spec i j) as [<-|Ne].
    - rewrite image_diag by auto. rewrite mod_z. unfold unit_r. destruct (G i Hi) as (Ro & _). rewrite (ln_inv_div (a_rb a)) by auto.
      replace ((sqrt (p_x a i ^ 2 + p_y a i ^ 2) / a_rb a) ^ 2) with (sqrt (p_x a i ^ 2 + p_y a i ^ 2) ^ 2 / a_rb a ^ 2) by (field; lra). ring.
    - unfold image. rewrite mod_zz. set (d := sqrt ((1 - _) * _ + _)). replace d with (Cmod (RtoC 1 - unit_z a i * Cconj (unit_z a j))%C); [unfold Rdiv; ring|].
      unfold d. rewrite <- (sqrt_pow2 (Cmod (RtoC 1 - unit_z a i * Cconj (unit_z a j))%C)) by apply Cmod_ge_0. f_equal. rewrite disk_identity, mod_zz, !mod_z. field. lra.
  Qed.

  Lemma work q : form n (line_source a) q = 1 / (2 * PI * a_kg a) * form n (circle_potential (unit_z a) (unit_r a)) q
    + 1 / (PI * (a_kg a + a_ks a)) * form n (image a) q + sumn n (fun i => nth i (a_Rfp a) 0 * q i ^ 2).
  Proof.
    rewrite (form_ext n _ (fun i j => (1 / (2 * PI * a_kg a) * circle_potential (unit_z a) (unit_r a) i j + 1 / (PI * (a_kg a + a_ks a)) * image a i j)
      + (if Nat.eqb i j then nth i (a_Rfp a) 0 else 0))) by (intros; apply entries; auto).
    rewrite form_plus. rewrite (form_plus n (fun i j => 1 / (2 * PI * a_kg a) * circle_potential (unit_z a) (unit_r a) i j)), !form_scal. f_equal.
    unfold form. apply sumn_ext. intros i Hi. rewrite (sumn_single n i); [rewrite Nat.eqb_refl; ring|auto|]. intros j _ Ne. destruct (Nat.eqb_spec i j); [congruence|ring].
  Qed.

  Lemma work_pos q : some_flow n q -> 0 < form n (line_source a) q.
  Proof.
    intros (i & Hi & Hq). pose proof F as (_ & _ & _ & Ks & Kg & G & _). pose proof PI_RGT_0. rewrite work. pose proof (circles q) as A. pose proof (images q) as B.
    assert (0 < 1 / (2 * PI * a_kg a)) by (apply Rdiv_lt_0_compat; [lra|apply Rmult_lt_0_compat; lra]). assert (0 < 1 / (PI * (a_kg a + a_ks a))) by (apply Rdiv_lt_0_compat; [lra|apply Rmult_lt_0_compat; lra]).
    assert (0 < sumn n (fun i => nth i (a_Rfp a) 0 * q i ^ 2)); [|nra].
    apply Rlt_le_trans with (nth i (a_Rfp a) 0 * q i ^ 2).
    - apply Rmult_lt_0_compat; [apply G; auto|nra].
    - apply Rle_trans with (sumn n (fun k => if Nat.eqb k i then nth i (a_Rfp a) 0 * q i ^ 2 else 0)).
      + rewrite (sumn_single n i); [rewrite Nat.eqb_refl; lra|auto|]. intros k _ Ne. destruct (Nat.eqb_spec k i); [contradiction|auto].
      + apply sumn_le. intros k Hk. destruct (Nat.eqb_spec k i) as [->|]; [lra|]. apply Rmult_le_pos; [left; apply G; auto|apply pow2_ge_0].
  Qed.
End Fit.

Lemma lost_work_form n M q : lost_work n M q = form n M q.
Proof. unfold lost_work, form. apply sumn_ext. intros i _. rewrite <- sumn_scal. apply sumn_ext. intros j _. ring. Qed.

Lemma all_or_some n (q : nat -> R) : some_flow n q \/ forall i, (i < n)%nat -> q i = 0.
Proof.
  induction n; [right; intros; lia|]. destruct IHn as [(i & Hi & Q)|Z]; [left; exists i; split; auto; lia|].
  destruct (Req_dec (q n) 0) as [E|E]; [|left; exists n; split; auto]. right. intros i Hi. destruct (Nat.eq_dec i n) as [->|]; auto. apply Z. lia.
Qed.

(** Circuits of positive matrices *)
Section Positive.
  Variables (n : nat) (M : Mx).
  Hypothesis Sy : forall i j, (i < n)%nat -> (j < n)%nat -> M i j = M j i.
  Hypothesis Po : forall q, some_flow n q -> 0 < form n M q.

  Lemma form_nonneg q : 0 <= form n M q.
  Proof. destruct (all_or_some n q) as [S|Z]; [left; auto|]. right. symmetry. unfold form. rewrite (sumn_ext n _ (fun _ => 0)); [rewrite sumn_const; ring|]. intros i Hi. rewrite (sumn_ext n _ (fun _ => 0)); [rewrite sumn_const; ring|]. intros j Hj. rewrite (Z i Hi). ring. Qed.

  Lemma positive_nonsingular : nonsingular n M.
  Proof.
    intros x E i Hi. destruct (all_or_some n x) as [S|Z]; auto. apply Po in S. rewrite <- lost_work_form in S. unfold lost_work in S.
    rewrite (sumn_ext n _ (fun _ => 0)) in S by (intros k Hk; rewrite E by auto; ring). rewrite sumn_const in S. lra.
  Qed.

  Lemma positive_circuit_exists : exists Rd, delta_circuit n M = Some Rd.
  Proof. destruct (lin_solve_mx_some n M id_mx positive_nonsingular) as [X E]. unfold delta_circuit, inv_mx. rewrite E. eauto. Qed.

  Variable Rd : nat -> nat -> xres.
  Hypothesis E : delta_circuit n M = Some Rd.

  Lemma circuit_work T Tb : (exists i, (i < n)%nat /\ T i <> Tb) -> 0 < sumn n (fun i => (T i - Tb) * circuit_flow n Rd T Tb i).
  Proof.
    intros (i & Hi & N). destruct (delta_exists n M Rd E T Tb) as [q Q]. assert (S : some_flow n q).
    { destruct (all_or_some n q) as [S|Z]; auto. exfalso. apply N. specialize (Q i Hi). rewrite (sumn_ext n _ (fun _ => 0)) in Q by (intros k Hk; rewrite Z by auto; ring). rewrite sumn_const in Q. lra. }
    apply Po in S. rewrite <- lost_work_form in S. unfold lost_work in S. erewrite sumn_ext; [exact S|]. intros k Hk. rewrite <- (delta_flow n M Rd E T Tb q k Q Hk), (Q k Hk). apply Rmult_comm.
  Qed.

  (** Heat flows at fluid temperatures of one *)
  Lemma unit_solution : exists q, flows_of n M (fun _ => 1) 0 q /\ sumn n q = sumn n (fun i => over (Rd i i) 1) /\ form n M q = sumn n q.
  Proof.
    destruct (delta_exists n M Rd E (fun _ => 1) 0) as [q Q]. exists q. split; auto. split.
    - rewrite (wall_flow n M Rd E _ _ _ Sy Q). apply sumn_ext. intros i _. rewrite over_cond1. ring.
    - rewrite <- lost_work_form. unfold lost_work. apply sumn_ext. intros i Hi. rewrite (Q i Hi). ring.
  Qed.

  Lemma conductance_pos : (0 < n)%nat -> 0 < sumn n (fun i => over (Rd i i) 1).
  Proof.
    intros Hn. destruct unit_solution as (q & Q & <- & <-). apply Po. destruct (all_or_some n q) as [S|Z]; auto. exfalso. specialize (Q 0%nat Hn). rewrite (sumn_ext n _ (fun _ => 0)) in Q by (intros k Hk; rewrite Z by auto; ring). rewrite sumn_const in Q. lra.
  Qed.

  Lemma form_sub x u c : form n M (fun i => x i - c * u i) = form n M x - 2 * c * sumn n (fun i => x i * sumn n (fun j => M i j * u j)) + c ^ 2 * form n M u.
  Proof.
    assert (X : form n M (fun i => x i - c * u i) = form n M x - c * sumn n (fun i => sumn n (fun j => x i * u j * M i j)) - c * sumn n (fun i => sumn n (fun j => u i * x j * M i j)) + c ^ 2 * form n M u).
    { unfold form. rewrite <- !sumn_scal, <- !sumn_minus, <- sumn_plus. apply sumn_ext. intros i Hi. cbv beta. rewrite <- !sumn_scal, <- !sumn_minus, <- sumn_plus. apply sumn_ext. intros j Hj. ring. }
    rewrite X. rewrite (sumn_swap n n (fun i j => u i * x j * M i j)).
    assert (A : sumn n (fun i => sumn n (fun j => x i * u j * M i j)) = sumn n (fun i => x i * sumn n (fun j => M i j * u j))) by (apply sumn_ext; intros i Hi; rewrite <- sumn_scal; apply sumn_ext; intros j Hj; ring).
    assert (B : sumn n (fun j => sumn n (fun i => u i * x j * M i j)) = sumn n (fun i => x i * sumn n (fun j => M i j * u j))) by (apply sumn_ext; intros i Hi; rewrite <- sumn_scal; apply sumn_ext; intros j Hj; rewrite (Sy j i) by auto; ring).
    rewrite A, B. ring.
  Qed.

  (** Thomson's principle: the flows of equal temperatures lose the least work. *)
  Lemma least_work q : (0 < n)%nat -> sumn n q = 1 -> local_resistance n Rd <= form n M q.
  Proof.
    intros Hn S. pose proof (conductance_pos Hn) as P. destruct unit_solution as (u & Q & Su & Fu). unfold local_resistance. set (s := sumn n (fun i => over (Rd i i) 1)) in *.
    pose proof (form_nonneg (fun i => q i - / s * u i)) as N. rewrite form_sub, Fu, Su in N.
    rewrite (sumn_ext n (fun i => q i * sumn n (fun j => M i j * u j)) q) in N by (intros i Hi; rewrite (Q i Hi); ring). rewrite S in N.
    replace (form n M q - 2 * / s * 1 + (/ s) ^ 2 * s) with (form n M q - 1 / s) in N by (field; lra). lra.
  Qed.

  Lemma least_flow : (0 < n)%nat -> exists q, sumn n q = 1 /\ form n M q = local_resistance n Rd.
  Proof.
    intros Hn. pose proof (conductance_pos Hn) as P. destruct unit_solution as (u & Q & Su & Fu). unfold local_resistance. set (s := sumn n (fun i => over (Rd i i) 1)) in *.
    exists (fun i => / s * u i). split; [rewrite sumn_scal, Su; field; lra|].
    replace (form n M (fun i => / s * u i)) with ((/ s) ^ 2 * form n M u); [rewrite Fu, Su; field; lra|].
    unfold form. rewrite <- sumn_scal. apply sumn_ext. intros i Hi. rewrite <- sumn_scal. apply sumn_ext. intros j Hj. ring.
  Qed.
End Positive.

(** The resistances of a cross-section *)
Section Resistances.
  Variable a : rargs.
  Hypothesis F : pipes_fit a.
  Hypothesis J0 : a_J a = 0%nat.
  Local Notation n := (length (a_pos a)).

  Lemma matrix_is : resistance_matrix a = line_source a.
  Proof. unfold resistance_matrix. rewrite J0. reflexivity. Qed.
  Lemma resistances_are Rm Rd : thermal_resistances a = Some (Rm, Rd) -> Rm = line_source a /\ delta_circuit n (line_source a) = Some Rd.
  Proof. unfold thermal_resistances. rewrite matrix_is. destruct (delta_circuit n (line_source a)) as [D|]; [|discriminate]. intros E. injection E as <- <-. auto. Qed.
  Lemma resistances_exist : exists Rm Rd, thermal_resistances a = Some (Rm, Rd).
  Proof. destruct (positive_circuit_exists n (line_source a) (work_pos a F)) as [Rd E]. exists (line_source a), Rd. unfold thermal_resistances. rewrite matrix_is, E. reflexivity. Qed.
End Resistances.

(** More pipes, larger pipes, better conductors *)
Lemma sumn_more k n f : (k <= n)%nat -> (forall i, (k <= i < n)%nat -> f i = 0) -> sumn n f = sumn k f.
Proof.
  intros H Z. replace n with (k + (n - k))%nat by lia. rewrite sumn_split. rewrite (sumn_ext (n - k) _ (fun _ => 0)) by (intros i Hi; apply Z; lia). rewrite sumn_const. ring.
Qed.
Lemma form_more k n M q : (k <= n)%nat -> (forall i, (k <= i)%nat -> q i = 0) -> form n M q = form k M q.
Proof.
  intros H Z. unfold form. rewrite (sumn_more k n) by (auto; intros i Hi; rewrite (sumn_ext n _ (fun _ => 0)) by (intros; rewrite (Z i) by lia; ring); rewrite sumn_const; ring).
  apply sumn_ext. intros i Hi. apply sumn_more; auto. intros j Hj. rewrite (Z j) by lia. ring.
Qed.

Lemma compare a b q : pipes_fit a -> pipes_fit b -> conducts_better a b -> form (length (a_pos a)) (line_source b) q <= form (length (a_pos a)) (line_source a) q.
Proof.
  intros A B (P & Rb & Ks & Kg & G). set (n := length (a_pos a)) in *.
  assert (L : (n <= length (a_pos b))%nat). { pose proof (f_equal (@length _) P) as Q. rewrite firstn_length in Q. fold n in Q. lia. }
  set (c := mkrargs (a_pos a) (firstn n (a_rout b)) (a_rb b) (a_ks b) (a_kg b) (firstn n (a_Rfp b)) (a_J b)).
  assert (Nf : forall A (l : list A) d i, (i < n)%nat -> nth i (firstn n l) d = nth i l d).
  { intros T l d i Hi. rewrite <- (firstn_skipn n l) at 2. destruct (Nat.lt_ge_cases i (length (firstn n l))) as [Q|Q]; [rewrite app_nth1; auto|]. rewrite firstn_length in Q. rewrite nth_overflow by (rewrite firstn_length; lia).
    rewrite firstn_skipn. rewrite nth_overflow; [auto|lia]. }
  assert (Px : forall i, (i < n)%nat -> nth i (a_pos a) (0, 0) = nth i (a_pos b) (0, 0)) by (intros i Hi; rewrite P; apply Nf; auto).
  assert (Fc : pipes_fit c).
  { destruct B as (B1 & B2 & B3 & B4 & B5 & B6 & B7). unfold pipes_fit, c. cbn [a_pos a_rout a_rb a_ks a_kg a_Rfp]. fold n. rewrite !firstn_length. split; [lia|]. split; [lia|]. split; [auto|]. split; [auto|]. split; [auto|]. split.
    - intros i Hi. rewrite !Nf by auto. unfold p_x, p_y. cbn [a_pos]. rewrite (Px i Hi). apply B6. lia.
    - intros i j Hi Hj Ne. rewrite !Nf by auto. unfold p_x, p_y. cbn [a_pos]. rewrite (Px i Hi), (Px j Hj). apply B7; auto; lia. }
  assert (Ec : form n (line_source b) q = form n (line_source c) q).
  { apply form_ext. intros i j Hi Hj. unfold line_source, c, p_x, p_y, ls_sigma. cbn [a_pos a_rout a_rb a_ks a_kg a_Rfp]. rewrite !Nf by auto. rewrite (Px i Hi), (Px j Hj). reflexivity. }
  rewrite Ec. clear Ec. pose proof (work c Fc q) as Wc. pose proof (work a A q) as Wa. change (length (a_pos c)) with n in Wc. fold n in Wa. rewrite Wc, Wa. clear Wc Wa.
  pose proof A as (_ & _ & A3 & A4 & A5 & A6 & _). pose proof PI_RGT_0 as Hpi.
  assert (Uz : forall i, unit_z c i = unit_z a i) by (intros i; unfold unit_z, p_x, p_y, c; cbn [a_pos a_rb]; rewrite Rb; auto).
  assert (Im : form n (image c) q = form n (image a) q) by (apply form_ext; intros i j Hi Hj; unfold image; rewrite !Uz; auto).
  assert (Ci : form n (circle_potential (unit_z c) (unit_r c)) q <= form n (circle_potential (unit_z a) (unit_r a)) q).
  { unfold form. apply sumn_le. intros i Hi. apply sumn_le. intros j Hj. unfold circle_potential. rewrite !Uz. destruct (Nat.eqb_spec i j) as [<-|]; [|lra].
    assert (ln (unit_r a i) <= ln (unit_r c i)); [|nra]. destruct (G i Hi) as [G1 _]. destruct (A6 i Hi) as (G2 & _).
    assert (unit_r a i <= unit_r c i). { unfold unit_r, c. cbn [a_rout a_rb]. rewrite Nf by auto. rewrite <- Rb. apply Rmult_le_compat_r; [left; apply Rinv_0_lt_compat; auto|auto]. }
    assert (0 < unit_r a i) by (apply Rdiv_lt_0_compat; auto). destruct (Req_dec (unit_r a i) (unit_r c i)) as [->|]; [lra|]. left. apply ln_increasing; lra. }
  pose proof (circles c Fc q) as C0. pose proof (images a A q) as I0. change (length (a_pos c)) with n in C0. fold n in I0.
  change (a_kg c) with (a_kg b). change (a_ks c) with (a_ks b). rewrite Im.
  assert (K1 : 0 < 1 / (2 * PI * a_kg b) <= 1 / (2 * PI * a_kg a)).
  { unfold Rdiv. rewrite !Rmult_1_l. split; [apply Rinv_0_lt_compat; apply Rmult_lt_0_compat; lra|]. apply Rinv_le_contravar; [apply Rmult_lt_0_compat; lra|]. apply Rmult_le_compat_l; lra. }
  assert (K2 : 0 < 1 / (PI * (a_kg b + a_ks b)) <= 1 / (PI * (a_kg a + a_ks a))).
  { unfold Rdiv. rewrite !Rmult_1_l. split; [apply Rinv_0_lt_compat; apply Rmult_lt_0_compat; lra|]. apply Rinv_le_contravar; [apply Rmult_lt_0_compat; lra|]. apply Rmult_le_compat_l; lra. }
  assert (S : sumn n (fun i => nth i (a_Rfp c) 0 * q i ^ 2) <= sumn n (fun i => nth i (a_Rfp a) 0 * q i ^ 2)).
  { apply sumn_le. intros i Hi. unfold c. cbn [a_Rfp]. rewrite Nf by auto. apply Rmult_le_compat_r; [apply pow2_ge_0|apply G; auto]. }
  set (x := form n (circle_potential (unit_z c) (unit_r c)) q) in *. set (y := form n (circle_potential (unit_z a) (unit_r a)) q) in *. set (w := form n (image a) q) in *.
  assert (1 / (2 * PI * a_kg b) * x <= 1 / (2 * PI * a_kg a) * y) by (apply Rmult_le_compat; lra).
  assert (1 / (PI * (a_kg b + a_ks b)) * w <= 1 / (PI * (a_kg a + a_ks a)) * w) by (apply Rmult_le_compat_r; lra). lra.
Qed.

Lemma better_resistance a b Rm Rd Rm' Rd' : pipes_fit a -> pipes_fit b -> a_J a = 0%nat -> a_J b = 0%nat -> (0 < length (a_pos a))%nat -> conducts_better a b ->
  thermal_resistances a = Some (Rm, Rd) -> thermal_resistances b = Some (Rm', Rd') ->
  0 < local_resistance (length (a_pos b)) Rd' <= local_resistance (length (a_pos a)) Rd.
Proof.
  intros A B Ja Jb Hn Be Ea Eb. destruct (resistances_are a Ja _ _ Ea) as [-> Da]. destruct (resistances_are b Jb _ _ Eb) as [-> Db].
  assert (L : (length (a_pos a) <= length (a_pos b))%nat). { destruct Be as (P & _). pose proof (f_equal (@length _) P) as Q. rewrite firstn_length in Q. lia. }
  assert (Sy : forall c i j, (i < length (a_pos c))%nat -> (j < length (a_pos c))%nat -> line_source c i j = line_source c j i) by (intros; apply line_source_sym).
  split.
  - unfold local_resistance. apply Rdiv_lt_0_compat; [lra|]. apply (conductance_pos _ _ (Sy b) (work_pos b B) Rd' Db). lia.
  - destruct (least_flow _ _ (Sy a) (work_pos a A) Rd Da Hn) as (q & S & <-). set (n := length (a_pos a)) in *.
    set (q' := fun i => if Nat.ltb i n then q i else 0).
    assert (Q' : forall i, (i < n)%nat -> q' i = q i) by (intros i Hi; unfold q'; rewrite (proj2 (Nat.ltb_lt i n)); auto).
    assert (Z' : forall i, (n <= i)%nat -> q' i = 0) by (intros i Hi; unfold q'; rewrite (proj2 (Nat.ltb_ge i n)); auto).
    apply Rle_trans with (form (length (a_pos b)) (line_source b) q').
    + apply (least_work _ _ (Sy b) (work_pos b B) Rd' Db); [lia|]. rewrite (sumn_more n) by (auto; intros; apply Z'; lia). rewrite <- S. apply sumn_ext. auto.
    + rewrite (form_more n) by auto. replace (form n (line_source b) q') with (form n (line_source b) q) by (unfold form; apply sumn_ext; intros i Hi; apply sumn_ext; intros j Hj; rewrite !Q' by auto; auto).
      apply compare; auto.
Qed.
