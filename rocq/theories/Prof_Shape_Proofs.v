From Coq Require Import String.
From Verif Require Import Base LinAlg FLS_Model.
From Verif Require Import Bore_Model Bore_Proofs Net_Model Net_Spec Solve_Model Solve_Spec Solve_Rec_Proofs Detailed_Model Detailed_Spec Detailed_Proofs Sim_Model Eq_Model GFun_Model GFun_Spec GFun_Eval_Proofs
  Prof_Model Prof_Spec Prof_Proofs Prof_Call_Proofs Prof_Main_Proofs Prof_Field_Proofs Prof_Fig_Proofs Prof_Depth_Proofs.
Local Open Scope string_scope.
Local Open Scope R_scope.

(** Heat extraction rates (true) and temperatures (false) *)
Definition over_time (h : bool) (V : object) := if h then heat_rates V else temperatures V.
Definition over_depth (h : bool) (V : object) (time : option R) := if h then heat_profile V time else temperature_profile V time.
Definition rows_of (h : bool) (V : object) : option (list (list vec)) :=
  match b_stored V with
  | Uniform T => if h then None else Some [T]
  | Wall Q _ => if h then Some [Q] else None
  | Mixed Q T => Some (if h then Q else T)
  end.

Lemma last_at (q : list vec) : last q zero_vec = nth (List.length q - 1) q zero_vec.
Proof.
  induction q as [|a [|b q] IH]; auto. change (last (a :: b :: q) zero_vec) with (last (b :: q) zero_vec). rewrite IH.
  cbn [List.length]. replace (S (S (List.length q)) - 1)%nat with (S (S (List.length q) - 1)) by lia. reflexivity.
Qed.

Section Object.
  Variable V : object.
  Local Notation bs := (b_bores V).
  Local Notation ns := (b_n V).
  Local Notation rs := (b_r V).
  Local Notation nB := (List.length bs).
  Hypothesis Sg : segmented bs ns rs.
  Hypothesis Gr : good_ratios rs.
  Variables (h : bool) (rows : list (list vec)).
  Hypothesis Er : rows_of h V = Some rows.

  Lemma rates_rows i rw : over_time h V i = Some rw -> rw = map (average V i) rows.
  Proof.
    unfold over_time, rows_of, heat_rates, temperatures, there in *. destruct h, (b_stored V); try discriminate Er; injection Er as <-;
      repeat match goal with |- context [if ?b then _ else _] => destruct b end; intros E; try discriminate E; injection E as <-; auto.
  Qed.

  Lemma last_rows i z : over_depth h V None i = Some z -> z = profile V i (map (last_values (own V i)) rows).
  Proof.
    unfold over_depth, rows_of, heat_profile, temperature_profile in *. destruct h, (b_stored V); try discriminate Er; injection Er as <-;
      repeat match goal with |- context [if ?b then _ else _] => destruct b end; intros E; try discriminate E; injection E as <-; auto.
  Qed.

  Lemma at_rows i t z : b_k V = O -> over_depth h V (Some t) i = Some z -> exists vs, Net_Model.all_some (map (values_at V t (own V i)) rows) = Some vs /\ z = profile V i vs.
  Proof.
    intros K. unfold over_depth, rows_of, heat_profile, temperature_profile in *. rewrite K. cbn [Nat.eqb andb].
    destruct h, (b_stored V); try discriminate Er; injection Er as <-; (destruct (Nat.ltb i nB); [|intros E; discriminate E]);
      cbn [map Net_Model.all_some]; try (destruct (values_at _ _ _ _) as [v|]; cbn [option_map]; intros E; [injection E as <-; eauto|discriminate E]);
      destruct (Net_Model.all_some _) as [v|]; cbn [option_map]; intros E; try discriminate E; injection E as <-; eauto.
  Qed.

  Section Curves.
    Variables (i n : nat) (cv pr : curve) (iB iB' : option (list nat)) (ft fp : figure).
    Hypothesis Lt : forall q, In q rows -> List.length q = List.length (b_time V).
    Hypothesis Ft : time_figure V (over_time h V) iB n = Some ft.
    Hypothesis It : In (i, cv) ft.
    Hypothesis Ip : In (i, pr) fp.

    Lemma time_curve : (i < nB)%nat /\ exists q, nth_error rows n = Some q /\ List.length q = List.length (b_time V) /\
      forall p, (p < List.length (b_time V))%nat -> height cv p = sumn (nth i ns O) (fun u => nth p q zero_vec (first ns i + u)%nat * nth u (nth i rs []) 0).
    Proof.
      destruct (time_figure_curves _ _ _ _ _ Ft) as [_ C]. destruct (C i cv It) as [Hi [rw [y [E1 [E2 [E3 E4]]]]]]. split; auto.
      apply rates_rows in E1. subst rw. rewrite nth_error_map in E2. destruct (nth_error rows n) as [q|] eqn:Eq; [|discriminate E2]. cbn in E2. injection E2 as <-.
      exists q. rewrite average_length in E3. repeat split; auto. intros p Hp. rewrite E4, height_combine by (rewrite ?log_length, ?average_length; lia).
      apply average_nth; auto. lia.
    Qed.

    Lemma depth_last : (0 < List.length (b_time V))%nat -> depth_figure V (over_depth h V None) iB' n = Some fp ->
      shows (nth i bs no_bore) (nth i rs []) pr (height cv (List.length (b_time V) - 1)).
    Proof.
      intros Nt Fp. destruct time_curve as [Hi [q [Eq [Lq Hq]]]]. destruct (depth_figure_curves _ _ _ _ _ Fp) as [_ C].
      destruct (C i pr Ip) as [_ [x [rw [y [E1 [E2 [E3 E4]]]]]]]. pose proof (last_rows _ _ E1) as P. symmetry in P.
      destruct (profile_shows V Sg Gr i (last q zero_vec) _ n x rw Hi P) as [y' [F1 [F2 F3]]].
      { rewrite nth_error_map, Eq. reflexivity. }
      rewrite E2 in F1. injection F1 as <-. rewrite E4, Hq by lia. replace (nth (List.length (b_time V) - 1) q zero_vec) with (last q zero_vec); auto.
      rewrite <- Lq. apply last_at.
    Qed.

    Lemma depth_at t p x : b_k V = O -> strictly (b_time V) -> within_step (b_time V) p x t -> depth_figure V (over_depth h V (Some t)) iB' n = Some fp ->
      shows (nth i bs no_bore) (nth i rs []) pr (between cv p x).
    Proof.
      intros K St Ws Fp. destruct time_curve as [Hi [q [Eq [Lq Hq]]]]. destruct (depth_figure_curves _ _ _ _ _ Fp) as [_ C].
      destruct (C i pr Ip) as [_ [z [rw [y [E1 [E2 [E3 E4]]]]]]]. destruct (at_rows _ _ _ K E1) as [vs [F P]]. symmetry in P. apply all_some_F2 in F.
      assert (Ev : nth_error vs n = Some (map (fun k => (1 - x) * nth p q zero_vec k + x * nth (S p) q zero_vec k) (own V i))).
      { destruct (F2_data _ _ _ _ _ F Eq) as [b [B1 B2]]. rewrite B1. rewrite (values_step V t p x _ _ St Ws Lq) in B2. congruence. }
      destruct (profile_shows V Sg Gr i (fun k => (1 - x) * nth p q zero_vec k + x * nth (S p) q zero_vec k) _ n z rw Hi P Ev) as [y' [F1 [F2 F3]]].
      rewrite E2 in F1. injection F1 as <-. rewrite E4. unfold between. destruct Ws as [Hp _]. rewrite !Hq by lia. rewrite <- sum_step. exact F3.
    Qed.
  End Curves.

  (** existence *)
  Lemma depth_some_gen (data : nat -> option (list R * list (list R))) iB n : (forall i, In i (requested V iB) -> (i < nB)%nat /\ exists x rw, data i = Some (x, rw) /\ exists y, nth_error rw n = Some y /\ List.length x = List.length y) ->
    exists fig, depth_figure V data iB n = Some fig.
  Proof.
    intros D. unfold depth_figure. destruct (all_some_ex data (requested V iB)) as [d E].
    { intros i I. destruct (D i I) as (_ & x & rw & E & _). eauto. }
    rewrite E. apply all_some_F2 in E. apply (draw_some nB (requested V iB) data d true n E).
    intros i x rw I Hi F. destruct (D i I) as (_ & x' & rw' & F1 & y & F2 & F3). rewrite F1 in F. injection F as <- <-. exists y. auto.
  Qed.
End Object.
