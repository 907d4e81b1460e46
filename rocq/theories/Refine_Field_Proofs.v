(** evaluate_g_function with other segments: objects and equal segments. *)
From Coq Require Import String Reals Lra Lia List.
From Verif Require Import Base LinAlg FLS_Model.
From Verif Require Import Bore_Model Bore_Spec Field_Model Net_Model Solve_Model Solve_Spec Detailed_Model Detailed_Spec Detailed_Proofs
  Sim_Model Sim_Spec Eq_Model Eq_Spec GFun_Model GFun_Spec Def_Spec Whole_Model Whole_Spec Whole_Proofs Refine_Spec Refine_Proofs.
Import ListNotations.
Local Open Scope R_scope.

Section Options.
Variables (bs : list bore) (alpha : R) (o : options).
Hypothesis Sp : spread bs.
Hypothesis Pa : 0 < alpha.
Hypothesis Fo : fit_options bs o.
Definition opt_call (m : string) (bc : option string) (t : pyval) : call := mkcall (GFun_Model.Field bs) alpha t m bc VNone VNone VNone o.
Local Notation ns := (format_segments (List.length bs) (o_n o)).
Local Notation rs := (format_ratios (List.length bs) ns (o_r o)).

Lemma opt_threshold m bc t : exists thr, threshold_of (opt_call m bc t) thr /\ 0 < thr /\ forall r, lmax (map br bs) = Some r -> thr = r ^ 2 / (25 * alpha).
Proof.
  destruct (spread_radius bs Sp) as (r & Er & Pr). exists (r ^ 2 / (25 * alpha)). split; [|split].
  - exists r. split; auto. cbn [opt_call c_options c_alpha]. unfold time_threshold. destruct Fo as (_ & _ & -> & _). reflexivity.
  - apply Rdiv_lt_0_compat; [nra|lra].
  - intros r' E. rewrite Er in E. injection E as ->. reflexivity.
Qed.

Lemma opt_checks : check_segments bs ns rs = true.
Proof.
  destruct Fo as ((L1 & L2 & L3) & G & _). destruct Sp as (N & _). assert (Lb : (0 < List.length bs)%nat) by (destruct bs; [contradiction|cbn; lia]).
  unfold check_segments. rewrite Nat.eqb_refl. rewrite (proj2 (Nat.ltb_lt 0 (List.length bs)) Lb). rewrite L1, (proj2 (Nat.ltb_lt 0 _) Lb). cbn [andb].
  apply andb_true_intro. split.
  - apply forallb_forall. intros x Hx. apply Nat.leb_le. destruct (In_nth _ _ O Hx) as (k & Lk & <-). rewrite L1 in Lk. rewrite <- (L3 k Lk).
    assert (I : In (nth k rs []) rs) by (apply nth_In; rewrite L2; auto). destruct (G _ I) as [S _].
    destruct (nth k rs []); [unfold Rsum in S; cbn in S; lra|cbn; lia].
  - apply forallb_forall. intros [r k] Hrk. cbn [fst snd]. destruct (In_nth _ _ ([], O) Hrk) as (i & Li & E).
    assert (LL : List.length rs = List.length ns) by (rewrite L1, L2; auto).
    rewrite combine_length, L1, L2, Nat.min_id in Li. rewrite combine_nth in E by auto. injection E as <- <-.
    rewrite (L3 i Li), Nat.eqb_refl. rewrite (proj1 (G (nth i rs []) ltac:(apply nth_In; rewrite L2; auto))). cbn [andb]. apply Rltb_true. replace (1 - 1) with 0 by ring. rewrite Rabs_R0. lra.
Qed.

Lemma opt_constructed m bc : In m ["detailed"; "similarities"]%string -> bc = "UBWT"%string \/ bc = "UHTR"%string -> construct (opt_call m (Some bc) (VArr [])) <> None.
Proof.
  intros Im Ib. pose proof (spread_unique bs Sp) as U. pose proof opt_checks as C. destruct Sp as (N & _). destruct Fo as (_ & _ & _ & T2 & T1).
  assert (Nb : Nat.eqb (List.length bs) 0 = false) by (destruct bs; [contradiction|reflexivity]).
  apply Rltb_true in T1. apply Rltb_true in T2.
  unfold construct, resolve. cbn [opt_call c_source c_bc c_mb c_mn c_cp c_method c_options is_none andb].
  assert (M : String.eqb bc "MIFT" = false) by (destruct Ib as [-> | ->]; auto). rewrite M. cbn [andb]. cbv zeta.
  unfold check, make_solver. cbn [q_bs q_net q_method q_bc q_mb q_mn q_cp]. rewrite U. unfold check_flows, solver_flows. cbn [q_bs q_net q_method q_bc q_mb q_mn q_cp opt_call c_time c_options].
  rewrite M, Nb. cbn [negb andb]. rewrite C, T1, T2.
  destruct Ib as [-> | ->], Im as [<-|[<-|[]]]; discriminate.
Qed.
End Options.

(** ** segments of the same length *)
Lemma Rsum_const x n : Rsum (repeat x n) = INR n * x.
Proof. apply Rsum_repeat. Qed.

Lemma concat_repeat {A} (x : A) k n : concat (repeat (repeat x k) n) = repeat x (k * n).
Proof.
  rewrite Nat.mul_comm. induction n as [|n IH]; [reflexivity|]. cbn [repeat concat Nat.mul]. rewrite IH. symmetry. apply repeat_app.
Qed.

Lemma even_refines n k : (1 <= n)%nat -> (1 <= k)%nat -> refines (repeat (1 / INR n) n) (repeat (1 / INR (k * n)) (k * n)).
Proof.
  intros Pn Pk. exists (repeat (repeat (1 / INR (k * n)) k) n). rewrite concat_repeat. split; [reflexivity|].
  assert (E : Rsum (repeat (1 / INR (k * n)) k) = 1 / INR n).
  { rewrite Rsum_const, mult_INR. field. split; apply not_0_INR; lia. }
  assert (Z : forall m, Forall2 (fun x p => Rsum p = x) (repeat (1 / INR n) m) (repeat (repeat (1 / INR (k * n)) k) m)).
  { induction m as [|m IH]; cbn [repeat]; constructor; auto. }
  apply Z.
Qed.

Lemma even_ratios bs n : option_ratios bs (even_options n) = repeat (repeat (1 / INR n) n) (List.length bs).
Proof.
  unfold option_ratios. cbn [even_options o_n o_r format_segments format_ratios]. generalize (List.length bs). intros m.
  induction m as [|m IH]; [reflexivity|]. cbn [repeat map]. now rewrite IH.
Qed.

Lemma even_fit bs n : (1 <= n)%nat -> fit_options bs (even_options n).
Proof.
  intros Pn. unfold fit_options. cbv zeta. change (format_ratios (List.length bs) (format_segments (List.length bs) (o_n (even_options n))) (o_r (even_options n))) with (option_ratios bs (even_options n)).
  rewrite even_ratios. cbn [even_options o_n o_thr o_tol o_disTol format_segments].
  split; [|split; [|split; [reflexivity|lra]]].
  - split; [apply repeat_length|]. split; [apply repeat_length|]. intros b Lb.
    assert (E : nth b (repeat n (List.length bs)) O = n) by (apply (repeat_spec (List.length bs) n), nth_In; rewrite repeat_length; exact Lb). rewrite E.
    assert (E2 : nth b (repeat (repeat (1 / INR n) n) (List.length bs)) [] = repeat (1 / INR n) n) by (apply (repeat_spec (List.length bs) (repeat (1 / INR n) n)), nth_In; rewrite repeat_length; exact Lb).
    rewrite E2. apply repeat_length.
  - assert (P : 0 < INR n) by (apply lt_0_INR; lia). intros r Hr. apply repeat_spec in Hr. subst r. split.
    + rewrite Rsum_const. field. lra.
    + intros x Hx. apply repeat_spec in Hx. subst x. apply Rdiv_lt_0_compat; lra.
Qed.

Lemma even_refined bs n k : (1 <= n)%nat -> (1 <= k)%nat -> Forall2 refines (option_ratios bs (even_options n)) (option_ratios bs (even_options (k * n))).
Proof.
  intros Pn Pk. rewrite !even_ratios. generalize (List.length bs). intros m. induction m as [|m IH]; cbn [repeat]; constructor; auto. apply even_refines; auto.
Qed.
