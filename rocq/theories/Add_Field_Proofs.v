(** Options and thresholds of a field and of a part of it. *)
From Coq Require Import String Reals Lra Lia List.
From Verif Require Import Base LinAlg FLS_Model.
From Verif Require Import Bore_Model Bore_Spec Bore_Proofs Field_Model Net_Model Solve_Model Solve_Spec Detailed_Model Detailed_Spec Detailed_Proofs
  Sim_Model Sim_Spec Eq_Model Eq_Spec GFun_Model GFun_Spec GFun_Start_Proofs Def_Spec Whole_Model Whole_Spec Whole_Proofs Refine_Spec Refine_Proofs Add_Spec.
Import ListNotations.
Local Open Scope R_scope.

Lemma shared_segments a b o : shared_options o -> format_segments (a + b) (o_n o) = (format_segments a (o_n o) ++ format_segments b (o_n o))%list.
Proof. intros [[n ->] _]. cbn [format_segments]. apply repeat_app. Qed.
Lemma shared_ratios a b o : shared_options o ->
  format_ratios (a + b) (format_segments (a + b) (o_n o)) (o_r o) = (format_ratios a (format_segments a (o_n o)) (o_r o) ++ format_ratios b (format_segments b (o_n o)) (o_r o))%list.
Proof.
  intros So. rewrite (shared_segments a b o So). destruct So as [_ N]. destruct (o_r o) eqn:E; cbn [format_ratios]; [apply repeat_app|apply map_app|apply map_app|].
  exfalso. exact (N _ eq_refl).
Qed.

Lemma part_fit us vs o : shared_options o -> fit_options (us ++ vs) o -> fit_options us o.
Proof.
  intros So (Sg & G & T & T1 & T2). unfold fit_options. cbv zeta. rewrite app_length, (shared_ratios _ _ o So) in G. split; [|split; [|auto]].
  - destruct Sg as (L1 & L2 & L3). rewrite app_length in *. rewrite (shared_ratios _ _ o So) in L2, L3. rewrite (shared_segments _ _ o So) in L1, L3.
    assert (K1 : length (format_segments (length us) (o_n o)) = length us) by (destruct So as [[n ->] _]; apply repeat_length).
    assert (K2 : length (format_ratios (length us) (format_segments (length us) (o_n o)) (o_r o)) = length us).
    { destruct So as [_ N]. destruct (o_r o) eqn:E; cbn [format_ratios]; rewrite ?map_length, ?repeat_length; auto. exfalso. exact (N _ eq_refl). }
    split; [exact K1|]. split; [exact K2|]. intros b Lb. specialize (L3 b ltac:(lia)). rewrite !app_nth1 in L3 by (rewrite ?K1, ?K2; exact Lb). exact L3.
  - intros r Hr. apply G, in_or_app. auto.
Qed.
Lemma rest_fit us vs o : shared_options o -> fit_options (us ++ vs) o -> fit_options vs o.
Proof.
  intros So F. apply (part_fit vs us o So).
  assert (E : length (vs ++ us) = length (us ++ vs)) by (rewrite !app_length; lia).
  unfold fit_options, segmented in *. cbv zeta in *. rewrite E. exact F.
Qed.

Lemma part_spread us vs : spread (us ++ vs) -> us <> [] -> spread us.
Proof.
  intros (_ & P & D) N. split; [exact N|]. split; [intros b Hb; apply P, in_or_app; auto|].
  intros a b c La Lb Ic Nab. specialize (D a b c). rewrite app_length, !app_nth1 in D by auto. apply D; auto; try lia. apply in_or_app. auto.
Qed.
Lemma rest_spread us vs : spread (us ++ vs) -> vs <> [] -> spread vs.
Proof.
  intros (_ & P & D) N. split; [exact N|]. split; [intros b Hb; apply P, in_or_app; auto|].
  intros a b c La Lb Ic Nab. specialize (D (length us + a)%nat (length us + b)%nat c). rewrite app_length, !app_nth2_plus in D. apply D; try lia. apply in_or_app. auto.
Qed.

Lemma part_radius us vs r : no_wider vs us -> lmax (map br us) = Some r -> lmax (map br (us ++ vs)) = Some r.
Proof.
  intros Nw E. apply lmax_radius in E. destruct E as ((b & Ib & Eb) & M). apply lmax_radius. split; [exists b; split; [apply in_or_app; auto|exact Eb]|].
  intros x Hx. apply in_app_or in Hx. destruct Hx as [Hx|Hx]; [auto|]. destruct (Nw x Hx) as (y & Hy & L). specialize (M y Hy). lra.
Qed.
