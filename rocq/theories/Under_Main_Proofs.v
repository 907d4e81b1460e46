(** ClaessonJaved with the g-function of a single borehole. *)
From Coq Require Import String Reals Lra Lia List Sorted.
From Verif Require Import Base LinAlg FLS_Model.
From Verif Require Import LoadAgg_Model LoadAgg_Spec LoadAgg_CJ_Proofs TimeGrid_Model TimeGrid_Spec TimeGrid_Proofs Under_Spec Under_Proofs Under_Fls_Proofs.
From Verif Require Import Bore_Model Bore_Spec Field_Model Net_Model Solve_Model Detailed_Model Detailed_Spec
  Eq_Model GFun_Model GFun_Spec GFun_Props Whole_Model Whole_Spec Whole_Proofs.
Import ListNotations.
Local Open Scope R_scope.

(** The response of a borehole at its wall. *)
Lemma own_response alpha t b : 0 < bH b -> 0 < br b -> field_mean alpha t [b] = fls t alpha (br b) (bH b) (bD b) (bH b) (bD b) true true.
Proof.
  intros P Q. unfold field_mean, response. cbn [map Rsum].
  assert (E : planar b b = 0).
  { unfold planar. match goal with |- sqrt ?e = 0 => replace e with 0 by ring end. apply sqrt_0. }
  rewrite E, Rmax_right by lra. field. lra.
Qed.

Lemma slowing_scal dt g c : 0 <= c -> slowing dt g -> slowing dt (fun t => g t * c).
Proof.
  intros C S k. specialize (S k).
  assert (E : forall j, rise dt (fun t => g t * c) j = rise dt g j * c) by (intros [|j]; cbn [rise]; ring).
  rewrite !E. split; [apply Rmult_le_pos|apply Rmult_le_compat_r]; lra.
Qed.

Lemma superposition_ext g g' st i : (forall j k, (k < length (cj_w st))%nat -> g i j k = g' i j k) ->
  cj_superposition g st i = cj_superposition g' st i.
Proof.
  intros E. unfold cj_superposition. apply sumn_ext. intros j _. apply sumn_ext. intros k Lk. f_equal.
  unfold cj_dg. destruct k as [|k]; rewrite !E by lia; reflexivity.
Qed.

Lemma grid_later dt tmax cpl f time : 0 < dt -> 0 < tmax -> (1 <= cpl)%nat -> time_ClaessonJaved f dt tmax cpl = Some time ->
  later_times time /\ forall k, (k < length time)%nat -> dt <= nth k time 0.
Proof.
  intros Hd Ht Hc E. destruct (cjt_good dt tmax cpl f time Hd Ht Hc E) as ((_ & Ne & Inc) & H0 & _).
  assert (M : forall a b, (a < b < length time)%nat -> nth a time 0 < nth b time 0).
  { intros a b. induction b as [|b IH]; intros L; [lia|]. pose proof (Inc b ltac:(lia)).
    destruct (Nat.eq_dec a b) as [->|Q]; [lra|]. pose proof (IH ltac:(lia)). lra. }
  assert (B : forall k, (k < length time)%nat -> dt <= nth k time 0).
  { intros [|k] L; [lra|]. pose proof (M 0%nat (S k) ltac:(lia)). lra. }
  split; [|exact B]. split; [exact Ne|]. split.
  - apply Forall_forall. intros x Hx. destruct (In_nth time x 0 Hx) as (k & Lk & <-). pose proof (B k Lk). lra.
  - clear - M. induction time as [|x r IH]; constructor.
    + apply IH. intros a b L. apply (M (S a) (S b)). cbn. lia.
    + apply Forall_forall. intros y Hy. destruct (In_nth r y 0 Hy) as (j & Lj & <-). apply (M O (S j)). cbn. lia.
Qed.

Lemma single_simulation link uw roots n fd b alpha ks dt tmax cpl f time ops :
  sr_exact_roots n (2 / 100) (roots n (2 / 100)) -> (1 <= n)%nat -> to_boreholes fd = [b] ->
  btilt b = 0 -> 0 < bH b -> 0 <= bD b -> 0 < br b -> 0 < alpha -> 0 < ks ->
  0 < dt -> br b ^ 2 <= 8 / 5 * (alpha * dt) -> 0 < tmax -> (1 <= cpl)%nat -> time_ClaessonJaved f dt tmax cpl = Some time ->
  never_decreasing (history 0 ops) ->
  exists g, evaluate_g_function link uw roots fd alpha (VArr time) "detailed" "UHTR" (Some (usual_options roots n)) = Some (G1 g) /\
  forall st, cj_run (cj_init (cj_width_of dt time) 1) ops = Some st ->
    cj_superposition (fun _ _ k => nth k g 0 / (2 * PI * ks)) st 0
    <= superpose (fun k => fls (INR (S k) * dt) alpha (br b) (bH b) (bD b) (bH b) (bD b) true true / (2 * PI * ks)) (history 0 ops).
Proof.
  intros Ro Pn Fb Ti PH PD Pr Pa Pk Hd Hr Ht Hc Et Nd.
  destruct (grid_later dt tmax cpl f time Hd Ht Hc Et) as (Lt & Ge).
  assert (Sp : spread (to_boreholes fd)).
  { rewrite Fb. split; [discriminate|]. split; [intros x [<-|[]]; auto|]. cbn. intros; lia. }
  pose proof (whole_constructed roots n Ro Pn (to_boreholes fd) alpha Sp "detailed"%string "UHTR"%string ltac:(cbn; auto) ltac:(auto)) as Co.
  set (c := whole_call roots n (to_boreholes fd) alpha "detailed"%string (Some "UHTR"%string) (VArr time)).
  destruct (whole_threshold roots n (to_boreholes fd) alpha Sp Pa "detailed"%string (Some "UHTR"%string) (VArr time)) as (thr & Th & Tp). fold c in Th.
  destruct (whole_segmented roots n Ro Pn (to_boreholes fd) alpha "detailed"%string (Some "UHTR"%string) (VArr time)) as [Sg Gr]. fold c in Sg, Gr.
  destruct (later_ok time thr Lt) as [Tm _].
  destruct (C90_detailed link uw c thr time Pa Th Tp eq_refl Co Tm Sg (spread_vertical _ Sp) Gr) as (g & E & L & V).
  exists g. split; [exact E|]. intros st Hs.
  assert (Small : thr < dt).
  { destruct Th as (r & R1 & ->). cbn [c whole_call boreholes_of c_source] in R1. rewrite Fb in R1. cbn in R1. injection R1 as <-.
    cbn [time_threshold c whole_call c_options usual_options o_thr c_alpha].
    apply (Rmult_lt_reg_r (25 * alpha)); [lra|]. unfold Rdiv. rewrite Rmult_assoc, Rinv_l by lra.
    pose proof (Rmult_lt_0_compat _ _ Pa Hd). lra. }
  set (h := fun t : R => fls t alpha (br b) (bH b) (bD b) (bH b) (bD b) true true * / (2 * PI * ks)).
  assert (K : 0 < / (2 * PI * ks)) by (apply Rinv_0_lt_compat; pose proof PI_RGT_0; nra).
  destruct (cj_run_rows _ _ _ Hs) as (Ew & _ & _). cbn [cj_w cj_init] in Ew.
  destruct (cjt_good dt tmax cpl f time Hd Ht Hc Et) as (Hgood & _ & _). destruct (good_width dt time Hgood) as (Wl & _).
  rewrite (superposition_ext _ (fun _ _ k => h (nth k time 0)) st 0).
  - pose proof (cj_under dt tmax cpl f time 1 ops st (fun _ _ => h) 0 Hd Ht Hc Et) as U.
    cbn [sumn] in U. rewrite Rplus_0_l in U. apply U; auto.
    + intros j _. apply slowing_scal; [lra|]. apply (g_slowing (bH b) (bD b) (br b) true PH PD Pr alpha Pa dt Hd Hr).
    + intros j Lj. replace j with 0%nat by lia. exact Nd.
  - intros j k Lk. rewrite Ew, Wl in Lk. rewrite V by exact Lk. unfold started, h, Rdiv. f_equal.
    pose proof (Ge k Lk). unfold Rleb. destruct (Rle_dec (nth k time 0) thr) as [Q|Q]; [lra|].
    change (boreholes_of c) with (to_boreholes fd). rewrite Fb. change (c_alpha c) with alpha. apply own_response; assumption.
Qed.
