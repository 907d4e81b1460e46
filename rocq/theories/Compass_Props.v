(** Compass directions: C158. *)
From Coq Require Import Reals Lra Lia List String Ascii Psatz.
From Verif Require Import Base Bore_Model Compass_Model Compass_Spec Compass_Proofs.
From Verif Require GFun_Model.
Import ListNotations.
Local Open Scope string_scope.
Local Open Scope list_scope.
Local Open Scope R_scope.

(** The names in use are accepted, in small letters as well, and no other. *)
Theorem C158_accepts : forall d, (exists t, cardinal_point d = Some t) <-> in_use (GFun_Model.upper d).
Proof.
  intros d. rewrite <- accepted_use, <- (compass_in 0). unfold cardinal_point. split.
  - intros [t ->]. discriminate.
  - intros H. destruct (compass 0 accepted_inputs (GFun_Model.upper d)) as [t|]; [exists t; reflexivity|congruence].
Qed.
Print Assumptions C158_accepts.

(** The angle, from the east counterclockwise, is that of the direction. *)
Theorem C158_points : forall d t, cardinal_point d = Some t -> points (GFun_Model.upper d) (cos t, sin t) /\ 0 <= t < 2 * PI.
Proof.
  intros d t H. split; [exact (aims_cases d t H)|].
  destruct (compass_nth _ _ _ _ H) as (k & Hk & _ & ->). cbn [accepted_inputs length] in Hk. pose proof PI_RGT_0 as Pi.
  assert (A : 0 <= INR k) by apply pos_INR. assert (B : INR k <= 15) by (replace 15 with (INR 15) by (cbn; lra); apply le_INR; lia).
  cbn [Nat.add]. split; [apply Rmult_le_pos; [apply Rmult_le_pos; lra|lra]|].
  apply Rle_lt_trans with (15 * PI / 8); [|lra]. apply Rmult_le_compat_r; [lra|]. apply Rmult_le_compat_r; lra.
Qed.
Print Assumptions C158_points.

(** Different names are different angles. *)
Theorem C158_distinct : forall d d' t, cardinal_point d = Some t -> cardinal_point d' = Some t -> GFun_Model.upper d = GFun_Model.upper d'.
Proof.
  intros d d' t H H'. destruct (compass_nth _ _ _ _ H) as (k & Hk & Ed & Et). destruct (compass_nth _ _ _ _ H') as (k' & Hk' & Ed' & Et').
  rewrite Et in Et'. pose proof PI_RGT_0 as Pi. assert (E : INR (0 + k) = INR (0 + k')).
  { apply (Rmult_eq_reg_r PI); [|lra]. apply (Rmult_eq_reg_r (/ 8)); [exact Et'|lra]. }
  apply INR_eq in E. cbn [Nat.add] in E. subst k'. congruence.
Qed.
Print Assumptions C158_distinct.

(** A borehole tilted towards a direction: its segments lie, seen from above, in that
    direction from its head, z metres along the borehole. *)
Theorem C158_borehole : forall d t H D r x y tilt n o, cardinal_point d = Some t -> / 10 ^ 6 < tilt -> tilt <= PI ->
  0 <= H -> (forall q, In q (default_ratios n o) -> 0 <= q) ->
  exists w, points (GFun_Model.upper d) w
  /\ forall s, In s (segments (mk_bore H D r x y tilt t) n o) ->
       exists z, 0 <= z /\ 0 <= sin tilt /\ bD s = D + z * cos tilt /\ bx s = x + z * sin tilt * fst w /\ by_ s = y + z * sin tilt * snd w.
Proof.
  intros d t H D r x y tilt n o Ct Lt Ut HH Hq. exists (cos t, sin t). split; [exact (aims_cases d t Ct)|].
  assert (P6 : 0 < / 10 ^ 6) by (apply Rinv_0_lt_compat, pow_lt; lra).
  assert (Tl : tilted tilt = true).
  { unfold tilted. apply Rltb_true. rewrite Rabs_pos_eq by lra. exact Lt. }
  intros s Hs. unfold segments in Hs. apply in_map_iff in Hs. destruct Hs as ([z ratio] & <- & Hz).
  unfold mk_bore. rewrite Tl. cbn [bH bD br bx by_ btilt bori fst snd].
  exists z. split; [|split; [apply sin_ge_0; lra|repeat split; reflexivity]].
      apply in_combine_l in Hz. unfold mk_bore in Hz. rewrite Tl in Hz. unfold segment_edges in Hz. cbn [bH] in Hz.
      assert (I : In z (map (fun z => z * H) (0 :: cumsum (default_ratios n o)))).
      { clear - Hz. revert Hz. generalize (map (fun z => z * H) (0 :: cumsum (default_ratios n o))). intros l. induction l as [|a l IH]; cbn [removelast]; [auto|].
        destruct l as [|b l]; [intros []|]. intros [<-|I]; [left; reflexivity|right; apply IH; exact I]. }
      apply in_map_iff in I. destruct I as (e & <- & I). apply Rmult_le_pos; [|exact HH].
      destruct I as [<-|I]; [lra|]. revert I. unfold cumsum.
      assert (G : forall l s0, 0 <= s0 -> (forall q, In q l -> 0 <= q) -> In e (cumsum_from s0 l) -> 0 <= e).
      { induction l as [|a l IH]; intros s0 Hs Hl; cbn; [intros []|]. pose proof (Hl a (or_introl eq_refl)). intros [<-|I]; [lra|].
        apply (IH (s0 + a)); [lra|intros q Q; apply Hl; right; exact Q|exact I]. }
      intros I. exact (G _ 0 (Rle_refl 0) Hq I).
Qed.
Print Assumptions C158_borehole.

(** A borehole tilted to the south-west, in small letters *)
Example C158_example : in_use (GFun_Model.upper "sw") /\ cardinal_point "sw" = Some (INR 10 * PI / 8)
  /\ / 10 ^ 6 < 1 / 2 /\ 1 / 2 <= PI /\ forall q, In q (default_ratios 2 None) -> 0 <= q.
Proof.
  split; [apply accepted_use; cbn; tauto|]. split; [reflexivity|]. split; [lra|]. split; [pose proof PI2_1; lra|].
  cbn. intros q [<-|[<-|[]]]; lra.
Qed.
