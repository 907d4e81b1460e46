(** Time grids and segment ratios: C06 - C09. *)
From Verif Require Import Base TimeGrid_Model TimeGrid_Spec LoadAgg_Spec.
From Verif Require Import TimeGrid_Proofs TimeGrid_Geo_Proofs SegRatios_Proofs.

(** C06: the loop ends, and the grid is the one with steps dt*2^(j/cells_per_level)
    that first reaches tmax. *)
Theorem C06_time_ClaessonJaved dt tmax cpl : 0 < dt -> (1 <= cpl)%nat ->
  exists r, grid_of dt tmax (cj_steps cpl) r
    /\ (exists n, forall f, (n <= f)%nat -> time_ClaessonJaved f dt tmax cpl = Some r)
    /\ forall f r', time_ClaessonJaved f dt tmax cpl = Some r' -> r' = r.
Proof. exact (cjt_main dt tmax cpl). Qed.
Print Assumptions C06_time_ClaessonJaved.

(** C06: the specification determines the grid. *)
Theorem C06_grid_unique dt tmax cpl r r' : 0 < dt ->
  grid_of dt tmax (cj_steps cpl) r -> grid_of dt tmax (cj_steps cpl) r' -> r = r'.
Proof. intros H. exact (grid_unique dt tmax (cj_steps cpl) r r' H (cj_steps_ge1 cpl)). Qed.
Print Assumptions C06_grid_unique.

(** C06: the grid is fit for the load aggregation of Claesson and Javed. *)
Theorem C06_usable_by_load_aggregation dt tmax cpl f r : 0 < dt -> 0 < tmax -> (1 <= cpl)%nat ->
  time_ClaessonJaved f dt tmax cpl = Some r ->
  good_times dt r /\ nth 0 r 0 = dt
  /\ forall k, (S k < length r)%nat -> dt <= nth (S k) r 0 - nth k r 0.
Proof. exact (cjt_good dt tmax cpl f r). Qed.
Print Assumptions C06_usable_by_load_aggregation.

(** The documented example: dt = 3600, tmax = 12*3600, two cells per level. *)
Example C06_example : grid_of 3600 (12 * 3600) (cj_steps 2)
  [3600; 2 * 3600; 4 * 3600; 6 * 3600; 10 * 3600; 14 * 3600].
Proof.
  split; [|split; [|split]].
  - intros k Hk. cbn [length] in Hk. unfold cj_steps.
    do 6 (destruct k as [|k]; [cbn; lra|]). lia.
  - intros k Hk. cbn [length] in Hk. do 5 (destruct k as [|k]; [cbn; lra|]). lia.
  - intros _. split; [discriminate|cbn; lra].
  - intros; lra.
Qed.

(** C07 *)
Theorem C07_time_MarcottePasquier dt tmax nec : 0 < dt ->
  exists r, grid_of dt tmax (mp_steps nec) r
    /\ (exists n, forall f, (n <= f)%nat -> time_MarcottePasquier f dt tmax nec = Some r)
    /\ forall f r', time_MarcottePasquier f dt tmax nec = Some r' -> r' = r.
Proof. exact (mpt_main dt tmax nec). Qed.
Print Assumptions C07_time_MarcottePasquier.

Theorem C07_grid_unique dt tmax nec r r' : 0 < dt ->
  grid_of dt tmax (mp_steps nec) r -> grid_of dt tmax (mp_steps nec) r' -> r = r'.
Proof. intros H. exact (grid_unique dt tmax (mp_steps nec) r r' H (mp_steps_ge1 nec)). Qed.
Print Assumptions C07_grid_unique.

Theorem C07_increasing dt tmax nec f r : 0 < dt -> time_MarcottePasquier f dt tmax nec = Some r ->
  strictly_increasing r /\ forall k, (S k < length r)%nat -> dt <= nth (S k) r 0 - nth k r 0.
Proof. exact (mpt_increasing dt tmax nec f r). Qed.
Print Assumptions C07_increasing.

(** The documented example: dt = 3600, tmax = 13*3600, six cells. *)
Example C07_example : grid_of 3600 (13 * 3600) (mp_steps 6)
  [3600; 7200; 10800; 14400; 18000; 21600; 28800; 43200; 72000].
Proof.
  split; [|split; [|split]].
  - intros k Hk. cbn [length] in Hk. unfold mp_steps.
    do 9 (destruct k as [|k]; [cbn; lra|]). lia.
  - intros k Hk. cbn [length] in Hk. do 8 (destruct k as [|k]; [cbn; lra|]). lia.
  - intros _. split; [discriminate|cbn; lra].
  - intros; lra.
Qed.

(** C08: short horizon, uniform grid. *)
Theorem C08_uniform f dt tmax Nt : tmax <= INR Nt * dt ->
  exists time, time_geometric f dt tmax Nt = Some time /\ length time = Nt
    /\ forall j, (j < Nt)%nat -> nth j time 0 = INR (S j) * dt.
Proof. exact (tg_short f dt tmax Nt). Qed.
Print Assumptions C08_uniform.

(** C08: long horizon. The steps grow by one ratio r > 1, the last time is
    tmax, and the geometric sum misses tmax by the tolerance of the loop. *)
Theorem C08_geometric f dt tmax Nt time : 0 < dt -> (1 <= Nt)%nat -> INR Nt * dt < tmax ->
  time_geometric f dt tmax Nt = Some time ->
  exists r, 1 < r /\ length time = Nt
   /\ (forall j, (S j < Nt)%nat -> nth j time 0 = dt * sumn (S j) (fun i => r ^ i))
   /\ nth (Nt - 1) time 0 = tmax
   /\ (r - 1) * Rabs (tmax - dt * sumn Nt (fun i => r ^ i)) <= tmax * / 10 ^ 10.
Proof. exact (tg_long f dt tmax Nt time). Qed.
Print Assumptions C08_geometric.

(** C08: strictly increasing, the overwritten last time included. *)
Theorem C08_increasing f dt tmax Nt time : 0 < dt -> (1 <= Nt <= 316)%nat -> (INR Nt + 1) * dt <= tmax ->
  time_geometric f dt tmax Nt = Some time -> strictly_increasing time.
Proof. exact (tg_increasing f dt tmax Nt time). Qed.
Print Assumptions C08_increasing.

(** C08: not increasing for a horizon barely above Nt*dt and many steps: the
    tolerance of the ratio leaves the last but one time beyond tmax. *)
Theorem C08_increasing_refuted : exists f k time, INR (S (S k)) = 4000 /\
  time_geometric f 1 4000.1 (S (S k)) = Some time /\ nth (S k) time 0 < nth k time 0.
Proof. exact tg_not_increasing. Qed.
Print Assumptions C08_increasing_refuted.

(** C08: the search for the ratio always ends for two steps or more. *)
Theorem C08_terminates dt tmax Nt : 0 < dt -> (2 <= Nt)%nat ->
  exists n time, forall f, (n <= f)%nat -> time_geometric f dt tmax Nt = Some time.
Proof. exact (tg_runs dt tmax Nt). Qed.
Print Assumptions C08_terminates.

Example C08_example : exists n time, time_geometric n 3600 (13 * 3600) 5 = Some time
  /\ strictly_increasing time /\ nth 0 time 0 = 3600 /\ nth 4 time 0 = 46800.
Proof.
  destruct (C08_terminates 3600 (13 * 3600) 5 ltac:(lra) ltac:(lia)) as (n & time & H).
  specialize (H n (Nat.le_refl n)). exists n, time. split; [exact H|]. split.
  - apply (C08_increasing n 3600 (13 * 3600) 5); [lra|lia|cbn; lra|exact H].
  - destruct (C08_geometric n 3600 (13 * 3600) 5 time ltac:(lra) ltac:(lia) ltac:(cbn; lra) H)
      as (r & _ & _ & A & B & _). split.
    + rewrite A by lia. cbn. lra.
    + cbn in B. rewrite B. lra.
Qed.

(** C09: whatever the root finder reports, an answer is a positive symmetric
    partition with the requested end ratio. *)
Theorem C09_segment_ratios roots n e l : segment_ratios roots n e = Some l ->
  length l = n /\ (forall x, In x l -> 0 < x) /\ Rabs (1 - Rsum l) < / 10 ^ 6 /\ symmetric l
  /\ ((3 <= n)%nat -> Rabs (nth 0 l 0 - e) < / 10 ^ 6 /\ exists x, 0 < x /\ expands x l).
Proof. exact (sr_sound roots n e l). Qed.
Print Assumptions C09_segment_ratios.

(** C09: with exact roots the function does not fail and the ratios sum to one. *)
Theorem C09_exact_roots roots n e : sr_exact_roots n e (roots n e) -> (1 <= n)%nat -> 0 < e < 1/2 ->
  exists l, segment_ratios roots n e = Some l /\ Rsum l = 1
    /\ ((3 <= n)%nat -> ~ Rabs (1 - INR n * e) < / 10 ^ 6 -> nth 0 l 0 = e).
Proof. exact (sr_exact roots n e). Qed.
Print Assumptions C09_exact_roots.

(** C09: the order of the roots does not matter. *)
Theorem C09_root_order roots roots' n e l l' :
  sr_exact_roots n e (roots n e) -> sr_exact_roots n e (roots' n e) ->
  segment_ratios roots n e = Some l -> segment_ratios roots' n e = Some l' -> l = l'.
Proof. exact (sr_unique roots roots' n e l l'). Qed.
Print Assumptions C09_root_order.

Example C09_roots_example : sr_exact_roots 4 (1/10) [1; 4].
Proof.
  intros x. change (Nat.even 4) with true. change (4 / 2)%nat with 2%nat. unfold sr_poly_even. cbn [In pow].
  split.
  - intros [<-|[<-|[]]]; lra.
  - intros H. assert (E : (x - 1) * (x - 4) = 0) by lra. apply Rmult_integral in E. lra.
Qed.
Example C09_example : exists l, segment_ratios (fun _ _ => [1; 4]) 4 (1/10) = Some l /\ Rsum l = 1 /\ nth 0 l 0 = 1/10.
Proof.
  destruct (C09_exact_roots (fun _ _ => [1; 4]) 4 (1/10) C09_roots_example ltac:(lia) ltac:(lra)) as (l & A & B & C).
  exists l. split; [exact A|]. split; [exact B|]. apply C; [lia|].
  cbn [INR]. rewrite Rabs_right by lra. intros H. lra.
Qed.
