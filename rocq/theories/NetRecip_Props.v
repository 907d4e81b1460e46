(** Reversing the flow in a network: C156, C157. *)
From Coq Require Import Reals Lra Lia List ZArith Bool Psatz.
From Verif Require Import Base LinAlg Bore_Model Pipe_Model Multi_Model Net_Model Net_Spec Net_Proofs Net_Coef_Proofs Net_Extra_Proofs Net_More_Proofs GFun_Two_Proofs NetRecip_Spec NetRecip_Proofs.
From Verif Require Pipe_Spec Pipe_Props Multi_Spec Multi_Ex_Proofs Multi_Max_Proofs MRecip_Props MRecip_Proofs Recip_Props Passive_Spec Order_Net_Proofs Net_Props.
Import ListNotations.
Local Open Scope R_scope.

(** Reversible single U-tubes and coaxial pipes with reciprocal resistances, and reversible
    boreholes with several U-tubes in series or in parallel *)
Theorem C156_pipes : forall p m cp n r, two_way_pipe p m cp n r -> pipe_reciprocal p m cp n r.
Proof. exact two_way_reciprocal. Qed.
Print Assumptions C156_pipes.

Lemma two_way_every N ps F : every_pipe two_way_pipe N ps F -> every_pipe pipe_reciprocal N ps F.
Proof. intros H i p Hp. apply two_way_reciprocal, H. exact Hp. Qed.

(** Any network, for any temperatures, one set in each direction: the heat extracted in one
    direction weighted by the temperatures of the other, circuit by circuit *)
Theorem C156_circuits : forall n conn N ps g F E E' cp qb o qb' o' t s Tb Sb, build_net n conn = Some N -> good_args N ps g F ->
  flowing g -> In cp (g_cp g) -> ends N (f_rev F) E -> ends N (negb (f_rev F)) E' -> every_pipe two_way_pipe N ps F ->
  fresh N ps BoreHeat g = Some qb -> fresh N ps Outlet g = Some o ->
  fresh N ps BoreHeat (reversed g) = Some qb' -> fresh N ps Outlet (reversed g) = Some o' ->
  let K := seg_total (f_seg F) in
  sumn K (fun l => Sb l * apply_coefs K qb t Tb l) - sumn K (fun l => Tb l * apply_coefs K qb' s Sb l)
  = sumn (nInlets N) (fun k => Rabs (nth k (f_m F) 0) * cp * (apply_coefs K o t Tb (E k) * s - t * apply_coefs K o' s Sb (E' k))).
Proof.
  intros n conn N ps g F E E' cp qb o qb' o' t s Tb Sb B G Fl Hcp HE HE' P. destruct (build_wf _ _ _ B) as [W _].
  exact (net_reciprocal N ps g F E E' cp qb o qb' o' t s Tb Sb W G Fl Hcp HE HE' (two_way_every _ _ _ P)).
Qed.
Print Assumptions C156_circuits.

(** The same with the heat extraction rate of the whole network *)
Theorem C156_reciprocal : forall n conn N ps g F cp qb h qb' h' t s Tb Sb, build_net n conn = Some N -> good_args N ps g F ->
  flowing g -> In cp (g_cp g) -> every_pipe two_way_pipe N ps F ->
  fresh N ps BoreHeat g = Some qb -> fresh N ps NetHeat g = Some h ->
  fresh N ps BoreHeat (reversed g) = Some qb' -> fresh N ps NetHeat (reversed g) = Some h' ->
  let K := seg_total (f_seg F) in
  sumn K (fun l => Sb l * apply_coefs K qb t Tb l) - sumn K (fun l => Tb l * apply_coefs K qb' s Sb l)
  = s * apply_coefs K h t Tb O - t * apply_coefs K h' s Sb O.
Proof.
  intros n conn N ps g F cp qb h qb' h' t s Tb Sb B G Fl Hcp P. destruct (build_wf _ _ _ B) as [W _].
  exact (net_heat_reciprocal N ps g F cp qb h qb' h' t s Tb Sb W G Fl Hcp (two_way_every _ _ _ P)).
Qed.
Print Assumptions C156_reciprocal.

(** Hence the coefficients for the reversed flows are the transposed ones. *)
Theorem C156_transposed : forall n conn N ps g F cp qb h qb' h', build_net n conn = Some N -> good_args N ps g F ->
  flowing g -> In cp (g_cp g) -> every_pipe two_way_pipe N ps F ->
  fresh N ps BoreHeat g = Some qb -> fresh N ps NetHeat g = Some h ->
  fresh N ps BoreHeat (reversed g) = Some qb' -> fresh N ps NetHeat (reversed g) = Some h' ->
  let K := seg_total (f_seg F) in
  (forall l j, (l < K)%nat -> (j < K)%nat -> snd qb' l j = snd qb j l)
  /\ (forall l, (l < K)%nat -> fst qb' l = - snd h O l /\ fst qb l = - snd h' O l)
  /\ fst h' O = fst h O.
Proof.
  intros n conn N ps g F cp qb h qb' h' B G Fl Hcp P H1 H2 H3 H4 K.
  pose proof (fun t s Tb Sb => C156_reciprocal n conn N ps g F cp qb h qb' h' t s Tb Sb B G Fl Hcp P H1 H2 H3 H4) as X.
  cbv zeta in X. fold K in X. unfold apply_coefs in X. split; [|split].
  - intros l j Hl Hj. specialize (X 0 0 (fun i => if Nat.eqb i l then 1 else 0) (fun i => if Nat.eqb i j then 1 else 0)). cbv beta in X.
    rewrite !MRecip_Props.pick' in X by auto. rewrite !MRecip_Props.pick in X by auto. lra.
  - intros l Hl. split.
    + specialize (X 0 1 (fun i => if Nat.eqb i l then 1 else 0) (fun _ => 0)). cbv beta in X.
      rewrite MRecip_Props.none', MRecip_Props.pick' in X by auto. rewrite !MRecip_Props.none, MRecip_Props.pick in X by auto. lra.
    + specialize (X 1 0 (fun _ => 0) (fun i => if Nat.eqb i l then 1 else 0)). cbv beta in X.
      rewrite MRecip_Props.none', MRecip_Props.pick' in X by auto. rewrite !MRecip_Props.none, MRecip_Props.pick in X by auto. lra.
  - specialize (X 1 1 (fun _ => 0) (fun _ => 0)). cbv beta in X. rewrite !MRecip_Props.none', !MRecip_Props.none in X. lra.
Qed.
Print Assumptions C156_transposed.

(** A borehole with one U-tube feeds a borehole with two, the flow in either direction *)
Definition series2 : net := mknet [-1; 0]%Z [0]%nat [1]%nat [0; 0]%nat.
Definition ex_way : list pipe := [net_pipe (Pipe_Props.ex_tube true); multi_pipe Multi_Ex_Proofs.ex_eig (Multi_Ex_Proofs.two_tubes InSeries true)].
Definition ex_flow : args := mkargs [1] [1] (SegN 1) RNone.
Definition ex_format : fmt := mkfmt [1] false [1; 1] [1; 1] [1; 1]%nat [None; None].
Example C156_example : build_net 2 (Some [-1; 0]%Z) = Some series2 /\ good_args series2 ex_way ex_flow ex_format
  /\ flowing ex_flow /\ In 1 (g_cp ex_flow) /\ every_pipe two_way_pipe series2 ex_way ex_format
  /\ ends series2 (f_rev ex_format) (fun _ => 1%nat) /\ ends series2 (negb (f_rev ex_format)) (fun _ => 0%nat).
Proof.
  split; [reflexivity|]. split.
  { split; [|auto]. unfold format_inputs, ex_flow. cbn [g_m g_cp g_n g_r].
    assert (D : format_dir [1] = Some false) by (unfold format_dir; cbn [forallb]; rewrite (proj2 (Rleb_true 0 1)) by lra; reflexivity).
    rewrite D. unfold ex_format. cbn. unfold nInlets. cbn. replace (1 / 1) with 1 by field. reflexivity. }
  split; [exists 1; split; [left; reflexivity|lra]|]. split; [left; reflexivity|]. split.
  { intros [|[|[|i]]] p Hp; cbn [nth_error ex_way] in Hp; try discriminate; injection Hp as <-; cbn [ex_format f_mb f_cpb f_seg f_rat nth].
    - left. exists (Pipe_Props.ex_tube true). split; [reflexivity|]. split; [lra|]. split; [reflexivity|]. split; [reflexivity|]. rewrite Rabs_R1.
      split; [left; repeat split; left; lra|]. split; [intros i j q; cbn; destruct (Nat.eqb i j); intros Q; injection Q as <-; lra|].
      split; [unfold Pipe_Spec.conducting, Pipe_Spec.cond; cbn; lra|]. split; [lra|]. split; [cbn; lra|]. cbn. auto.
    - right. exists Multi_Ex_Proofs.ex_eig, (Multi_Ex_Proofs.two_tubes InSeries true). split; [reflexivity|]. split; [discriminate|]. split; [reflexivity|].
      split; [apply (Multi_Ex_Proofs.two_usable InSeries); auto|].
      split; [apply Multi_Max_Proofs.positive_passive, Multi_Ex_Proofs.two_positive|]. split; [cbn; lra|]. split; [cbn; auto|].
      split; [apply (Multi_Ex_Proofs.two_eig InSeries true 1); auto|apply (Multi_Ex_Proofs.two_eig InSeries true (-1)); auto]. }
  split; intros k Hk; cbn in Hk; assert (k = O) as -> by lia; cbn; unfold circuit_end, feeds; cbn.
  - split; [lia|]. split; [apply (root_up _ 1 0 0); [reflexivity|constructor; reflexivity]|]. intros [|[|j]] Hj; cbn; [discriminate|discriminate|lia].
  - split; [lia|]. split; [constructor; reflexivity|]. intros j Hj Q. injection Q. lia.
Qed.

(** The pipes are pipes of the library in both directions. *)
Lemma two_way_library p m cp n r : two_way_pipe p m cp n r -> Passive_Spec.library_pipe p m cp n r /\ Passive_Spec.library_pipe p (- m) cp n r.
Proof.
  intros [(u & -> & Nz & V & E & G) | (eig & u & -> & K & V & Us & P & HP & SS & E1 & E2)].
  - pose proof (Rabs_pos_lt m Nz) as A. pose proof (Recip_Props.turned u (Rabs m) cp n r A V E G) as G'.
    destruct (Rcase_abs m) as [L|L]; [rewrite Rabs_left in * by auto; rewrite Ropp_involutive in G'|rewrite Rabs_right in * by auto];
      (split; left; do 3 eexists; (split; [reflexivity|]); (split; [eassumption|right; exact V])).
  - split; right; exists eig, u; (split; [reflexivity|]); (split; [exact K|]).
    + repeat (split; [first [exact Us|left; exact V|assumption]|]). exact E1.
    + split; [exact (MRecip_Proofs.back_usable u [m] [cp] Us)|]. repeat (split; [first [left; exact V|assumption]|]). exact E2.
Qed.

(** Temperatures measured from the undisturbed ground *)
Lemma shifted n conn N ps g F qb h t Tb Tg : build_net n conn = Some N -> good_args N ps g F -> every_pipe pipe_neutral N ps F ->
  fresh N ps BoreHeat g = Some qb -> fresh N ps NetHeat g = Some h ->
  let K := seg_total (f_seg F) in
  (forall l, (l < K)%nat -> apply_coefs K qb t Tb l = apply_coefs K qb (t - Tg) (fun i => Tb i - Tg) l)
  /\ apply_coefs K h t Tb O = apply_coefs K h (t - Tg) (fun i => Tb i - Tg) O.
Proof.
  intros B G P H1 H2 K. destruct (Net_Props.C24_equilibrium n conn N ps g F Tg B G P) as (a & o & qb0 & qf & h0 & no & _ & _ & Q1 & _ & Q2 & _ & X).
  cbv zeta in X. fold K in X. destruct X as (_ & X1 & X2 & _). rewrite H1 in Q1. injection Q1 as <-. rewrite H2 in Q2. injection Q2 as <-.
  assert (Y : forall c i, apply_coefs K c t Tb i = apply_coefs K c (t - Tg) (fun i => Tb i - Tg) i + apply_coefs K c Tg (fun _ => Tg) i).
  { intros c i. unfold apply_coefs. rewrite Rplus_assoc, <- (Rplus_assoc (sumn K _)), (Rplus_comm (sumn K _)), <- !Rplus_assoc, Rplus_assoc, <- sumn_plus.
    rewrite (sumn_ext K (fun i0 => snd c i i0 * (Tb i0 - Tg) + snd c i i0 * Tg) (fun k => snd c i k * Tb k)) by (intros; ring). ring. }
  split; [intros l Hl; rewrite Y, X1 by auto; ring|rewrite Y, X2; ring].
Qed.

Lemma cross_ground K Tg (k : nat -> nat -> R) q q' Tb Sb : (forall i j, (i < K)%nat -> (j < K)%nat -> k i j = k j i) ->
  ground K Tg k q Tb -> ground K Tg k q' Sb ->
  sumn K (fun l => (Sb l - Tg) * q l) = sumn K (fun l => (Tb l - Tg) * q' l).
Proof.
  intros Sy A B.
  transitivity (- sumn K (fun l => sumn K (fun j => k l j * q' j * q l))).
  - rewrite <- (Rmult_1_l (sumn K (fun l => sumn K _))), Ropp_mult_distr_l, <- sumn_scal. apply sumn_ext. intros l Hl. rewrite (B l Hl), sumn_scal_r. ring.
  - rewrite sumn_swap. rewrite <- (Rmult_1_l (sumn K (fun l => sumn K _))), Ropp_mult_distr_l, <- sumn_scal. apply sumn_ext. intros l Hl. rewrite (A l Hl).
    rewrite (sumn_ext K (fun i => k i l * q' l * q i) (fun j => k l j * q j * q' l)) by (intros j Hj; rewrite (Sy j l) by auto; ring). rewrite sumn_scal_r. ring.
Qed.

(** A network in a ground whose response is symmetric: the heat extracted for a given inlet
    temperature, and the inlet temperature for a given heat, are the same in both directions. *)
Theorem C157_ground : forall n conn N ps g F cp qb h qb' h' k Tg t s Tb Sb, build_net n conn = Some N -> good_args N ps g F ->
  flowing g -> In cp (g_cp g) -> every_pipe two_way_pipe N ps F ->
  fresh N ps BoreHeat g = Some qb -> fresh N ps NetHeat g = Some h ->
  fresh N ps BoreHeat (reversed g) = Some qb' -> fresh N ps NetHeat (reversed g) = Some h' ->
  let K := seg_total (f_seg F) in
  (forall i j, (i < K)%nat -> (j < K)%nat -> k i j = k j i) ->
  ground K Tg k (apply_coefs K qb t Tb) Tb -> ground K Tg k (apply_coefs K qb' s Sb) Sb ->
  (s - Tg) * apply_coefs K h t Tb O = (t - Tg) * apply_coefs K h' s Sb O.
Proof.
  intros n conn N ps g F cp qb h qb' h' k Tg t s Tb Sb B G Fl Hcp P H1 H2 H3 H4 K Sy A A'.
  pose proof (good_turn N ps g F Fl G) as G'.
  assert (Q : every_pipe pipe_neutral N ps F) by (intros i p Hp; apply Order_Net_Proofs.library_neutral, two_way_library, P; exact Hp).
  assert (Q' : every_pipe pipe_neutral N ps (turn F)).
  { intros i p Hp. apply Order_Net_Proofs.library_neutral. cbn [turn f_mb f_cpb f_seg f_rat]. rewrite nth_opp. apply two_way_library, P. exact Hp. }
  destruct (shifted n conn N ps g F qb h t Tb Tg B G Q H1 H2) as [S1 S2].
  destruct (shifted n conn N ps _ _ qb' h' s Sb Tg B G' Q' H3 H4) as [S3 S4]. cbn [turn f_seg] in S3, S4. fold K in S1, S2, S3, S4.
  rewrite S2, S4.
  pose proof (C156_reciprocal n conn N ps g F cp qb h qb' h' (t - Tg) (s - Tg) (fun i => Tb i - Tg) (fun i => Sb i - Tg) B G Fl Hcp P H1 H2 H3 H4) as X.
  cbv zeta beta in X. fold K in X.
  rewrite (sumn_ext K (fun l => (Sb l - Tg) * _) (fun l => (Sb l - Tg) * apply_coefs K qb t Tb l)) in X by (intros l Hl; rewrite (S1 l Hl); reflexivity).
  rewrite (sumn_ext K (fun l => (Tb l - Tg) * _) (fun l => (Tb l - Tg) * apply_coefs K qb' s Sb l)) in X by (intros l Hl; rewrite (S3 l Hl); reflexivity).
  rewrite (cross_ground K Tg k _ _ Tb Sb Sy A A') in X. lra.
Qed.
Print Assumptions C157_ground.

Theorem C157_inlet : forall n conn N ps g F cp qb h qb' h' k Tg t s Tb Sb, build_net n conn = Some N -> good_args N ps g F ->
  flowing g -> In cp (g_cp g) -> every_pipe two_way_pipe N ps F ->
  fresh N ps BoreHeat g = Some qb -> fresh N ps NetHeat g = Some h ->
  fresh N ps BoreHeat (reversed g) = Some qb' -> fresh N ps NetHeat (reversed g) = Some h' ->
  let K := seg_total (f_seg F) in
  (forall i j, (i < K)%nat -> (j < K)%nat -> k i j = k j i) ->
  ground K Tg k (apply_coefs K qb t Tb) Tb -> ground K Tg k (apply_coefs K qb' s Sb) Sb ->
  apply_coefs K h t Tb O <> 0 -> apply_coefs K h' s Sb O = apply_coefs K h t Tb O -> s = t.
Proof.
  intros n conn N ps g F cp qb h qb' h' k Tg t s Tb Sb B G Fl Hcp P H1 H2 H3 H4 K Sy A A' Nz E.
  pose proof (C157_ground n conn N ps g F cp qb h qb' h' k Tg t s Tb Sb B G Fl Hcp P H1 H2 H3 H4 Sy A A') as X. cbv zeta in X. fold K in X. rewrite E in X.
  apply Rmult_eq_reg_r in X; [lra|exact Nz].
Qed.
Print Assumptions C157_inlet.

Theorem C157_heat : forall n conn N ps g F cp qb h qb' h' k Tg t Tb Sb, build_net n conn = Some N -> good_args N ps g F ->
  flowing g -> In cp (g_cp g) -> every_pipe two_way_pipe N ps F ->
  fresh N ps BoreHeat g = Some qb -> fresh N ps NetHeat g = Some h ->
  fresh N ps BoreHeat (reversed g) = Some qb' -> fresh N ps NetHeat (reversed g) = Some h' ->
  let K := seg_total (f_seg F) in
  (forall i j, (i < K)%nat -> (j < K)%nat -> k i j = k j i) ->
  ground K Tg k (apply_coefs K qb t Tb) Tb -> ground K Tg k (apply_coefs K qb' t Sb) Sb ->
  t <> Tg -> apply_coefs K h' t Sb O = apply_coefs K h t Tb O.
Proof.
  intros n conn N ps g F cp qb h qb' h' k Tg t Tb Sb B G Fl Hcp P H1 H2 H3 H4 K Sy A A' Nz.
  pose proof (C157_ground n conn N ps g F cp qb h qb' h' k Tg t t Tb Sb B G Fl Hcp P H1 H2 H3 H4 Sy A A') as X. cbv zeta in X. fold K in X.
  apply Rmult_eq_reg_l in X; lra.
Qed.
Print Assumptions C157_heat.

(** The network of C156_example in a ground that cools by c degrees at the wall of a segment
    for one watt extracted there: both directions can be computed. *)
Lemma solve2 (p q r s x y : R) : p * s - q * r <> 0 -> exists u v, p * u + q * v = x /\ r * u + s * v = y.
Proof. intros D. exists ((s * x - q * y) / (p * s - q * r)), ((p * y - r * x) / (p * s - q * r)). split; field; exact D. Qed.
Example C157_example : exists qb h qb' h' c Tb Sb,
  fresh series2 ex_way BoreHeat ex_flow = Some qb /\ fresh series2 ex_way NetHeat ex_flow = Some h
  /\ fresh series2 ex_way BoreHeat (reversed ex_flow) = Some qb' /\ fresh series2 ex_way NetHeat (reversed ex_flow) = Some h'
  /\ 0 < c /\ ground 2 0 (fun i j => if Nat.eqb i j then c else 0) (apply_coefs 2 qb 1 Tb) Tb
  /\ ground 2 0 (fun i j => if Nat.eqb i j then c else 0) (apply_coefs 2 qb' 1 Sb) Sb.
Proof.
  destruct C156_example as (B & G & Fl & Hcp & P & _). destruct (build_wf _ _ _ B) as [W _].
  pose proof (good_turn _ _ _ _ Fl G) as G'.
  destruct (fresh_some_all _ _ _ _ W G) as (_ & _ & qb & _ & h & _ & _ & _ & H1 & _ & H2 & _).
  destruct (fresh_some_all _ _ _ _ W G') as (_ & _ & qb' & _ & h' & _ & _ & _ & H3 & _ & H4 & _).
  destruct (C156_transposed 2 _ _ _ _ _ 1 qb h qb' h' B G Fl Hcp P H1 H2 H3 H4) as [T _]. change (seg_total (f_seg ex_format)) with 2%nat in T.
  assert (D : exists c, 0 < c /\ (1 + c * snd qb 0%nat 0%nat) * (1 + c * snd qb 1%nat 1%nat) - (c * snd qb 0%nat 1%nat) * (c * snd qb 1%nat 0%nat) <> 0).
  { set (p := snd qb 0%nat 0%nat) in *. set (q := snd qb 0%nat 1%nat) in *. set (r := snd qb 1%nat 0%nat) in *. set (s := snd qb 1%nat 1%nat) in *.
    destruct (Req_dec ((1 + 1 * p) * (1 + 1 * s) - 1 * q * (1 * r)) 0) as [Z1|]; [|exists 1; split; [lra|assumption]].
    destruct (Req_dec ((1 + 2 * p) * (1 + 2 * s) - 2 * q * (2 * r)) 0) as [Z2|]; [|exists 2; split; [lra|assumption]].
    exists 3. split; [lra|]. intros Z3. lra. }
  destruct D as (c & Hc & D).
  assert (D' : (1 + c * snd qb' 0%nat 0%nat) * (1 + c * snd qb' 1%nat 1%nat) - (c * snd qb' 0%nat 1%nat) * (c * snd qb' 1%nat 0%nat) <> 0).
  { rewrite !T by auto. intros Z. apply D. rewrite <- Z. ring. }
  destruct (solve2 _ _ _ _ (- c * fst qb 0%nat) (- c * fst qb 1%nat) D) as (u & v & U1 & U2).
  destruct (solve2 _ _ _ _ (- c * fst qb' 0%nat) (- c * fst qb' 1%nat) D') as (u' & v' & U3 & U4).
  exists qb, h, qb', h', c, (fun i => match i with O => u | _ => v end), (fun i => match i with O => u' | _ => v' end).
  do 4 (split; [assumption|]). split; [exact Hc|].
  split; intros [|[|i]] Hi; try lia; unfold apply_coefs; cbn [sumn Nat.eqb]; lra.
Qed.
