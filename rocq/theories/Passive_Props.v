(** Networks of boreholes that do not create energy: C108 and the g-functions of C91 and
    C94 for the pipes of the library. *)
From Coq Require Import String.
From Verif Require Import Base LinAlg FLS_Model.
From Verif Require Import Bore_Model Net_Model Net_Spec Net_Proofs Net_Coef_Proofs Net_Heat_Proofs Net_Cache_Proofs Net_More_Proofs Net_Extra_Proofs Net_Props Solve_Model Solve_Spec
  Detailed_Model Detailed_Spec Sim_Model Sim_Spec Eq_Model Eq_Spec GFun_Model GFun_Spec GFun_Pair_Proofs GFun_Two_Proofs GFun_Mift_Proofs GFun_Rows_Proofs GFun_Total_Proofs GFun_Props
  Passive_Spec Passive_Net_Proofs Passive_GFun_Proofs.
From Verif Require Pipe_Model Pipe_Spec Pipe_Props Multi_Model Multi_Spec Multi_Ex_Proofs Multi_Max_Proofs Passive_Pipe_Proofs.
Local Open Scope R_scope.
Local Open Scope string_scope.

Lemma sound_every N ps F : every_pipe library_pipe N ps F -> every_pipe sound_pipe N ps F.
Proof. intros H i p E. apply Passive_Pipe_Proofs.library_sound. exact (H i p E). Qed.

(** * C108 *)

(** The pipes of the library: the heat of the segments is that of the fluid, no energy is
    created and the fluid is influenced by the wall. *)
Theorem C108_pipes : forall p m cp k r, library_pipe p m cp k r ->
  pipe_balanced p m cp k r /\ Multi_Spec.pipe_passive p m cp k r /\ pipe_contracts p m cp k r.
Proof. exact Passive_Pipe_Proofs.library_sound. Qed.
Print Assumptions C108_pipes.

(** A network with such pipes: for all inlet and wall temperatures and all references c,
    the gain of the fluid is at most what the walls give. *)
Theorem C108_network : forall n conn N ps g F E cp qb o t c Tb, build_net n conn = Some N -> good_args N ps g F -> ends N (f_rev F) E -> In cp (g_cp g) ->
  every_pipe library_pipe N ps F -> fresh N ps BoreHeat g = Some qb -> fresh N ps Outlet g = Some o ->
  let K := seg_total (f_seg F) in
  1/2 * sumn (nInlets N) (fun k => Rabs (nth k (f_m F) 0) * cp * ((apply_coefs K o t Tb (E k) - c) ^ 2 - (t - c) ^ 2))
  <= sumn K (fun k => (Tb k - c) * apply_coefs K qb t Tb k).
Proof.
  intros n conn N ps g F E cp qb o t c Tb B G HE Hcp P Eq Eo K. destruct (build_wf _ _ _ B) as [W _].
  rewrite (fresh_direct N ps _ g F W G) in Eq. rewrite (fresh_direct N ps _ g F W G) in Eo. cbn [direct] in *. destruct (coef_inlet N ps F) as [a|] eqn:Ea; [|discriminate]. injection Eq as <-.
  apply (net_passive N ps g F a o cp E W G Ea Eo Hcp HE). destruct (every_and _ _ _ _ _ (sound_every _ _ _ P)) as [_ Q]. apply (every_and _ _ _ _ _ Q).
Qed.
Print Assumptions C108_network.

(** Walls at one temperature give heat to a colder fluid and take heat from a warmer one. *)
Theorem C108_direction : forall n conn N ps g F cp h t T, build_net n conn = Some N -> good_args N ps g F -> In cp (g_cp g) -> 0 <= cp ->
  every_pipe library_pipe N ps F -> fresh N ps NetHeat g = Some h -> 0 <= (T - t) * apply_coefs (seg_total (f_seg F)) h t (fun _ => T) O.
Proof.
  intros n conn N ps g F cp h t T B G Hcp Cp P Eh. destruct (build_wf _ _ _ B) as [W _]. destruct (ends_exist N (f_rev F) W) as [E HE].
  destruct (fresh_some_all N ps g F W G) as (a & o & qb & qf & h' & no & _ & Eo & Eq & _ & _ & _).
  destruct (every_and _ _ _ _ _ (sound_every _ _ _ P)) as [Bal _].
  rewrite (heat_sum_segments N ps g F t (fun _ => T) h qb W G Bal Eh Eq), <- sumn_scal.
  pose proof (C108_network n conn N ps g F E cp qb o t t (fun _ => T) B G HE Hcp P Eq Eo) as Q. cbv zeta in Q. eapply Rle_trans; [|exact Q].
  apply Rmult_le_pos; [lra|]. apply sumn_nonneg. intros k Hk. apply Rmult_le_pos; [apply Rmult_le_pos; [apply Rabs_pos|auto]|].
  pose proof (pow2_ge_0 (apply_coefs (seg_total (f_seg F)) o t (fun _ => T) (E k) - t)). replace ((t - t) ^ 2) with 0 by ring. lra.
Qed.
Print Assumptions C108_direction.

(** A network that is fed takes less heat when its inlet is warmer. *)
Theorem C108_inlet : forall n conn N ps g F cp h t t' Tb, build_net n conn = Some N -> good_args N ps g F -> In cp (g_cp g) -> 0 < cp -> 0 < total_flow N F ->
  every_pipe library_pipe N ps F -> fresh N ps NetHeat g = Some h -> t < t' ->
  apply_coefs (seg_total (f_seg F)) h t' Tb O < apply_coefs (seg_total (f_seg F)) h t Tb O.
Proof.
  intros n conn N ps g F cp h t t' Tb B G Hcp Cp Tf P Eh Lt. destruct (build_wf _ _ _ B) as [W _]. destruct (ends_exist N (f_rev F) W) as [E HE].
  rewrite (fresh_direct N ps _ g F W G) in Eh. cbn [direct] in Eh. destruct (coef_inlet N ps F) as [a|] eqn:Ea; [|discriminate]. injection Eh as <-.
  destruct (coef_outlet_some N ps F W) as [o Eo]. destruct (every_and _ _ _ _ _ (sound_every _ _ _ P)) as [_ Q]. destruct (every_and _ _ _ _ _ Q) as [_ Con].
  pose proof (net_takes_heat N ps g F a o cp E W G Ea Eo Hcp HE Con Cp Tf) as Neg. unfold apply_coefs. nra.
Qed.
Print Assumptions C108_inlet.

Definition ex_pipe : pipe := Pipe_Model.net_pipe (Pipe_Props.ex_tube true).
Definition ex_pipes : pipe := Multi_Model.multi_pipe Multi_Ex_Proofs.ex_eig (Multi_Ex_Proofs.two_tubes Multi_Model.InSeries false).
Lemma ex_library : every_pipe library_pipe two [ex_pipe; ex_pipes] (two_format 1 1 1 (Some [1])).
Proof.
  intros [|[|[|i]]] p Hp; cbn [nth_error] in Hp; try discriminate; injection Hp as <-; cbn [two_format f_mb f_cpb f_seg f_rat nth].
  - left. exists (Pipe_Props.ex_tube true), 0%nat, 1%nat. split; [reflexivity|]. split; [|left; lra].
    split; [left; repeat split; left; lra|]. split; [intros i j q; cbn; destruct (Nat.eqb i j); intros Q; injection Q as <-; lra|].
    split; [unfold Pipe_Spec.conducting, Pipe_Spec.cond; cbn; lra|]. split; [lra|]. split; [cbn; lra|]. split; [reflexivity|]. split; [constructor; [lra|constructor]|cbn; lra].
  - right. exists Multi_Ex_Proofs.ex_eig, (Multi_Ex_Proofs.two_tubes Multi_Model.InSeries false). split; [reflexivity|]. split; [discriminate|].
    split; [apply (Multi_Ex_Proofs.two_usable Multi_Model.InSeries); auto|]. split; [apply (Multi_Ex_Proofs.two_meant Multi_Model.InSeries); auto|].
    split; [apply Multi_Max_Proofs.positive_passive, Multi_Ex_Proofs.two_positive|]. split; [cbn; lra|]. split; [|apply (Multi_Ex_Proofs.two_eig Multi_Model.InSeries); auto].
    split; [reflexivity|]. split; [intros x [<-|[]]; lra|cbn; lra].
Qed.

Lemma ex_call : good_args two [ex_pipe; ex_pipes] (flow_call 1 [1; 1]%nat [[1]; [1]] [1; 1]) (two_format 1 1 1 (Some [1])).
Proof.
  split; [|auto]. unfold format_inputs, flow_call. cbn [g_m g_cp g_n g_r].
  assert (D : format_dir [1; 1] = Some false) by (unfold format_dir; cbn [forallb]; rewrite (proj2 (Rleb_true 0 1)) by lra; reflexivity).
  rewrite D. reflexivity.
Qed.
Example C108_ex : build_net 2 None = Some two /\ good_args two [ex_pipe; ex_pipes] (flow_call 1 [1; 1]%nat [[1]; [1]] [1; 1]) (two_format 1 1 1 (Some [1]))
  /\ every_pipe library_pipe two [ex_pipe; ex_pipes] (two_format 1 1 1 (Some [1])) /\ 0 < total_flow two (two_format 1 1 1 (Some [1])).
Proof.
  split; [apply two_build|]. split; [apply ex_call|]. split; [apply ex_library|]. unfold total_flow. cbn. rewrite Rabs_R1. lra.
Qed.

(** * C94 *)

(** A network of the pipes of the library has a g-function if the responses are those of a
    stable ground. *)
Theorem C94_library : forall link uw c w x thr mb mn row f l, c_source c = Piped w -> c_bc c = Some "MIFT" -> c_method c = "detailed" -> threshold_of c thr -> 0 < thr ->
  connected w -> segmented (w_b w) (segments_of c) (ratios_of c) -> vertical_field (w_b w) -> good_ratios (ratios_of c) -> 0 < nth 0 (w_ks w) 0 ->
  (forall t, 0 < t -> definite (n_sources (w_b w) (segments_of c) (ratios_of c)) (segment_length (w_b w) (segments_of c) (ratios_of c))
                        (detailed_matrix (line_kernel (c_alpha c) t uw) (w_b w) (segments_of c) (ratios_of c))) ->
  (mb = VNone <-> mn <> VNone) -> solver_flows mb mn = Some (0%nat, [row]) -> construct (with_time (with_flow c mb mn (VFloat x)) (VArr [])) <> None ->
  0 < x -> format_inputs (w_c w) (flow_call x (segments_of c) (ratios_of c) row) = Some f -> every_pipe library_pipe (w_c w) (w_p w) f -> 0 < total_flow (w_c w) f ->
  times (VArr l) <> None -> no_repeats thr l ->
  exists g, gfunction link uw (with_time (with_flow c mb mn (VFloat x)) (VArr l)) = Some (G1 g) /\ List.length g = List.length l.
Proof.
  intros link uw c w x thr mb mn row f l Es Eb Me Th Tp Cw Sg Vf Gr Ks Df Nn Sf Co Xp Ef Lp Tf Nt Nr.
  destruct (sound_flow w (segments_of c) (ratios_of c) x row f Cw (proj1 Sg) (proj1 (proj2 Sg)) Ef Xp (sound_every _ _ _ Lp) Tf) as (F & EF & Pa & Ci & _).
  exact (C94_exists link uw c w x thr mb mn row F l Es Eb Me Th Tp Sg Vf Gr Ks Df Nn Sf Co EF Pa Ci Nt Nr).
Qed.
Print Assumptions C94_library.
Example C94_library_ex : let c := pair_mift ex_pipe ex_pipes "detailed" VNone VNone VNone VNone VNone in
  (forall t, 0 < t -> definite 2 (segment_length pair_field [1; 1]%nat [[1]; [1]]) (detailed_matrix (line_kernel 1 t []) pair_field [1; 1]%nat [[1]; [1]])) /\
  connected (pair_piped ex_pipe ex_pipes VNone VNone) /\
  construct (with_time (with_flow c (VArr [1; 1]) VNone (VFloat 1)) (VArr [])) <> None /\
  format_inputs (w_c (pair_piped ex_pipe ex_pipes VNone VNone)) (flow_call 1 (segments_of c) (ratios_of c) [1; 1]) = Some (two_format 1 1 1 (Some [1])).
Proof.
  cbv zeta. split; [intros t Ht; apply pair_definite; auto|]. split; [split; [reflexivity|]; exists None; apply two_build|]. split.
  - pose proof (pair_mift_constructed ex_pipe ex_pipes "detailed" VNone VNone (VArr [1; 1]) VNone (VFloat 1) 0 [[1; 1]]) as E.
    assert (N : construct (with_time (pair_mift ex_pipe ex_pipes "detailed" VNone VNone (VArr [1; 1]) VNone (VFloat 1)) (VArr [])) <> None).
    { rewrite E; try discriminate; auto; [left; auto|right; repeat split; discriminate]. }
    exact N.
  - exact (proj1 ex_call).
Qed.

(** * C91 *)

(** The cross g-function of two equal flows in pipes of the library is the g-function of
    this flow. *)
Theorem C91_library : forall link uw c w x thr rows l k v i j p f, c_source c = Piped w -> c_bc c = Some "MIFT" -> c_method c = "detailed" \/ c_method c = "similarities" ->
  threshold_of c thr -> 0 < thr -> (forall t, In t l -> thr < t) -> no_repeats thr l -> connected w -> segmented (w_b w) (segments_of c) (ratios_of c) -> vertical_field (w_b w) ->
  good_ratios (ratios_of c) -> nth 0 (w_ks w) 0 <> 0 -> (forall r, In r rows -> List.length r = nInlets (w_c w)) ->
  0 < x -> format_inputs (w_c w) (flow_call x (segments_of c) (ratios_of c) (nth i rows [])) = Some f -> every_pipe library_pipe (w_c w) (w_p w) f -> 0 < total_flow (w_c w) f ->
  gfunction link uw (with_time (with_flow c (VArr2 rows) VNone (VFloat x)) (VArr l)) = Some (G3 k v) -> (i < k)%nat -> (j < k)%nat -> (p < List.length l)%nat ->
  nth i rows [] = nth j rows [] -> v i j p = v j j p.
Proof.
  intros link uw c w x thr rows l k v i j p f Es Eb Me Th Tp Ab Nr Cw Sg Vf Gr Ks Rect Xp Ef Lp Tf E Hi Hj Hp Eij.
  destruct (sound_flow w (segments_of c) (ratios_of c) x _ f Cw (proj1 Sg) (proj1 (proj2 Sg)) Ef Xp (sound_every _ _ _ Lp) Tf) as (F & EF & _ & _ & (Nz & _)).
  apply (C91_equal_flows link uw c w x thr rows l k v i j p Es Eb Me Th Tp Ab Nr Cw Sg Vf Gr); auto.
  - unfold balanced_pipes, the_fmt. change (mkargs (nth i rows []) [x] (SegL (segments_of c)) (Net_Model.RList (ratios_of c))) with (flow_call x (segments_of c) (ratios_of c) (nth i rows [])).
    rewrite Ef. apply (every_and _ _ _ _ _ (sound_every _ _ _ Lp)).
  - intros F' EF'. rewrite EF in EF'. injection EF' as <-. auto.
Qed.
Print Assumptions C91_library.
