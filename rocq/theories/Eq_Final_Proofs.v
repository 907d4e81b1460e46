(** The solver of equivalent boreholes for regular fields. *)
From Verif Require Import Base TimeGrid_Spec LinAlg FLS_Model FLS_Sol_Proofs FLS_Line_Proofs.
From Verif Require Import Bore_Model Bore_Spec UniqueDist_Proofs Net_Model Solve_Model Solve_Spec Solve_Sol_Proofs Detailed_Model Detailed_Spec Detailed_Proofs Detailed_Sol_Proofs
  Sim_Model Sim_Spec Sim_Cells_Proofs Sim_Exact_Proofs Eq_Model Eq_Spec Eq_Group_Proofs Eq_Cluster_Proofs Eq_Dist_Proofs Eq_Field_Proofs Eq_Block_Proofs Eq_Main_Proofs Eq_Heat_Proofs Eq_Sym_Proofs.

Local Notation no_eb := (EBore 0 0 0 [] [] 0 []).

Lemma regular_dims tol disTol u M bs n r : regular_field tol disTol u M bs n r -> dims_apart tol bs.
Proof.
  intros [Nb [Vf [Lr [Gr [Og [Rd _]]]]]] a b Ia Ib H1 H2 H3. destruct Og as [G1 [G2 [G3 G]]].
  destruct (G a (in_or_app _ _ _ (or_introl Ia))) as [A1 [A2 [A3 A4]]]. destruct (G b (in_or_app _ _ _ (or_introl Ib))) as [B1 [B2 [B3 B4]]].
  destruct (proj1 Vf a Ia) as [_ [V2 [V3 _]]]. assert (T : 0 < / 10 ^ 30) by (apply Rinv_0_lt_compat, pow_lt; lra).
  split; [|split; [|apply Rd; auto]].
  - apply (multiple_close u); auto; [lra|]. assert (tol * bH a <= tol * (2 * M + / 10 ^ 30)) by (apply Rmult_le_compat_l; lra). lra.
  - apply (multiple_close u); auto; [lra|]. assert (tol * (bD a + / 10 ^ 30) <= tol * (2 * M + / 10 ^ 30)) by (apply Rmult_le_compat_l; lra). lra.
Qed.

(** the boreholes and the distances *)
Lemma regular_some link kC tol disTol u M alpha bs n r : agglomerative link -> regular_field tol disTol u M bs n r ->
  exists ls E dis, equivalent link kC tol disTol alpha bs n r = Some (E, eq_lengths E n r, fun t => eq_matrix tol E n r dis (kernel_e alpha t) (kernel_v alpha t)) /\
    gathers bs ls E /\ (forall p q, (p < length bs)%nat -> (q < length bs)%nat -> nth p ls O = nth q ls O -> same_dims (nth p bs no_bore) (nth q bs no_bore)) /\
    field_distances disTol bs = Some dis.
Proof.
  intros Ag Rf. pose proof (regular_dims _ _ _ _ _ _ _ Rf) as Da. destruct Rf as [Nb [Vf [Lr [Gr [Og [Rd [Lev [Bl [Hd Sp]]]]]]]]].
  destruct (blocks_main link kC tol Ag bs Nb (proj1 (proj2 Og)) Da Bl) as [ls [E [A [B C]]]]; [intros b I; destruct (proj1 Vf b I) as [_ V]; tauto|].
  destruct (field_main disTol bs Hd Nb) as [dis [D _]]; auto; [apply (proj1 Vf), nth_In; auto|].
  exists ls, E, dis. unfold equivalent. rewrite A, D. auto.
Qed.

Lemma lengths_total bs ls E n r : gathers bs ls E -> (forall p q, (p < length bs)%nat -> (q < length bs)%nat -> nth p ls O = nth q ls O -> same_dims (nth p bs no_bore) (nth q bs no_bore)) ->
  vertical_field bs -> length r = n -> Rsum r = 1 -> (0 < length bs)%nat -> sumn (n * length E) (eq_lengths E n r) = total_length bs.
Proof.
  intros Ga Sd Vf Lr Sr Nb. rewrite <- (length_conserved bs ls E Ga Sd). unfold equivalent_length.
  assert (M' : map (fun e => eH e * INR (length (ex e))) E = map (fun i => eH (nth i E no_eb) * INR (length (ex (nth i E no_eb)))) (seq 0 (length E))).
  { apply (list_eq_nth 0); [rewrite !map_length, seq_length; auto|]. intros k Hk. rewrite map_length in Hk. rewrite (nth_map _ _ _ no_eb), (nth_map _ _ _ O) by (rewrite ?seq_length; auto). rewrite seq_nth by auto. auto. }
  rewrite M', Rsum_seq, sumn_blocks. apply sumn_ext. intros i Hi. destruct (e_head bs ls E n r Ga Sd Vf Lr Nb i Hi) as [y Iy].
  destruct (e_props bs ls E n r Ga Sd Vf Lr Nb i Hi) as [_ [_ [_ [_ [_ D]]]]]. destruct (D y Iy) as [-> _]. rewrite (e_count bs ls E n r Ga Sd Vf Lr Nb i Hi).
  rewrite (sumn_ext n _ (fun b => nth b r 0 * (bH (nth y bs no_bore) * INR (length (owners ls (length bs) i))))).
  - rewrite sumn_scal_r. replace (sumn n (fun b => nth b r 0)) with 1; [ring|]. rewrite <- Sr. rewrite <- Lr. clear. induction r as [|x r IH]; auto. cbn [length Rsum]. rewrite sumn_S_l. cbn [nth]. rewrite <- IH. auto.
  - intros b Hb. rewrite (length_at bs ls E n r Ga Sd Vf Lr Nb i b y Hi Hb Iy). apply (in_owner bs ls n r Lr Nb) in Iy.
    destruct (bore_seg_nth (nth y bs no_bore) n r b) as [Q _]; [apply (proj1 Vf), nth_In; tauto|lia|]. unfold sg. rewrite Q. ring.
Qed.

Lemma distances_number E i j : (i < length E)%nat -> (j < length E)%nat -> (forall k, (k < length E)%nat -> length (ex (nth k E no_eb)) = length (ey (nth k E no_eb))) ->
  let N k := length (ex (nth k E no_eb)) in
  length (pair_distances E i j) = if Nat.eqb i j then (N i * (N i - 1))%nat else (N i * N j)%nat.
Proof.
  intros Hi Hj L N. rewrite pair_distances_are by auto. unfold distances_between. fold (N i) (N j).
  assert (C : forall (f : nat -> list R) k l, (forall b, In b l -> length (f b) = k) -> length (concat (map f l)) = (length l * k)%nat).
  { intros f k l. induction l as [|b l IH]; intros Q; auto. cbn [map concat length]. rewrite app_length, IH by (intros; apply Q; right; auto). rewrite Q by (left; auto). lia. }
  destruct (Nat.eqb_spec i j) as [->|Ne]; cbn [andb].
  - rewrite (C _ (N j - 1)%nat), seq_length; auto. intros b Ib. rewrite map_length. apply in_seq in Ib.
    assert (F : forall m s, length (filter (fun a => negb (Nat.eqb a b)) (seq s m)) = if Nat.leb s b && Nat.ltb b (s + m) then (m - 1)%nat else m).
    { induction m as [|m IH]; intros s; cbn [seq filter length]; [destruct (Nat.leb s b && Nat.ltb b (s + 0)); auto|].
      destruct (Nat.eqb_spec s b) as [->|Q]; cbn [negb length]; rewrite IH.
      - replace (Nat.leb (S b) b) with false by (symmetry; apply Nat.leb_gt; lia). rewrite Nat.leb_refl. replace (Nat.ltb b (b + S m)) with true by (symmetry; apply Nat.ltb_lt; lia). cbn [andb]. lia.
      - destruct (Nat.leb_spec (S s) b), (Nat.leb_spec s b); try lia; cbn [andb]; auto. replace (S s + m)%nat with (s + S m)%nat by lia. destruct (Nat.ltb_spec b (s + S m)); lia. }
    rewrite F. cbn [Nat.leb andb plus]. destruct (Nat.ltb_spec b (N j)); lia.
  - rewrite (C _ (N i)), seq_length; [lia|]. intros b Ib. rewrite map_length.
    assert (F : forall l : list nat, filter (fun _ => negb false) l = l) by (induction l as [|a l IH]; cbn; [auto|f_equal; auto]). rewrite F, seq_length. auto.
Qed.

(** the labels are determined by the positions *)
Lemma labels_unique bs ls ls' E : vertical_field bs -> gathers bs ls E -> gathers bs ls' E -> ls = ls'.
Proof.
  intros V [L0 [L1 L2]] [L0' [L1' L2']]. apply (list_eq_nth O); [congruence|]. intros k Hk. rewrite L0 in Hk. set (i := nth k ls O). pose proof (L1 k Hk) as Hi. fold i in Hi.
  destruct (L2 i Hi) as [_ [X [Y _]]]. destruct (L2' i Hi) as [_ [X' [Y' _]]].
  set (ks := filter (fun k => Nat.eqb (nth k ls O) i) (seq 0 (length bs))) in *. set (ks' := filter (fun k => Nat.eqb (nth k ls' O) i) (seq 0 (length bs))) in *.
  assert (Ik : In k ks) by (apply filter_In; split; [apply in_seq; lia|apply Nat.eqb_refl]). destruct (In_nth ks k O Ik) as [q [Hq Eq]].
  assert (Len : length ks = length ks') by (rewrite <- (map_length (fun k => bx (nth k bs no_bore)) ks), <- X, X', map_length; auto).
  set (k' := nth q ks' O). assert (Ik' : In k' ks') by (apply nth_In; lia). apply filter_In in Ik'. destruct Ik' as [K1 K2]. apply in_seq in K1. apply Nat.eqb_eq in K2.
  destruct (Nat.eq_dec k k') as [E1|N]; [rewrite E1; symmetry; exact K2|]. exfalso.
  assert (Bx : bx (nth k bs no_bore) = bx (nth k' bs no_bore)).
  { assert (Q : nth q (ex (nth i E no_eb)) 0 = nth q (ex (nth i E no_eb)) 0) by auto. rewrite X in Q at 1. rewrite X' in Q. rewrite !(nth_map _ _ _ O) in Q by lia. rewrite Eq in Q. exact Q. }
  assert (By : by_ (nth k bs no_bore) = by_ (nth k' bs no_bore)).
  { assert (Q : nth q (ey (nth i E no_eb)) 0 = nth q (ey (nth i E no_eb)) 0) by auto. rewrite Y in Q at 1. rewrite Y' in Q. rewrite !(nth_map _ _ _ O) in Q by lia. rewrite Eq in Q. exact Q. }
  pose proof (proj2 V k k' Hk ltac:(lia) N) as P. unfold planar in P. rewrite Bx, By, !Rminus_eq_0 in P. replace (0 ^ 2 + 0 ^ 2) with 0 in P by ring. rewrite sqrt_0 in P.
  destruct (proj1 V _ (nth_In bs no_bore Hk)) as [_ [_ [_ P0]]]. lra.
Qed.
