(** Proofs on the bore field container. *)
From Verif Require Import Base Bore_Model Bore_Spec Field_Model Field_Spec Bore_Proofs.

Lemma broadcast_length n a l : broadcast n a = Some l -> length l = n.
Proof.
  destruct a as [r|m]; cbn.
  - intros E; injection E as <-. apply repeat_length.
  - destruct (Nat.eqb_spec (length m) n) as [E|E]; [now intros F; injection F as <-|].
    destruct m as [|x [|]]; try discriminate. intros F; injection F as <-. apply repeat_length.
Qed.

Lemma broadcast_same (l : list R) n : length l = n -> broadcast n (Ar l) = Some l.
Proof. intros E. cbn. now rewrite E, Nat.eqb_refl. Qed.

Definition mask (t o : R) : R := if tilted t then o else 0.
Definition masked (t o : list R) : list R := map (fun p => mask (fst p) (snd p)) (combine t o).

Lemma masked_length t o : length t = length o -> length (masked t o) = length t.
Proof. intros E. unfold masked. rewrite map_length, combine_length. lia. Qed.

Lemma masked_all_false t o : length t = length o -> existsb (fun b => b) (map tilted t) = false -> masked t o = repeat 0 (length t).
Proof.
  revert o; induction t as [|a t IH]; intros [|b o] E H; try discriminate; [reflexivity|].
  cbn in *. apply Bool.orb_false_iff in H as [H1 H2]. unfold masked in *. cbn. unfold mask at 1. cbn. rewrite H1. f_equal.
  apply IH; [lia|exact H2].
Qed.

Lemma masked_all_true t o : length t = length o -> forallb (fun b => b) (map tilted t) = true -> masked t o = o.
Proof.
  revert o; induction t as [|a t IH]; intros [|b o] E H; try discriminate; [reflexivity|].
  cbn in *. apply Bool.andb_true_iff in H as [H1 H2]. unfold masked in *. cbn. unfold mask at 1. cbn. rewrite H1. f_equal.
  apply IH; [lia|exact H2].
Qed.

Lemma masked_mixed t o : map (fun p => if snd p : bool then fst p else 0) (combine o (map tilted t)) = masked t o.
Proof.
  revert o; induction t as [|a t IH]; intros [|b o]; try reflexivity.
  unfold masked in *. cbn. rewrite IH. reflexivity.
Qed.

Lemma field_init_eq H D r x y t o H' D' r' x' y' t' o' n :
  n = Nat.max (length (atleast_1d x)) (length (atleast_1d y)) ->
  broadcast n H = Some H' -> broadcast n D = Some D' -> broadcast n r = Some r' ->
  broadcast n (Ar (atleast_1d x)) = Some x' -> broadcast n (Ar (atleast_1d y)) = Some y' ->
  broadcast n t = Some t' -> broadcast n o = Some o' ->
  field_init H D r x y t o = Some (Field H' D' r' x' y' t' (masked t' o')).
Proof.
  intros En EH ED Er Ex Ey Et Eo. unfold field_init. rewrite <- En, EH, ED, Er, Ex, Ey, Et, Eo.
  pose proof (broadcast_length _ _ _ Et) as Lt. pose proof (broadcast_length _ _ _ Eo) as Lo.
  destruct (existsb _ _) eqn:E1; cbn [negb].
  - destruct (forallb _ _) eqn:E2.
    + rewrite masked_all_true by (lia || assumption). reflexivity.
    + rewrite masked_mixed. reflexivity.
  - rewrite (masked_all_false t' o') by (lia || assumption). now rewrite Lt.
Qed.

Lemma nth_masked t o k : length t = length o -> (k < length t)%nat -> nth k (masked t o) 0 = mask (nth k t 0) (nth k o 0).
Proof.
  intros E Hk. unfold masked.
  rewrite (nth_map _ (combine t o) k (0, 0) 0) by (rewrite combine_length; lia). now rewrite combine_nth.
Qed.

Lemma field_ok_masked H D r x y t o n : length H = n -> length D = n -> length r = n -> length x = n -> length y = n ->
  length t = n -> length o = n -> field_ok (Field H D r x y t (masked t o)).
Proof.
  intros. unfold field_ok. cbn [fH fD fr fx fy ft fo]. rewrite masked_length by lia.
  repeat split; try lia. intros k Hk Ht. rewrite nth_masked by lia. unfold mask. now rewrite Ht.
Qed.

(** Every field that is built is well formed. *)
Lemma field_init_ok H D r x y t o f : field_init H D r x y t o = Some f -> field_ok f.
Proof.
  unfold field_init. set (n := Nat.max _ _).
  destruct (broadcast n H) eqn:EH; [|discriminate]. destruct (broadcast n D) eqn:ED; [|discriminate].
  destruct (broadcast n r) eqn:Er; [|discriminate]. destruct (broadcast n (Ar (atleast_1d x))) eqn:Ex; [|discriminate].
  destruct (broadcast n (Ar (atleast_1d y))) eqn:Ey; [|discriminate]. destruct (broadcast n t) as [t'|] eqn:Et; [|discriminate].
  apply broadcast_length in EH, ED, Er, Ex, Ey, Et.
  destruct (existsb _ _) eqn:E1; cbn [negb].
  - destruct (broadcast n o) as [o'|] eqn:Eo; [|destruct (forallb _ _); discriminate].
    apply broadcast_length in Eo. destruct (forallb _ _) eqn:E2; intros E; injection E as <-.
    + rewrite <- (masked_all_true t' o') by (lia || assumption). now apply field_ok_masked with n.
    + rewrite masked_mixed. now apply field_ok_masked with n.
  - intros E; injection E as <-. rewrite <- Et.
    rewrite <- (masked_all_false t' t') by (reflexivity || assumption). now apply field_ok_masked with n.
Qed.

(** * Indexing *)
Definition item (f : field) (k : nat) : bore :=
  mk_bore (nth k (fH f) 0) (nth k (fD f) 0) (nth k (fr f) 0) (nth k (fx f) 0) (nth k (fy f) 0) (nth k (ft f) 0) (nth k (fo f) 0).

Lemma getitem_nat f k : getitem f (Z.of_nat k) = if (k <? nBoreholes f)%nat then Some (item f k) else None.
Proof.
  unfold getitem. destruct (Z.ltb_spec (Z.of_nat k) 0); [lia|].
  destruct (Nat.ltb_spec k (nBoreholes f)).
  - rewrite (proj2 (Z.leb_le _ _)), (proj2 (Z.ltb_lt _ _)) by lia. cbn [andb]. rewrite Nat2Z.id. reflexivity.
  - rewrite (proj2 (Z.ltb_ge _ _)) by lia. now rewrite Bool.andb_false_r.
Qed.

Lemma list_from_eq f fuel k : (nBoreholes f < k + fuel)%nat -> (k <= nBoreholes f)%nat ->
  list_from f k fuel = map (item f) (seq k (nBoreholes f - k)).
Proof.
  revert k; induction fuel as [|m IH]; intros k H1 H2; [lia|].
  cbn [list_from]. rewrite getitem_nat. destruct (Nat.ltb_spec k (nBoreholes f)).
  - rewrite IH by lia. replace (nBoreholes f - k)%nat with (S (nBoreholes f - S k)) by lia. reflexivity.
  - replace (nBoreholes f - k)%nat with O by lia. reflexivity.
Qed.

Lemma to_boreholes_eq f : to_boreholes f = map (item f) (seq 0 (nBoreholes f)).
Proof. unfold to_boreholes. rewrite list_from_eq by lia. now rewrite Nat.sub_0_r. Qed.

Lemma to_boreholes_length f : length (to_boreholes f) = nBoreholes f.
Proof. rewrite to_boreholes_eq, map_length, seq_length. reflexivity. Qed.

Lemma nth_to_boreholes f k : (k < nBoreholes f)%nat -> nth k (to_boreholes f) b0 = item f k.
Proof. intros H. rewrite to_boreholes_eq. now rewrite nth_map_seq. Qed.

Lemma mk_bore_ok H D r x y t o : bore_ok (mk_bore H D r x y t o).
Proof. unfold bore_ok, mk_bore. cbn. intros ->. reflexivity. Qed.

Lemma to_boreholes_ok f b : In b (to_boreholes f) -> bore_ok b.
Proof. rewrite to_boreholes_eq. intros H. apply in_map_iff in H as (k & <- & _). apply mk_bore_ok. Qed.

Lemma mk_bore_id b : bore_ok b -> mk_bore (bH b) (bD b) (br b) (bx b) (by_ b) (btilt b) (bori b) = b.
Proof.
  unfold bore_ok, mk_bore. destruct b as [H D r x y t o]. cbn. intros E.
  destruct (tilted t); [reflexivity|]. now rewrite E.
Qed.

Lemma getitem_py f i : getitem f i = py_index (to_boreholes f) i.
Proof.
  unfold py_index. rewrite to_boreholes_length.
  assert (N : forall k, nth_error (to_boreholes f) k = getitem f (Z.of_nat k)).
  { intros k. rewrite getitem_nat. destruct (Nat.ltb_spec k (nBoreholes f)).
    - rewrite (nth_error_nth' _ b0) by (rewrite to_boreholes_length; lia). now rewrite nth_to_boreholes.
    - apply nth_error_None. rewrite to_boreholes_length. lia. }
  destruct (Z.ltb_spec i 0) as [Hi|Hi].
  - destruct (Z.leb_spec 0 (i + Z.of_nat (nBoreholes f))) as [Hj|Hj].
    + rewrite N. rewrite Z2Nat.id by lia. unfold getitem.
      destruct (Z.ltb_spec i 0); [|lia]. destruct (Z.ltb_spec (i + Z.of_nat (nBoreholes f)) 0); [lia|]. reflexivity.
    + unfold getitem. destruct (Z.ltb_spec i 0); [|lia].
      destruct (Z.leb_spec 0 (i + Z.of_nat (nBoreholes f))); [lia|]. reflexivity.
  - rewrite N, Z2Nat.id by lia. reflexivity.
Qed.

(** * Fields and lists *)
Lemma from_boreholes_eq l :
  from_boreholes l = Some (Field (map bH l) (map bD l) (map br l) (map bx l) (map by_ l) (map btilt l)
                                 (masked (map btilt l) (map bori l))).
Proof.
  unfold from_boreholes. apply field_init_eq with (n := length l);
    try (apply broadcast_same; now rewrite ?map_length).
  cbn [atleast_1d]. rewrite !map_length. lia.
Qed.

Lemma nth_map_b0 (g : bore -> R) (l : list bore) k : (k < length l)%nat -> nth k (map g l) 0 = g (nth k l b0).
Proof. intros H. now apply nth_map. Qed.

Lemma to_from l f : (forall b, In b l -> bore_ok b) -> from_boreholes l = Some f -> to_boreholes f = l.
Proof.
  intros Hl. rewrite from_boreholes_eq. intros E; injection E as <-.
  rewrite to_boreholes_eq. unfold nBoreholes. cbn [fx]. rewrite map_length.
  apply (list_eq_nth b0); [now rewrite map_length, seq_length|].
  intros k Hk. rewrite map_length, seq_length in Hk. rewrite nth_map_seq by lia.
  unfold item. cbn [fH fD fr fx fy ft fo]. rewrite nth_masked by (rewrite ?map_length; lia).
  rewrite !nth_map_b0 by lia. set (b := nth k l b0).
  assert (Hb : bore_ok b) by (apply Hl, nth_In; lia).
  transitivity (mk_bore (bH b) (bD b) (br b) (bx b) (by_ b) (btilt b) (bori b)); [|now apply mk_bore_id].
  unfold mk_bore, mask. now destruct (tilted (btilt b)).
Qed.

Lemma field_inj f g : field_ok f -> field_ok g -> to_boreholes f = to_boreholes g -> f = g.
Proof.
  intros Hf Hg E. assert (N : nBoreholes f = nBoreholes g) by (rewrite <- !to_boreholes_length; now rewrite E).
  assert (I : forall k, (k < nBoreholes f)%nat -> item f k = item g k).
  { intros k Hk. rewrite <- !nth_to_boreholes by lia. now rewrite E. }
  destruct f as [H D r x y t o], g as [H' D' r' x' y' t' o']. unfold field_ok, nBoreholes in *. cbn [fH fD fr fx fy ft fo] in *.
  destruct Hf as (a1 & a2 & a3 & a4 & a5 & a6 & a7), Hg as (c1 & c2 & c3 & c4 & c5 & c6 & c7).
  assert (J : forall k, (k < length x)%nat -> nth k H 0 = nth k H' 0 /\ nth k D 0 = nth k D' 0 /\ nth k r 0 = nth k r' 0
     /\ nth k x 0 = nth k x' 0 /\ nth k y 0 = nth k y' 0 /\ nth k t 0 = nth k t' 0 /\ nth k o 0 = nth k o' 0).
  { intros k Hk. specialize (I k Hk). unfold item, mk_bore in I. cbn [fH fD fr fx fy ft fo] in I.
    injection I as E1 E2 E3 E4 E5 E6 E7. repeat split; try assumption.
    destruct (tilted (nth k t 0)) eqn:T; rewrite E6 in T; rewrite T in E7; [exact E7|].
    rewrite a7 by (lia || (rewrite E6; exact T)). rewrite c7 by (lia || exact T). reflexivity. }
  f_equal; (apply (list_eq_nth 0); [lia|]); intros k Hk; apply J; lia.
Qed.

Lemma from_to f : field_ok f -> from_boreholes (to_boreholes f) = Some f.
Proof.
  intros Hf. destruct (from_boreholes (to_boreholes f)) as [g|] eqn:E.
  - f_equal. apply field_inj; [|exact Hf|].
    + unfold from_boreholes in E. now apply field_init_ok in E.
    + apply to_from in E; [exact E|apply to_boreholes_ok].
  - rewrite from_boreholes_eq in E. discriminate.
Qed.

Lemma from_ok l f : from_boreholes l = Some f -> field_ok f.
Proof. apply field_init_ok. Qed.

(** * Slices *)
Lemma getitems_spec f ks : field_ok f -> (forall k, In k ks -> (k < nBoreholes f)%nat) ->
  exists g, getitems f ks = Some g /\ field_ok g /\ to_boreholes g = map (fun k => nth k (to_boreholes f) b0) ks.
Proof.
  intros Hf Hk.
  assert (E : getitems f ks = from_boreholes (map (fun k => nth k (to_boreholes f) b0) ks)).
  { unfold getitems, from_boreholes, pick. rewrite !map_map.
    assert (M : forall (g : bore -> R) h, (forall k, (k < nBoreholes f)%nat -> g (item f k) = h k) ->
       map (fun k => g (nth k (to_boreholes f) b0)) ks = map h ks).
    { intros g h Hgh. apply map_ext_in. intros k Hin. rewrite nth_to_boreholes by auto. auto. }
    assert (O : forall k, (k < nBoreholes f)%nat -> bori (item f k) = nth k (fo f) 0).
    { intros k Hlt. unfold item, mk_bore. cbn [bori]. destruct Hf as (_ & _ & _ & _ & _ & _ & H7).
      destruct (tilted (nth k (ft f) 0)) eqn:T; [reflexivity|symmetry; now apply H7]. }
    rewrite (M bori (fun k => nth k (fo f) 0) O).
    rewrite (M bH (fun k => nth k (fH f) 0)), (M bD (fun k => nth k (fD f) 0)), (M br (fun k => nth k (fr f) 0)),
      (M bx (fun k => nth k (fx f) 0)), (M by_ (fun k => nth k (fy f) 0)), (M btilt (fun k => nth k (ft f) 0))
      by (intros; reflexivity).
    reflexivity. }
  rewrite E. destruct (from_boreholes _) as [g|] eqn:F; [|rewrite from_boreholes_eq in F; discriminate].
  exists g. split; [reflexivity|]. split; [now apply from_ok in F|].
  apply to_from in F; [exact F|]. intros b Hb. apply in_map_iff in Hb as (k & <- & Hin).
  apply to_boreholes_ok with f. apply nth_In. rewrite to_boreholes_length. auto.
Qed.

(** * Concatenation *)
Lemma operand_list_ok o : operand_ok o -> forall b, In b (operand_list o) -> bore_ok b.
Proof.
  destruct o as [b|l|f]; cbn.
  - intros H c [<-|[]]. exact H.
  - auto.
  - intros _. apply to_boreholes_ok.
Qed.

Lemma add_spec a b : operand_ok a -> operand_ok b ->
  exists c, add a b = Some c /\ operand_ok c /\ operand_list c = operand_list a ++ operand_list b
    /\ is_list c = is_list a && is_list b /\ forall d, c <> OBore d.
Proof.
  intros Ha Hb.
  assert (L : forall x, In x (operand_list a ++ operand_list b) -> bore_ok x).
  { intros x Hx. apply in_app_iff in Hx as [Hx|Hx]; [exact (operand_list_ok a Ha x Hx)|exact (operand_list_ok b Hb x Hx)]. }
  assert (F : is_list a && is_list b = false -> add a b = option_map OField (from_boreholes (operand_list a ++ operand_list b))).
  { destruct a, b; cbn; intros E; try reflexivity; discriminate E. }
  destruct (is_list a && is_list b) eqn:E.
  - destruct a as [|l|], b as [|m|]; try discriminate. exists (OList (l ++ m)). cbn. repeat split; try discriminate. exact L.
  - rewrite F by reflexivity. destruct (from_boreholes _) as [g|] eqn:G; [|rewrite from_boreholes_eq in G; discriminate].
    exists (OField g). split; [reflexivity|]. split; [now apply from_ok in G|].
    split; [now apply to_from in G|]. split; [reflexivity|discriminate].
Qed.

Lemma add_assoc a b c ab bc : operand_ok a -> operand_ok b -> operand_ok c ->
  add a b = Some ab -> add b c = Some bc -> add ab c = add a bc /\ add ab c <> None.
Proof.
  intros Ha Hb Hc E1 E2.
  destruct (add_spec a b Ha Hb) as (ab' & A1 & A2 & A3 & A4 & _). rewrite A1 in E1; injection E1 as <-.
  destruct (add_spec b c Hb Hc) as (bc' & B1 & B2 & B3 & B4 & _). rewrite B1 in E2; injection E2 as <-.
  destruct (add_spec ab' c A2 Hc) as (l & L1 & L2 & L3 & L4 & L5). destruct (add_spec a bc' Ha B2) as (m & M1 & M2 & M3 & M4 & M5).
  rewrite L1, M1. split; [|discriminate]. f_equal.
  assert (E : operand_list l = operand_list m) by (rewrite L3, M3, A3, B3; now rewrite app_assoc).
  assert (K : is_list l = is_list m) by (rewrite L4, M4, A4, B4; now rewrite Bool.andb_assoc).
  destruct l as [x|l|l], m as [z|m|m]; try (now destruct (L5 x)); try (now destruct (M5 z)); try discriminate.
  - cbn in E. now rewrite E.
  - f_equal. apply field_inj; assumption.
Qed.

(** * Files *)
Lemma column_to_file f k l : field_ok f -> nth k [fx f; fy f; fH f; fD f; fr f; ft f; fo f] [] = l ->
  (k < 7)%nat -> column k (to_file f) = l.
Proof.
  intros (a1 & a2 & a3 & a4 & a5 & a6 & _) <- Hk. unfold column, to_file. rewrite map_map.
  assert (L : length (nth k [fx f; fy f; fH f; fD f; fr f; ft f; fo f] []) = nBoreholes f).
  { unfold nBoreholes. do 7 (destruct k as [|k]; [cbn [nth]; lia|]). lia. }
  transitivity (map (fun i => nth i (nth k [fx f; fy f; fH f; fD f; fr f; ft f; fo f] []) 0) (seq 0 (nBoreholes f)));
    [|rewrite <- L; apply map_nth_seq].
  apply map_ext. intros i.
  do 7 (destruct k as [|k]; [reflexivity|]). lia.
Qed.

Lemma file_round_trip f : field_ok f -> (1 <= nBoreholes f)%nat -> from_file (to_file f) = Some f.
Proof.
  intros Hf Hn.
  transitivity (from_boreholes (to_boreholes f)); [|now apply from_to]. unfold from_boreholes.
  assert (T : forall (g : bore -> R) l, (forall k, (k < nBoreholes f)%nat -> g (item f k) = nth k l 0) -> length l = nBoreholes f ->
     map g (to_boreholes f) = l).
  { intros g l Hg Hl. apply (list_eq_nth 0); rewrite map_length, to_boreholes_length; [now symmetry|].
    intros k Hk. rewrite nth_map_b0 by (rewrite to_boreholes_length; lia). rewrite nth_to_boreholes by lia. auto. }
  pose proof Hf as (a1 & a2 & a3 & a4 & a5 & a6 & a7).
  rewrite (T bH (fH f)), (T bD (fD f)), (T br (fr f)), (T bx (fx f)), (T by_ (fy f)), (T btilt (ft f)), (T bori (fo f));
    try assumption; try reflexivity.
  - unfold from_file. destruct (to_file f) as [|row d] eqn:E.
    + apply (f_equal (@length _)) in E. unfold to_file in E. rewrite map_length, seq_length in E. cbn in E. lia.
    + assert (Er : length row = 7%nat).
      { assert (In row (to_file f)) by (rewrite E; now left). unfold to_file in H.
        apply in_map_iff in H as (k & <- & _). reflexivity. }
      rewrite Er. cbn [Nat.ltb Nat.leb Nat.eqb]. rewrite <- E.
      rewrite (column_to_file f 2 (fH f)), (column_to_file f 3 (fD f)), (column_to_file f 4 (fr f)), (column_to_file f 0 (fx f)),
        (column_to_file f 1 (fy f)), (column_to_file f 5 (ft f)), (column_to_file f 6 (fo f)) by (assumption || reflexivity || lia).
      reflexivity.
  - intros k Hk. cbn [bori item mk_bore]. destruct (tilted (nth k (ft f) 0)) eqn:Q; [reflexivity|symmetry; now apply a7].
Qed.

Lemma field_from_file_eq d m : d <> [] -> (5 <= m)%nat -> (forall row, In row d -> length row = m) ->
  field_from_file d = option_map to_boreholes (from_file d) /\ from_file d <> None.
Proof.
  intros Hd Hm Hr. unfold field_from_file.
  assert (X : existsb (fun row : list R => (length row <? 5)%nat) d = false).
  { apply Bool.not_true_is_false. intros X. apply existsb_exists in X as (row & Hin & Hlt).
    apply Nat.ltb_lt in Hlt. rewrite (Hr row Hin) in Hlt. lia. }
  rewrite X. destruct d as [|row d']; [congruence|]. set (d := row :: d') in *.
  assert (Er : length row = m) by (apply Hr; now left).
  change (from_file d) with (if (length row <? 5)%nat then None else
      let t := if (length row =? 7)%nat then Ar (column 5 d) else Sc 0 in
      let o := if (length row =? 7)%nat then Ar (column 6 d) else Sc 0 in
      field_init (Ar (column 2 d)) (Ar (column 3 d)) (Ar (column 4 d)) (Ar (column 0 d)) (Ar (column 1 d)) t o).
  rewrite Er. destruct (Nat.ltb_spec m 5); [lia|]. cbn zeta.
  set (n := length d).
  set (t := if (m =? 7)%nat then column 5 d else repeat 0 n). set (o := if (m =? 7)%nat then column 6 d else repeat 0 n).
  assert (C : forall k, length (column k d) = n) by (intros; unfold column; apply map_length).
  assert (Lt : length t = n) by (unfold t; destruct (m =? 7)%nat; [apply C|apply repeat_length]).
  assert (Lo : length o = n) by (unfold o; destruct (m =? 7)%nat; [apply C|apply repeat_length]).
  rewrite (field_init_eq _ _ _ _ _ _ _ (column 2 d) (column 3 d) (column 4 d) (column 0 d) (column 1 d) t o n).
  - split; [|discriminate]. cbn [option_map]. f_equal. rewrite to_boreholes_eq. unfold nBoreholes. cbn [fx]. rewrite C.
    apply (list_eq_nth b0); [now rewrite !map_length, seq_length|].
    intros k Hk. rewrite map_length in Hk. rewrite nth_map_seq by exact Hk.
    rewrite (nth_map _ d k [] b0) by exact Hk. unfold item. cbn [fH fD fr fx fy ft fo].
    rewrite nth_masked by lia.
    assert (N : forall c, nth k (column c d) 0 = nth c (nth k d []) 0).
    { intros c. unfold column. now rewrite (nth_map _ d k [] 0) by exact Hk. }
    rewrite !N. rewrite (Hr (nth k d [])) by (apply nth_In; exact Hk).
    unfold t, o. destruct (m =? 7)%nat.
    + rewrite !N. unfold mk_bore, mask. f_equal. now destruct (tilted _).
    + rewrite !nth_repeat. unfold mk_bore, mask. f_equal. now destruct (tilted 0).
  - cbn [atleast_1d]. rewrite !C. lia.
  - apply broadcast_same, C.
  - apply broadcast_same, C.
  - apply broadcast_same, C.
  - apply broadcast_same, C.
  - apply broadcast_same, C.
  - unfold t. destruct (m =? 7)%nat; [apply broadcast_same, C|reflexivity].
  - unfold o. destruct (m =? 7)%nat; [apply broadcast_same, C|reflexivity].
Qed.

(** * Equality *)
Lemma isclose_refl a : isclose a a = true.
Proof.
  unfold isclose. apply Rleb_true. rewrite Rminus_diag_eq, Rabs_R0 by reflexivity.
  pose proof (Rabs_pos a). nra.
Qed.
Lemma allclose_refl l : allclose l l = true.
Proof. unfold allclose. induction l as [|a l IH]; [reflexivity|]. cbn. now rewrite isclose_refl. Qed.
Lemma field_eq_refl f : field_eq f f = true.
Proof. unfold field_eq. now rewrite Nat.eqb_refl, !allclose_refl. Qed.

Lemma allclose_spec a b : length a = length b ->
  (allclose a b = true <-> forall k, (k < length a)%nat -> within (nth k a 0) (nth k b 0)).
Proof.
  unfold allclose. revert b; induction a as [|x a IH]; intros [|y b] E; try discriminate.
  - cbn. split; [intros _ k Hk; lia|reflexivity].
  - cbn [combine forallb fst snd]. rewrite Bool.andb_true_iff, IH by (cbn in E; lia).
    unfold isclose. rewrite Rleb_true. split.
    + intros [H1 H2] [|k] Hk; [exact H1|]. cbn. apply H2. cbn in Hk. lia.
    + intros H. split; [apply (H O); cbn; lia|]. intros k Hk. apply (H (S k)). cbn. lia.
Qed.

Lemma field_eq_spec f g : field_ok f -> field_ok g ->
  (field_eq f g = true <-> nBoreholes f = nBoreholes g /\
     forall k, (k < nBoreholes f)%nat -> close_bores (nth k (to_boreholes f) b0) (nth k (to_boreholes g) b0)).
Proof.
  intros Hf Hg. pose proof Hf as (a1 & a2 & a3 & a4 & a5 & a6 & a7). pose proof Hg as (c1 & c2 & c3 & c4 & c5 & c6 & c7).
  assert (O : forall h, field_ok h -> forall k, (k < nBoreholes h)%nat -> bori (item h k) = nth k (fo h) 0).
  { intros h (_ & _ & _ & _ & _ & _ & H7) k Hk. unfold item, mk_bore. cbn [bori].
    destruct (tilted (nth k (ft h) 0)) eqn:T; [reflexivity|symmetry; now apply H7]. }
  unfold field_eq. destruct (Nat.eqb_spec (nBoreholes f) (nBoreholes g)) as [N|N]; cbn [andb].
  - unfold nBoreholes in *. rewrite !Bool.andb_true_iff. rewrite !allclose_spec by lia. rewrite a1, a2, a3, a4, a5, a6. split.
    + intros ((((((x1 & x2) & x3) & x4) & x5) & x6) & x7). split; [exact N|]. intros k Hk.
      rewrite !nth_to_boreholes by (unfold nBoreholes; lia). unfold close_bores.
      rewrite !O by (assumption || (unfold nBoreholes; lia)). cbn [item mk_bore bH bD br bx by_ btilt].
      repeat split; auto.
    + intros [_ Hc]. assert (Q : forall k, (k < length (fx f))%nat -> close_bores (item f k) (item g k)).
      { intros k Hk. rewrite <- !nth_to_boreholes by (unfold nBoreholes; lia). auto. }
      repeat split; intros k Hk; destruct (Q k Hk) as (y1 & y2 & y3 & y4 & y5 & y6 & y7); try assumption.
      rewrite !O in y7 by (assumption || (unfold nBoreholes; lia)). exact y7.
  - split; [discriminate|]. intros [E _]. congruence.
Qed.

Lemma field_eq_asym : exists f g, field_ok f /\ field_ok g /\ field_eq f g = true /\ field_eq g f = false.
Proof.
  set (one := fun h : R => Field [h] [2] [1] [0] [0] [0] [0]).
  assert (K : forall h, field_ok (one h)).
  { intros h. unfold field_ok, one. cbn. repeat split. intros [|k] Hk _; [reflexivity|lia]. }
  assert (E : forall a b, field_eq (one a) (one b) = isclose a b).
  { intros a b. unfold field_eq, one, nBoreholes, allclose. cbn [fH fD fr fx fy ft fo length combine forallb fst snd Nat.eqb].
    rewrite !isclose_refl. cbn. now rewrite !Bool.andb_true_r. }
  exists (one 1), (one (1 + 1001 / 10 ^ 8 + 5 / 10 ^ 11)). split; [apply K|]. split; [apply K|]. rewrite !E. unfold isclose. split.
  - apply Rleb_true. rewrite Rabs_left by lra. rewrite Rabs_right by lra. lra.
  - apply Rleb_false. rewrite !Rabs_right by lra. lra.
Qed.

(** * The constructor *)
Lemma broadcast_fits n a : fits n a -> exists l, broadcast n a = Some l /\ length l = n /\ forall k, (k < n)%nat -> nth k l 0 = value a k.
Proof.
  assert (Rp : forall v k, (k < n)%nat -> nth k (repeat v n) 0 = v).
  { intros v k Hk. rewrite (nth_indep _ 0 v) by (rewrite repeat_length; exact Hk). apply nth_repeat. }
  destruct a as [r|l]; cbn.
  - intros _. exists (repeat r n). split; [reflexivity|]. split; [apply repeat_length|]. apply Rp.
  - intros H. destruct (Nat.eqb_spec (length l) n) as [E|E].
    + exists l. split; [reflexivity|]. split; [exact E|]. intros k Hk. destruct (Nat.eqb_spec (length l) 1); [|reflexivity].
      now replace k with O by lia.
    + destruct H as [H|H]; [contradiction|]. destruct l as [|r [|]]; try discriminate.
      exists (repeat r n). split; [reflexivity|]. split; [apply repeat_length|]. intros k Hk. now apply Rp.
Qed.

Lemma broadcast_none n a : ~ fits n a -> broadcast n a = None.
Proof.
  destruct a as [r|l]; cbn; [intros H; now destruct H|]. intros H.
  destruct (Nat.eqb_spec (length l) n); [tauto|]. destruct l as [|r [|]]; try reflexivity. now destruct H; right.
Qed.

Lemma fits_1d n a : fits n (Ar (atleast_1d a)) <-> fits n a.
Proof. destruct a as [r|l]; cbn; tauto. Qed.
Lemma value_1d a k : value (Ar (atleast_1d a)) k = value a k.
Proof. destruct a; reflexivity. Qed.
Lemma size_1d a : length (atleast_1d a) = size a.
Proof. destruct a; reflexivity. Qed.

Lemma constructor_spec H D r x y t o : let n := Nat.max (size x) (size y) in
  (fits n H -> fits n D -> fits n r -> fits n x -> fits n y -> fits n t -> fits n o ->
     exists f, field_init H D r x y t o = Some f /\ nBoreholes f = n /\ forall k, (k < n)%nat ->
       nth k (to_boreholes f) b0 = mk_bore (value H k) (value D k) (value r k) (value x k) (value y k) (value t k) (value o k))
  /\ (~ (fits n H /\ fits n D /\ fits n r /\ fits n x /\ fits n y /\ fits n t) -> field_init H D r x y t o = None).
Proof.
  cbn zeta. set (n := Nat.max _ _).
  assert (En : n = Nat.max (length (atleast_1d x)) (length (atleast_1d y))) by (now rewrite !size_1d).
  split.
  - intros h1 h2 h3 h4 h5 h6 h7. apply fits_1d in h4, h5.
    destruct (broadcast_fits _ _ h1) as (H' & a1 & b1 & c1). destruct (broadcast_fits _ _ h2) as (D' & a2 & b2 & c2).
    destruct (broadcast_fits _ _ h3) as (r' & a3 & b3 & c3). destruct (broadcast_fits _ _ h4) as (x' & a4 & b4 & c4).
    destruct (broadcast_fits _ _ h5) as (y' & a5 & b5 & c5). destruct (broadcast_fits _ _ h6) as (t' & a6 & b6 & c6).
    destruct (broadcast_fits _ _ h7) as (o' & a7 & b7 & c7).
    eexists. split; [now apply (field_init_eq _ _ _ _ _ _ _ H' D' r' x' y' t' o' n)|].
    split; [unfold nBoreholes; exact b4|]. intros k Hk. rewrite nth_to_boreholes by (unfold nBoreholes; cbn [fx]; lia).
    unfold item. cbn [fH fD fr fx fy ft fo]. rewrite nth_masked by lia.
    rewrite c1, c2, c3, c4, c5, c6, c7 by exact Hk. rewrite !value_1d. unfold mk_bore, mask. f_equal. now destruct (tilted _).
  - intros Hn. unfold field_init. rewrite <- En.
    destruct (broadcast n H) eqn:a1; [|reflexivity]. destruct (broadcast n D) eqn:a2; [|reflexivity].
    destruct (broadcast n r) eqn:a3; [|reflexivity]. destruct (broadcast n (Ar (atleast_1d x))) eqn:a4; [|reflexivity].
    destruct (broadcast n (Ar (atleast_1d y))) eqn:a5; [|reflexivity]. destruct (broadcast n t) eqn:a6; [|reflexivity].
    exfalso. apply Hn.
    assert (F : forall a l, broadcast n a = Some l -> fits n a).
    { intros a q E. destruct a as [v|m]; [exact I|]. cbn in E |- *. destruct (Nat.eqb_spec (length m) n); [now left|].
      destruct m as [|v [|]]; try discriminate. now right. }
    rewrite <- (fits_1d n x), <- (fits_1d n y). repeat split; eapply F; eassumption.
Qed.
