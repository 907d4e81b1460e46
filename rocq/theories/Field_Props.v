(** Bore fields: C14 - C18, C61 - C64. *)
From Verif Require Import Base Bore_Model Bore_Spec Field_Model Field_Spec Field_Proofs FieldLayout_Proofs FieldStag_Proofs.
From Coq Require Import Permutation.

(** C14 *)
Theorem C14_rectangle N1 N2 B1 B2 H D r tilt o :
  built (lattice B1 B2) (fun i j => i < N1 /\ j < N2)%nat (N1 * N2) H D r tilt (center N1 N2 B1 B2 o) (rectangle_field N1 N2 B1 B2 H D r tilt o).
Proof. exact (rectangle_built N1 N2 B1 B2 H D r tilt o). Qed.
Print Assumptions C14_rectangle.

Theorem C14_row_order N1 N2 B1 B2 H D r tilt o f i j : rectangle_field N1 N2 B1 B2 H D r tilt o = Some f ->
  (i < N1)%nat -> (j < N2)%nat -> position (nth (j * N1 + i) (to_boreholes f) b0) = lattice B1 B2 i j.
Proof. exact (rectangle_order N1 N2 B1 B2 H D r tilt o f i j). Qed.
Print Assumptions C14_row_order.

Theorem C14_legacy_rectangle N1 N2 B1 B2 H D r tilt o : let l := legacy_rectangle N1 N2 B1 B2 H D r tilt o in
  length l = (N1 * N2)%nat /\ layout (lattice B1 B2) (fun i j => i < N1 /\ j < N2)%nat l /\ dims H D r l.
Proof. exact (legacy_rectangle_layout N1 N2 B1 B2 H D r tilt o). Qed.
Print Assumptions C14_legacy_rectangle.

(** C14, C15: boreholes of a lattice layout do not crowd. *)
Theorem C14_spacing B1 B2 P l : 0 < B1 -> 0 < B2 -> layout (lattice B1 B2) P l -> spaced (Rmin B1 B2) l.
Proof. exact (lattice_spaced B1 B2 P l). Qed.
Print Assumptions C14_spacing.

Example C14_example : exists f, rectangle_field 3 2 5 6 100 2 (1/10) 0 None = Some f /\ length (to_boreholes f) = 6%nat
  /\ position (nth 5 (to_boreholes f) b0) = (INR 2 * 5, INR 1 * 6).
Proof.
  destruct (C14_rectangle 3 2 5 6 100 2 (1/10) 0 None) as (f & E & _ & L & _). exists f. split; [exact E|]. split; [exact L|].
  apply (C14_row_order 3 2 5 6 100 2 (1/10) 0 None f 2 1 E); lia.
Qed.

(** C15 *)
Theorem C15_L N1 N2 B1 B2 H D r tilt o : (1 <= N1)%nat -> (1 <= N2)%nat ->
  built (lattice B1 B2) (fun i j => (i < N1 /\ j = 0) \/ (i = 0 /\ j < N2))%nat (N1 + N2 - 1) H D r tilt (center N1 N2 B1 B2 o)
    (L_field N1 N2 B1 B2 H D r tilt o).
Proof. exact (L_built N1 N2 B1 B2 H D r tilt o). Qed.
Print Assumptions C15_L.

Theorem C15_U N1 N2 B1 B2 H D r tilt o : (1 <= N1)%nat -> (1 <= N2)%nat ->
  built (lattice B1 B2) (fun i j => (i < N1 /\ j < N2) /\ (j = 0 \/ i = 0 \/ i = N1 - 1))%nat (N1 + Nat.min N1 2 * (N2 - 1)) H D r tilt
    (center N1 N2 B1 B2 o) (U_field N1 N2 B1 B2 H D r tilt o).
Proof. exact (U_built N1 N2 B1 B2 H D r tilt o). Qed.
Print Assumptions C15_U.

Theorem C15_box N1 N2 B1 B2 H D r tilt o : (1 <= N1)%nat -> (1 <= N2)%nat ->
  built (lattice B1 B2) (fun i j => (i < N1 /\ j < N2) /\ (j = 0 \/ j = N2 - 1 \/ i = 0 \/ i = N1 - 1))%nat
    (N1 + Nat.min N1 2 * (N2 - 2) + (if (1 <? N2) then N1 else 0))%nat H D r tilt
    (center N1 N2 B1 B2 o) (box_field N1 N2 B1 B2 H D r tilt o).
Proof. exact (box_built N1 N2 B1 B2 H D r tilt o). Qed.
Print Assumptions C15_box.

(** C15: the counts of sizes that are not degenerate. *)
Theorem C15_counts N1 N2 : (2 <= N1)%nat -> (2 <= N2)%nat ->
  (N1 + Nat.min N1 2 * (N2 - 1) = N1 + 2 * (N2 - 1)
   /\ N1 + Nat.min N1 2 * (N2 - 2) + (if (1 <? N2) then N1 else 0) = 2 * (N1 - 1) + 2 * (N2 - 1))%nat.
Proof. intros H1 H2. rewrite Nat.min_r by lia. destruct (Nat.ltb_spec 1 N2); lia. Qed.
Print Assumptions C15_counts.

Theorem C15_legacy_L N1 N2 B1 B2 H D r tilt o : (1 <= N1)%nat -> (1 <= N2)%nat -> let l := legacy_L N1 N2 B1 B2 H D r tilt o in
  length l = (N1 + N2 - 1)%nat /\ layout (lattice B1 B2) (fun i j => (i < N1 /\ j = 0) \/ (i = 0 /\ j < N2))%nat l /\ dims H D r l.
Proof. exact (legacy_L_layout N1 N2 B1 B2 H D r tilt o). Qed.
Print Assumptions C15_legacy_L.

Theorem C15_legacy_U N1 N2 B1 B2 H D r tilt o : (1 <= N1)%nat -> (1 <= N2)%nat -> let l := legacy_U N1 N2 B1 B2 H D r tilt o in
  length l = (N1 + Nat.min N1 2 * (N2 - 1))%nat
  /\ layout (lattice B1 B2) (fun i j => (i < N1 /\ j < N2) /\ (j = 0 \/ i = 0 \/ i = N1 - 1))%nat l /\ dims H D r l.
Proof. exact (legacy_U_layout N1 N2 B1 B2 H D r tilt o). Qed.
Print Assumptions C15_legacy_U.

Theorem C15_legacy_box N1 N2 B1 B2 H D r tilt o : (1 <= N1)%nat -> (1 <= N2)%nat -> let l := legacy_box N1 N2 B1 B2 H D r tilt o in
  length l = (N1 + Nat.min N1 2 * (N2 - 2) + (if (1 <? N2) then N1 else 0))%nat
  /\ layout (lattice B1 B2) (fun i j => (i < N1 /\ j < N2) /\ (j = 0 \/ j = N2 - 1 \/ i = 0 \/ i = N1 - 1))%nat l /\ dims H D r l.
Proof. exact (legacy_box_layout N1 N2 B1 B2 H D r tilt o). Qed.
Print Assumptions C15_legacy_box.

Example C15_example : exists f, box_field 4 3 5 5 100 2 (1/10) 0 None = Some f /\ length (to_boreholes f) = 10%nat.
Proof. destruct (C15_box 4 3 5 5 100 2 (1/10) 0 None) as (f & E & _ & L & _); [lia|lia|]. exists f. split; [exact E|exact L]. Qed.

(** C16 *)
Theorem C16_staggered N1 N2 B1 B2 H D r last tilt o : (2 <= N1)%nat -> (2 <= N2)%nat ->
  built (half_shifted B1 B2) (stag_in N1 N2 last) (staggered_count N1 N2 last) H D r tilt (stag_center N1 N2 B1 B2 last o)
    (staggered_field N1 N2 B1 B2 H D r last tilt o).
Proof. exact (staggered_built N1 N2 B1 B2 H D r last tilt o). Qed.
Print Assumptions C16_staggered.

Theorem C16_staggered_line N1 N2 B1 B2 H D r last tilt o : N1 = 1%nat \/ N2 = 1%nat ->
  staggered_field N1 N2 B1 B2 H D r last tilt o = rectangle_field N1 N2 B1 B2 H D r tilt o.
Proof. exact (staggered_degenerate N1 N2 B1 B2 H D r last tilt o). Qed.
Print Assumptions C16_staggered_line.

Theorem C16_staggered_spacing B1 B2 d P l : 0 < B1 -> 0 < B2 -> 0 <= d -> d <= B1 -> d <= 2 * B2 -> d * d <= B1 ^ 2 / 4 + B2 ^ 2 ->
  layout (half_shifted B1 B2) P l -> spaced d l.
Proof. exact (staggered_spaced B1 B2 d P l). Qed.
Print Assumptions C16_staggered_spacing.

Theorem C16_dense N1 N2 B H D r last tilt o : 0 < B -> (1 <= N1)%nat -> (1 <= N2)%nat -> (2 <= N1 * N2)%nat ->
  exists f, dense_field N1 N2 B H D r last tilt o = Some f /\ field_ok f
    /\ length (to_boreholes f) = (if (N1 =? 1) || (N2 =? 1) then N1 * N2 else staggered_count N1 N2 last)%nat
    /\ spaced B (to_boreholes f) /\ neighbour_at B (to_boreholes f).
Proof. exact (dense_main N1 N2 B H D r last tilt o). Qed.
Print Assumptions C16_dense.

(** C16: the default origin is the centre of the field. *)
Theorem C16_default_origin N1 N2 B1 B2 H D r last tilt f : 0 < B1 -> 0 < B2 -> (2 <= N1)%nat -> (2 <= N2)%nat ->
  staggered_field N1 N2 B1 B2 H D r last tilt None = Some f ->
  centred (stag_center N1 N2 B1 B2 last None) (to_boreholes f).
Proof. exact (staggered_centred N1 N2 B1 B2 H D r last tilt f). Qed.
Print Assumptions C16_default_origin.

Example C16_example : staggered_count 3 5 false = 13%nat /\ stag_in 3 5 false 1 1 /\ ~ stag_in 3 5 false 2 1 /\ stag_in 3 5 true 2 1.
Proof.
  split; [reflexivity|]. split; [split; [lia|right; right; lia]|]. split; [|split; [lia|now left]].
  intros [_ [X|[X|X]]]; discriminate || lia.
Qed.

(** C17 *)
Theorem C17_circle N Rad H D r tilt o : 0 < Rad ->
  exists f, circle_field N Rad H D r tilt o = Some f /\ field_ok f
    /\ length (to_boreholes f) = N
    /\ (forall b, In b (to_boreholes f) -> as_specified H D r tilt (circle_center o) b /\ sqrt (bx b ^ 2 + by_ b ^ 2) = Rad)
    /\ ((1 <= N)%nat -> position (nth 0 (to_boreholes f) b0) = (Rad, 0))
    /\ forall i j, (i < j < N)%nat ->
         plane_dist (nth i (to_boreholes f) b0) (nth j (to_boreholes f) b0) = 2 * Rad * sin (PI * INR (j - i) / INR N)
         /\ 0 < plane_dist (nth i (to_boreholes f) b0) (nth j (to_boreholes f) b0).
Proof. exact (circle_main N Rad H D r tilt o). Qed.
Print Assumptions C17_circle.

Example C17_example : exists f, circle_field 8 5 100 2 (1/10) 0 None = Some f /\ length (to_boreholes f) = 8%nat.
Proof. destruct (C17_circle 8 5 100 2 (1/10) 0 None) as (f & E & _ & L & _); [lra|]. now exists f. Qed.

(** C18 *)
Theorem C18_constructor_ok H D r x y t o f : field_init H D r x y t o = Some f -> field_ok f.
Proof. exact (field_init_ok H D r x y t o f). Qed.
Print Assumptions C18_constructor_ok.

(** C18: the constructor broadcasts its arguments and refuses sizes that do not fit. *)
Theorem C18_constructor H D r x y t o : let n := Nat.max (size x) (size y) in
  (fits n H -> fits n D -> fits n r -> fits n x -> fits n y -> fits n t -> fits n o ->
     exists f, field_init H D r x y t o = Some f /\ nBoreholes f = n /\ forall k, (k < n)%nat ->
       nth k (to_boreholes f) b0 = mk_bore (value H k) (value D k) (value r k) (value x k) (value y k) (value t k) (value o k))
  /\ (~ (fits n H /\ fits n D /\ fits n r /\ fits n x /\ fits n y /\ fits n t) -> field_init H D r x y t o = None).
Proof. exact (constructor_spec H D r x y t o). Qed.
Print Assumptions C18_constructor.

(** Three boreholes in a column: scalar x, array y. *)
Example C18_constructor_example : let y := Ar [0; 5; 10] in
  Nat.max (size (Sc 1)) (size y) = 3%nat /\ fits 3 (Sc 1) /\ fits 3 y /\ fits 3 (Ar [100]) /\ ~ fits 3 (Ar [1; 2]).
Proof. cbn. repeat split; auto. intros [X|X]; discriminate. Qed.

Theorem C18_list_of_field f : field_ok f -> from_boreholes (to_boreholes f) = Some f.
Proof. exact (from_to f). Qed.
Print Assumptions C18_list_of_field.

Theorem C18_field_of_list l f : (forall b, In b l -> bore_ok b) -> from_boreholes l = Some f -> to_boreholes f = l.
Proof. exact (to_from l f). Qed.
Print Assumptions C18_field_of_list.

Theorem C18_index f i : getitem f i = py_index (to_boreholes f) i.
Proof. exact (getitem_py f i). Qed.
Print Assumptions C18_index.

Theorem C18_slice f ks : field_ok f -> (forall k, In k ks -> (k < nBoreholes f)%nat) ->
  exists g, getitems f ks = Some g /\ field_ok g /\ to_boreholes g = map (fun k => nth k (to_boreholes f) b0) ks.
Proof. exact (getitems_spec f ks). Qed.
Print Assumptions C18_slice.

Theorem C18_add a b : operand_ok a -> operand_ok b ->
  exists c, add a b = Some c /\ operand_ok c /\ operand_list c = operand_list a ++ operand_list b
    /\ is_list c = is_list a && is_list b /\ forall d, c <> OBore d.
Proof. exact (add_spec a b). Qed.
Print Assumptions C18_add.

Theorem C18_add_assoc a b c ab bc : operand_ok a -> operand_ok b -> operand_ok c ->
  add a b = Some ab -> add b c = Some bc -> add ab c = add a bc /\ add ab c <> None.
Proof. exact (add_assoc a b c ab bc). Qed.
Print Assumptions C18_add_assoc.

(** A field with one vertical and one inclined borehole. *)
Example C18_example : let l := [Bore 100 2 1 0 0 0 0; Bore 120 2 1 5 0 (1/4) 2] in
  (forall b, In b l -> bore_ok b) /\ exists f, from_boreholes l = Some f /\ field_ok f /\ nBoreholes f = 2%nat.
Proof.
  cbn zeta. split.
  - intros b [<-|[<-|[]]]; intros T; [reflexivity|]. exfalso. unfold tilted in T. cbn [btilt] in T.
    apply Rltb_false in T. rewrite Rabs_right in T; lra.
  - rewrite from_boreholes_eq. eexists. split; [reflexivity|]. split; [|reflexivity].
    now apply field_ok_masked with 2%nat.
Qed.

(** C61: the deprecated builders return the boreholes of the class methods. *)
Theorem C61_rectangle N1 N2 B1 B2 H D r tilt o f : rectangle_field N1 N2 B1 B2 H D r tilt o = Some f ->
  (forall b, In b (to_boreholes f) -> off_circle r (center N1 N2 B1 B2 o) (position b)) ->
  legacy_rectangle N1 N2 B1 B2 H D r tilt o = to_boreholes f.
Proof. exact (legacy_rectangle_agrees N1 N2 B1 B2 H D r tilt o f). Qed.
Print Assumptions C61_rectangle.

Theorem C61_L N1 N2 B1 B2 H D r tilt o f : L_field N1 N2 B1 B2 H D r tilt o = Some f ->
  (forall b, In b (to_boreholes f) -> off_circle r (center N1 N2 B1 B2 o) (position b)) ->
  legacy_L N1 N2 B1 B2 H D r tilt o = to_boreholes f.
Proof. exact (legacy_L_agrees N1 N2 B1 B2 H D r tilt o f). Qed.
Print Assumptions C61_L.

Theorem C61_U N1 N2 B1 B2 H D r tilt o f : U_field N1 N2 B1 B2 H D r tilt o = Some f ->
  (forall b, In b (to_boreholes f) -> off_circle r (center N1 N2 B1 B2 o) (position b)) ->
  legacy_U N1 N2 B1 B2 H D r tilt o = to_boreholes f.
Proof. exact (legacy_U_agrees N1 N2 B1 B2 H D r tilt o f). Qed.
Print Assumptions C61_U.

Theorem C61_box N1 N2 B1 B2 H D r tilt o f : (1 <= N2)%nat -> box_field N1 N2 B1 B2 H D r tilt o = Some f ->
  (forall b, In b (to_boreholes f) -> off_circle r (center N1 N2 B1 B2 o) (position b)) ->
  Permutation (legacy_box N1 N2 B1 B2 H D r tilt o) (to_boreholes f).
Proof. exact (legacy_box_agrees N1 N2 B1 B2 H D r tilt o f). Qed.
Print Assumptions C61_box.

(** C61: with an explicit origin only. *)
Theorem C61_staggered_partial N1 N2 B1 B2 H D r last tilt p f : (1 <= N1)%nat -> (1 <= N2)%nat ->
  staggered_field N1 N2 B1 B2 H D r last tilt (Some p) = Some f ->
  (forall b, In b (to_boreholes f) -> off_circle r p (position b)) ->
  legacy_staggered N1 N2 B1 B2 H D r last tilt (Some p) = to_boreholes f.
Proof. exact (legacy_staggered_agrees N1 N2 B1 B2 H D r last tilt p f). Qed.
Print Assumptions C61_staggered_partial.

Theorem C61_dense_partial N1 N2 B H D r last tilt p f : (1 <= N1)%nat -> (1 <= N2)%nat ->
  dense_field N1 N2 B H D r last tilt (Some p) = Some f ->
  (forall b, In b (to_boreholes f) -> off_circle r p (position b)) ->
  legacy_dense N1 N2 B H D r last tilt (Some p) = to_boreholes f.
Proof. exact (legacy_dense_agrees N1 N2 B H D r last tilt p f). Qed.
Print Assumptions C61_dense_partial.

Theorem C61_circle N Rad H D r tilt o f : circle_field N Rad H D r tilt o = Some f ->
  (forall b, In b (to_boreholes f) -> off_circle r (circle_center o) (position b)) ->
  legacy_circle N Rad H D r tilt o = to_boreholes f.
Proof. exact (legacy_circle_agrees N Rad H D r tilt o f). Qed.
Print Assumptions C61_circle.

(** C61: the default origin of the deprecated staggered builder is not the
    documented centre of the field. *)
Theorem C61_staggered_origin_refuted : exists N1 N2 B1 B2 H D r tilt last,
  (2 <= N1)%nat /\ (2 <= N2)%nat /\ 0 < B1 /\ 0 < B2 /\ 0 < r /\ tilted tilt = true /\
  ~ centred (legacy_stag_center N1 N2 B1 B2 last None) (legacy_staggered N1 N2 B1 B2 H D r last tilt None).
Proof. exact legacy_origin_off. Qed.
Print Assumptions C61_staggered_origin_refuted.

(** C61: a borehole at distance exactly r_b of the origin leans in one family only. *)
Theorem C61_on_circle_refuted : exists N1 N2 B1 B2 H D r tilt f, 0 < B1 /\ 0 < B2 /\ 0 < r /\
  rectangle_field N1 N2 B1 B2 H D r tilt (Some (0, 0)) = Some f /\ legacy_rectangle N1 N2 B1 B2 H D r tilt (Some (0, 0)) <> to_boreholes f.
Proof. exact legacy_on_circle_differs. Qed.
Print Assumptions C61_on_circle_refuted.

Example C61_example : off_circle (1/10) (0, 0) (lattice 5 6 1 0) /\ off_circle (1/10) (0, 0) (lattice 5 6 0 0).
Proof.
  unfold off_circle, lattice. cbn [fst snd INR]. split.
  - rewrite (sqrt_eq 5); lra.
  - rewrite (sqrt_eq 0); lra.
Qed.

(** C62 *)
Theorem C62_equality f g : field_ok f -> field_ok g ->
  (field_eq f g = true <-> nBoreholes f = nBoreholes g /\
     forall k, (k < nBoreholes f)%nat -> close_bores (nth k (to_boreholes f) b0) (nth k (to_boreholes g) b0)).
Proof. exact (field_eq_spec f g). Qed.
Print Assumptions C62_equality.

Theorem C62_reflexive f : field_eq f f = true.
Proof. exact (field_eq_refl f). Qed.
Print Assumptions C62_reflexive.

Theorem C62_symmetry_refuted : exists f g, field_ok f /\ field_ok g /\ field_eq f g = true /\ field_eq g f = false.
Proof. exact field_eq_asym. Qed.
Print Assumptions C62_symmetry_refuted.

(** C63 *)
Theorem C63_file_round_trip f : field_ok f -> (1 <= nBoreholes f)%nat -> from_file (to_file f) = Some f.
Proof. exact (file_round_trip f). Qed.
Print Assumptions C63_file_round_trip.

Theorem C63_deprecated_reader d m : d <> [] -> (5 <= m)%nat -> (forall row, In row d -> length row = m) ->
  field_from_file d = option_map to_boreholes (from_file d) /\ from_file d <> None.
Proof. exact (field_from_file_eq d m). Qed.
Print Assumptions C63_deprecated_reader.

Example C63_example : let d := [[0; 0; 100; 2; 1]; [5; 0; 100; 2; 1]] in
  d <> [] /\ (forall row, In row d -> length row = 5%nat).
Proof. cbn zeta. split; [discriminate|]. intros row [<-|[<-|[]]]; reflexivity. Qed.

(** C64: inclined fields lean radially outward. *)
Theorem C64_lean_outward H D r tilt o b : as_specified H D r tilt o b ->
  let d := sqrt ((bx b - fst o) ^ 2 + (by_ b - snd o) ^ 2) in
  r <= d -> tilted tilt = true ->
  fst (fst (toe b)) - fst o = (d + H * sin tilt) * cos (bori b)
  /\ snd (fst (toe b)) - snd o = (d + H * sin tilt) * sin (bori b)
  /\ sqrt ((fst (fst (toe b)) - fst o) ^ 2 + (snd (fst (toe b)) - snd o) ^ 2) = Rabs (d + H * sin tilt).
Proof. exact (lean_out H D r tilt o b). Qed.
Print Assumptions C64_lean_outward.

Example C64_example : exists b, as_specified 100 2 (1/10) (1/4) (0, 0) b /\ position b = (5, 0) /\ 1/10 <= sqrt ((5 - 0) ^ 2 + (0 - 0) ^ 2).
Proof.
  exists (new_bore 100 2 (1/10) (1/4) (0, 0) (5, 0)). destruct (new_bore_spec 100 2 (1/10) (1/4) (0, 0) (5, 0)) as [A B].
  split; [exact A|]. split; [exact B|]. rewrite (sqrt_eq 5); lra.
Qed.
