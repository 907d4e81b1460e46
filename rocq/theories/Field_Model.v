(** Model of bore fields: pygfunction/borefield.py and the deprecated builders
    of pygfunction/boreholes.py. *)
From Verif Require Import Base Bore_Model.

(** numpy arctan2, without signed zeros. *)
Definition atan2 (y x : R) : R :=
  if Rltb 0 x then atan (y / x)
  else if Rltb x 0 then (if Rleb 0 y then atan (y / x) + PI else atan (y / x) - PI)
  else if Rltb 0 y then PI / 2 else if Rltb y 0 then - (PI / 2) else 0.

(** Scalars and one-dimensional arrays. *)
Inductive arr := Sc (r : R) | Ar (l : list R).

(** numpy.atleast_1d and numpy.broadcast_to(a, n). *)
Definition atleast_1d (a : arr) : list R := match a with Sc r => [r] | Ar l => l end.
Definition broadcast (n : nat) (a : arr) : option (list R) :=
  match a with
  | Sc r => Some (repeat r n)
  | Ar l => if (length l =? n)%nat then Some l
            else match l with [r] => Some (repeat r n) | _ => None end
  end.

(** borefield.py 42-69: the attributes of [Borefield], all of one length. *)
Record field := Field { fH : list R; fD : list R; fr : list R; fx : list R; fy : list R; ft : list R; fo : list R }.
Definition nBoreholes (f : field) : nat := length (fx f).

(** borefield.py 42-69, [Borefield.__init__]; [None] is a ValueError of numpy.
    The product of line 69 with a boolean array is a selection. *)
Definition field_init (H D r x y tilt ori : arr) : option field :=
  let x1 := atleast_1d x in
  let y1 := atleast_1d y in
  let n := Nat.max (length x1) (length y1) in
  match broadcast n H, broadcast n D, broadcast n r, broadcast n (Ar x1), broadcast n (Ar y1), broadcast n tilt with
  | Some H', Some D', Some r', Some x', Some y', Some t' =>
      let is_t := map tilted t' in
      if negb (existsb (fun b => b) is_t) then Some (Field H' D' r' x' y' t' (repeat 0 n))
      else if forallb (fun b => b) is_t then
        match broadcast n ori with Some o' => Some (Field H' D' r' x' y' t' o') | None => None end
      else
        match broadcast n ori with
        | Some o' => Some (Field H' D' r' x' y' t' (map (fun p => if snd p : bool then fst p else 0) (combine o' is_t)))
        | None => None
        end
  | _, _, _, _, _, _ => None
  end.

(** borefield.py 71-80, [__getitem__] with an integer. Negative integers count
    from the end; [None] is an IndexError. *)
Definition getitem (f : field) (i : Z) : option bore :=
  let n := Z.of_nat (nBoreholes f) in
  let j := if (i <? 0)%Z then (i + n)%Z else i in
  if ((0 <=? j) && (j <? n))%Z then
    let k := Z.to_nat j in
    Some (mk_bore (nth k (fH f) 0) (nth k (fD f) 0) (nth k (fr f) 0) (nth k (fx f) 0) (nth k (fy f) 0)
                  (nth k (ft f) 0) (nth k (fo f) 0))
  else None.

(** borefield.py 71-80, [__getitem__] with a slice or a list of indices, given
    here by the non-negative indices it selects. *)
Definition pick (ks : list nat) (l : list R) : arr := Ar (map (fun k => nth k l 0) ks).
Definition getitems (f : field) (ks : list nat) : option field :=
  field_init (pick ks (fH f)) (pick ks (fD f)) (pick ks (fr f)) (pick ks (fx f)) (pick ks (fy f))
             (pick ks (ft f)) (pick ks (fo f)).

(** borefield.py 436-446, [to_boreholes]: [list(self)] calls [__getitem__] on
    0, 1, 2, ... until the IndexError. *)
Fixpoint list_from (f : field) (k fuel : nat) : list bore :=
  match fuel with
  | O => []
  | S m => match getitem f (Z.of_nat k) with Some b => b :: list_from f (S k) m | None => [] end
  end.
Definition to_boreholes (f : field) : list bore := list_from f 0 (S (nBoreholes f)).

(** borefield.py 473-502, [from_boreholes]. *)
Definition from_boreholes (l : list bore) : option field :=
  field_init (Ar (map bH l)) (Ar (map bD l)) (Ar (map br l)) (Ar (map bx l)) (Ar (map by_ l))
             (Ar (map btilt l)) (Ar (map bori l)).

(** Operands of +: a borehole, a list of boreholes or a bore field. *)
Inductive operand := OBore (b : bore) | OList (l : list bore) | OField (f : field).
(** borefield.py 119-126 and 137-143: an operand as a list. *)
Definition operand_list (o : operand) : list bore :=
  match o with OBore b => [b] | OList l => l | OField f => to_boreholes f end.
(** borefield.py 110-144 and boreholes.py 59-107: every combination with at
    least one borehole or bore field; the sum of two lists is a list. *)
Definition add (a b : operand) : option operand :=
  match a, b with
  | OList l, OList m => Some (OList (l ++ m))
  | _, _ => option_map OField (from_boreholes (operand_list a ++ operand_list b))
  end.

(** numpy.allclose on arrays of one length: |a - b| <= 1e-8 + 1e-5*|b|. *)
Definition isclose (a b : R) : bool := Rleb (Rabs (a - b)) (/ 10 ^ 8 + / 10 ^ 5 * Rabs b).
Definition allclose (a b : list R) : bool := forallb (fun p => isclose (fst p) (snd p)) (combine a b).
(** borefield.py 82-98, [__eq__] of two fields. *)
Definition field_eq (f g : field) : bool :=
  (nBoreholes f =? nBoreholes g)%nat && allclose (fH f) (fH g) && allclose (fD f) (fD g) && allclose (fr f) (fr g)
  && allclose (fx f) (fx g) && allclose (fy f) (fy g) && allclose (ft f) (ft g) && allclose (fo f) (fo g).

(** borefield.py 458-471, [to_file]: one row per borehole. The text is written
    with 19 significant digits, exact for doubles; files are tables of numbers. *)
Definition to_file (f : field) : list (list R) :=
  map (fun k => map (fun l => nth k l 0) [fx f; fy f; fH f; fD f; fr f; ft f; fo f]) (seq 0 (nBoreholes f)).
(** borefield.py 531-547, [from_file]; [None] when the table is empty or has
    fewer than five columns. The table is rectangular. *)
Definition column (k : nat) (d : list (list R)) : list R := map (fun row => nth k row 0) d.
Definition from_file (d : list (list R)) : option field :=
  match d with
  | [] => None
  | row :: _ =>
      if (length row <? 5)%nat then None else
      let t := if (length row =? 7)%nat then Ar (column 5 d) else Sc 0 in
      let o := if (length row =? 7)%nat then Ar (column 6 d) else Sc 0 in
      field_init (Ar (column 2 d)) (Ar (column 3 d)) (Ar (column 4 d)) (Ar (column 0 d)) (Ar (column 1 d)) t o
  end.
(** boreholes.py 1383-1404, [field_from_file]; [None] is the IndexError of a
    table of fewer than five columns. An empty table gives an empty list. *)
Definition field_from_file (d : list (list R)) : option (list bore) :=
  if existsb (fun row => (length row <? 5)%nat) d then None else Some (map (fun row =>
    let seven := (length row =? 7)%nat in
    mk_bore (nth 2 row 0) (nth 3 row 0) (nth 4 row 0) (nth 0 row 0) (nth 1 row 0)
            (if seven then nth 5 row 0 else 0) (if seven then nth 6 row 0 else 0)) d).

(** * Builders *)

(** borefield.py 615-624 (and 721-731, 872-882, 957-967, 1048-1058, 1126-1136):
    orientation, tilt and construction from the positions. *)
Definition dis0 (x0 y0 x y : R) : R := sqrt ((x - x0) ^ 2 + (y - y0) ^ 2).
Definition build (x y : list R) (H D r tilt : R) (o : R * R) : option field :=
  let '(x0, y0) := o in
  let p := combine x y in
  let ori := map (fun q => atan2 (snd q - y0) (fst q - x0)) p in
  let d := map (fun q => dis0 x0 y0 (fst q) (snd q)) p in
  let t := if existsb (fun v => Rltb v r) d then Ar (map (fun v => if Rltb v r then 0 else tilt) d) else Sc tilt in
  field_init (Sc H) (Sc D) (Sc r) (Ar x) (Ar y) t (Ar ori).

(** boreholes.py 767-773 (and the same lines of the other legacy builders). *)
Definition legacy_bore (H D r tilt : R) (o : R * R) (q : R * R) : bore :=
  let '(x0, y0) := o in let '(x, y) := q in
  if Rltb r (dis0 x0 y0 x y) then mk_bore H D r x y tilt (atan2 (y - y0) (x - x0))
  else mk_bore H D r x y 0 0.

(** numpy.arange, tile and repeat. *)
Definition tile {A} (l : list A) (k : nat) : list A := concat (repeat l k).
Definition rep_each {A} (l : list A) (k : nat) : list A := flat_map (fun a => repeat a k) l.
Definition scale (B : R) (l : list nat) : list R := map (fun i => INR i * B) l.

(** borefield.py 604-610. *)
Definition center (N1 N2 : nat) (B1 B2 : R) (o : option (R * R)) : R * R :=
  match o with Some p => p | None => ((INR N1 - 1) / 2 * B1, (INR N2 - 1) / 2 * B2) end.

(** borefield.py 604-624, [Borefield.rectangle_field]; positions at 613-614. *)
Definition rect_x (N1 N2 : nat) := tile (seq 0 N1) N2.
Definition rect_y (N1 N2 : nat) := rep_each (seq 0 N2) N1.
Definition rectangle_field N1 N2 B1 B2 H D r tilt o :=
  build (scale B1 (rect_x N1 N2)) (scale B2 (rect_y N1 N2)) H D r tilt (center N1 N2 B1 B2 o).

(** boreholes.py 755-775, the deprecated [rectangle_field]. *)
Definition legacy_rectangle N1 N2 B1 B2 H D r tilt o : list bore :=
  flat_map (fun j => map (fun i => legacy_bore H D r tilt (center N1 N2 B1 B2 o) (INR i * B1, INR j * B2)) (seq 0 N1)) (seq 0 N2).

(** borefield.py 693-731, [staggered_rectangle_field]: kept lattice points. *)
Definition stag_keep (N1 : nat) (last : bool) (i j : nat) : bool :=
  (i <? N1 - 1)%nat || last || (j mod 2 =? 0)%nat.
Definition stag_points (N1 N2 : nat) (last : bool) : list (nat * nat) :=
  flat_map (fun j => map (fun i => (i, j)) (filter (fun i => stag_keep N1 last i j) (seq 0 N1))) (seq 0 N2).
Definition stag_shift (j : nat) : R := if (j mod 2 =? 1)%nat then 1 / 2 else 0.
Definition stag_center (N1 N2 : nat) (B1 B2 : R) (last : bool) (o : option (R * R)) : R * R :=
  match o with
  | Some p => p
  | None => if last then ((INR N1 - 1/2) / 2 * B1, (INR N2 - 1) / 2 * B2)
            else ((INR N1 - 1) / 2 * B1, (INR N2 - 1) / 2 * B2)
  end.
Definition staggered_field N1 N2 B1 B2 H D r last tilt o :=
  if (N1 =? 1)%nat || (N2 =? 1)%nat then rectangle_field N1 N2 B1 B2 H D r tilt o
  else build (map (fun p => (INR (fst p) + stag_shift (snd p)) * B1) (stag_points N1 N2 last))
             (map (fun p => INR (snd p) * B2) (stag_points N1 N2 last)) H D r tilt (stag_center N1 N2 B1 B2 last o).

(** boreholes.py 849-879, the deprecated version; its default origin differs. *)
Definition legacy_stag_center (N1 N2 : nat) (B1 B2 : R) (last : bool) (o : option (R * R)) : R * R :=
  match o with
  | Some p => p
  | None => if last then ((INR N1 - 1) / 2 * B1, (INR N2 - 1) / 2 * B2)
            else ((INR N1 - 1/2) / 2 * B1, (INR N2 - 1/2) / 2 * B2)
  end.
Definition legacy_staggered N1 N2 B1 B2 H D r last tilt o : list bore :=
  if (N1 =? 1)%nat || (N2 =? 1)%nat then legacy_rectangle N1 N2 B1 B2 H D r tilt o
  else flat_map (fun j => flat_map (fun i =>
         if stag_keep N1 last i j then
           [legacy_bore H D r tilt (legacy_stag_center N1 N2 B1 B2 last o)
              (INR i * B1 + (if (j mod 2 =? 1)%nat then B1 / 2 else 0), INR j * B2)]
         else []) (seq 0 N1)) (seq 0 N2).

(** borefield.py 797-804, [dense_rectangle_field], and boreholes.py 950-955. *)
Definition dense_field N1 N2 B H D r last tilt o :=
  staggered_field N1 N2 B (if (1 <? N1)%nat then sqrt 3 / 2 * B else B) H D r last tilt o.
Definition legacy_dense N1 N2 B H D r last tilt o :=
  if (N1 =? 1)%nat then legacy_rectangle N1 N2 B B H D r tilt o
  else legacy_staggered N1 N2 B (sqrt 3 / 2 * B) H D r last tilt o.

(** borefield.py 870-882, [L_shaped_field]; numpy refuses a negative length. *)
Definition L_x (N1 N2 : nat) := seq 0 N1 ++ repeat 0%nat (N2 - 1).
Definition L_y (N1 N2 : nat) := repeat 0%nat N1 ++ seq 1 (N2 - 1).
Definition L_field N1 N2 B1 B2 H D r tilt o :=
  if (N2 =? 0)%nat then None else
  build (scale B1 (L_x N1 N2)) (scale B2 (L_y N1 N2)) H D r tilt (center N1 N2 B1 B2 o).
(** boreholes.py 1016-1047, the deprecated version. *)
Definition legacy_L N1 N2 B1 B2 H D r tilt o : list bore :=
  map (fun i => legacy_bore H D r tilt (center N1 N2 B1 B2 o) (INR i * B1, 0)) (seq 0 N1)
  ++ map (fun j => legacy_bore H D r tilt (center N1 N2 B1 B2 o) (0, INR j * B2)) (seq 1 (N2 - 1)).

(** borefield.py 948-967, [U_shaped_field]; numpy.tile refuses -1 copies. *)
Definition U_x (N1 N2 : nat) := seq 0 N1 ++ map (fun i => (i * (N1 - 1))%nat) (tile (seq 0 (Nat.min N1 2)) (N2 - 1)).
Definition U_y (N1 N2 : nat) := repeat 0%nat N1 ++ rep_each (seq 1 (N2 - 1)) (Nat.min N1 2).
Definition U_field N1 N2 B1 B2 H D r tilt o :=
  if (N2 =? 0)%nat then None else
  build (scale B1 (U_x N1 N2)) (scale B2 (U_y N1 N2)) H D r tilt (center N1 N2 B1 B2 o).
(** boreholes.py 1108-1153, the deprecated version. *)
Definition legacy_U N1 N2 B1 B2 H D r tilt o : list bore :=
  let bo := legacy_bore H D r tilt (center N1 N2 B1 B2 o) in
  if (2 <? N1)%nat && (1 <? N2)%nat then
    map (fun i => bo (INR i * B1, 0)) (seq 0 N1)
    ++ flat_map (fun j => [bo (0, INR j * B2); bo ((INR N1 - 1) * B1, INR j * B2)]) (seq 1 (N2 - 1))
  else legacy_rectangle N1 N2 B1 B2 H D r tilt o.

(** borefield.py 1035-1058, [box_shaped_field]. *)
Definition box_top (N1 N2 : nat) : nat := if (1 <? N2)%nat then N1 else O.
Definition box_x (N1 N2 : nat) := seq 0 N1
  ++ map (fun i => (i * (N1 - 1))%nat) (tile (seq 0 (Nat.min N1 2)) (Nat.max 0 (N2 - 2))) ++ seq 0 (box_top N1 N2).
Definition box_y (N1 N2 : nat) := repeat 0%nat N1
  ++ rep_each (seq 1 (N2 - 1 - 1)) (Nat.min N1 2) ++ repeat (N2 - 1)%nat (box_top N1 N2).
Definition box_field N1 N2 B1 B2 H D r tilt o :=
  build (scale B1 (box_x N1 N2)) (scale B2 (box_y N1 N2)) H D r tilt (center N1 N2 B1 B2 o).
(** boreholes.py 1216-1271, the deprecated version. *)
Definition legacy_box N1 N2 B1 B2 H D r tilt o : list bore :=
  let bo := legacy_bore H D r tilt (center N1 N2 B1 B2 o) in
  if (2 <? N1)%nat && (2 <? N2)%nat then
    flat_map (fun i => [bo (INR i * B1, 0); bo (INR i * B1, (INR N2 - 1) * B2)]) (seq 0 N1)
    ++ flat_map (fun j => [bo (0, INR j * B2); bo ((INR N1 - 1) * B1, INR j * B2)]) (seq 1 (N2 - 1 - 1))
  else legacy_rectangle N1 N2 B1 B2 H D r tilt o.

(** borefield.py 1115-1136, [circle_field], and boreholes.py 1332-1353. *)
Definition circle_point (N : nat) (Rad : R) (i : nat) : R * R :=
  (Rad * cos (2 * PI * INR i / INR N), Rad * sin (2 * PI * INR i / INR N)).
Definition circle_center (o : option (R * R)) : R * R := match o with Some p => p | None => (0, 0) end.
Definition circle_field N Rad H D r tilt o :=
  build (map (fun i => fst (circle_point N Rad i)) (seq 0 N)) (map (fun i => snd (circle_point N Rad i)) (seq 0 N))
        H D r tilt (circle_center o).
Definition legacy_circle N Rad H D r tilt o : list bore :=
  map (fun i => legacy_bore H D r tilt (circle_center o) (circle_point N Rad i)) (seq 0 N).
