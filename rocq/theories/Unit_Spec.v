(** The same field in other units of length and time. *)
From Verif Require Import Base FLS_Model FLS_Spec Bore_Model Detailed_Model GFun_Model GFun_Spec.

(** Lengths are multiplied by l. *)
Definition in_units (l : R) (b : bore) : bore := Bore (l * bH b) (l * bD b) (l * br b) (l * bx b) (l * by_ b) (btilt b) (bori b).

(** Times are multiplied by mu. *)
Definition time_in_units (mu : R) (v : pyval) : pyval :=
  match v with
  | VNone => VNone
  | VInt z => VInt z
  | VFloat x => VFloat (mu * x)
  | VNpFloat x => VNpFloat (mu * x)
  | VList l => VList (map (Rmult mu) l)
  | VArr l => VArr (map (Rmult mu) l)
  | VArr2 rows => VArr2 (map (map (Rmult mu)) rows)
  end.

(** The call in other units: the diffusivity is a squared length per time.  The
    tolerances of the solvers and the ratios of the segments have no unit. *)
Definition call_in_units (l mu : R) (c : call) : call :=
  let o := c_options c in
  mkcall (GFun_Model.Field (map (in_units l) (boreholes_of c))) (l ^ 2 / mu * c_alpha c) (time_in_units mu (c_time c)) (c_method c) (c_bc c) (c_mb c) (c_mn c) (c_cp c)
    (mkoptions (o_n o) (o_r o) (option_map (Rmult mu) (o_thr o)) (o_tol o) (o_disTol o) (o_k o)).

(** Boreholes with a length and a radius, segments with a length. *)
Definition sized (bs : list bore) : Prop := forall b, In b bs -> 0 < bH b /\ 0 < br b.
Definition some_ratios (rs : list (list R)) : Prop := forall r x, In r rs -> In x r -> 0 < x.

(** No node of the quadrature along a segment, nor its image, lies on another segment. *)
Definition off_segment (b1 b2 : bh) (image : bool) (u : R) : Prop :=
  forall v, 0 <= v <= b_H b2 -> 0 < wall_excess b1 b2 + dist2 (if image then mirror (point b1 (u * b_H b1)) else point b1 (u * b_H b1)) (point b2 v).
Definition off_nodes (uw : list (R * R)) (b1 b2 : bh) : Prop := forall c image, In c uw -> off_segment b1 b2 image (fst c).
Definition clear_segments (uw : list (R * R)) (c : call) : Prop :=
  forall e r, In e (borehole_segments (boreholes_of c) (segments_of c) (ratios_of c)) -> In r (borehole_segments (boreholes_of c) (segments_of c) (ratios_of c)) ->
    off_nodes uw (to_bh e) (to_bh r).

(** The times of the linear start *)
Definition positive_threshold (o : options) : Prop := match o_thr o with None => True | Some t => 0 < t end.
