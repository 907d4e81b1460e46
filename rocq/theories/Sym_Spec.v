(** Symmetries of the g-functions: the same field at another place, in another order or
    of another size. *)
From Coq Require Import String Permutation.
From Verif Require Import Base LinAlg Bore_Model Detailed_Model Sim_Model GFun_Model GFun_Spec.

(** A motion of the plane: mirror image about the x axis or not, turn about the origin,
    then displacement. *)
Record motion := mkmotion { mo_mirror : bool; mo_turn : R; mo_x : R; mo_y : R }.

(** The same borehole after the motion: its head moves, and the direction in which it
    leans turns with the field. *)
Definition moved (m : motion) (b : bore) : bore :=
  let s := if mo_mirror m then -1 else 1 in
  let a := mo_turn m in
  mk_bore (bH b) (bD b) (br b)
          (mo_x m + (bx b * cos a - s * by_ b * sin a))
          (mo_y m + (bx b * sin a + s * by_ b * cos a))
          (btilt b) (s * bori b + a).

Definition moved_network (m : motion) (w : network) : network :=
  mknetwork (map (moved m) (w_b w)) (w_p w) (w_ks w) (w_Rd w) (w_c w) (w_m w) (w_cp w).
Definition moved_source (m : motion) (s : source) : source :=
  match s with GFun_Model.Field bs => GFun_Model.Field (map (moved m) bs) | Piped w => Piped (moved_network m w) end.
Definition moved_call (m : motion) (c : call) : call :=
  mkcall (moved_source m (c_source c)) (c_alpha c) (c_time c) (c_method c) (c_bc c) (c_mb c) (c_mn c) (c_cp c) (c_options c).

(** Boreholes are vertical or clearly inclined: a tilt smaller than 1e-6 but not zero is
    one of a borehole that forgets its orientation. *)
Definition plain_tilts (bs : list bore) : Prop := forall b, In b bs -> btilt b = 0 \/ tilted (btilt b) = true.

(** Conditions under which the comparisons of inclined pairs do not depend on the axes: a
    displacement of any field, any motion of a vertical field, or any motion of a field
    whose segments are either above each other or at a distance that floats can tell
    from zero. *)
Definition displacement (m : motion) : Prop := mo_mirror m = false /\ mo_turn m = 0.
Definition all_vertical (bs : list bore) : Prop := forall b, In b bs -> btilt b = 0.
Definition clear_plan (disTol : R) (bs : list bore) (ns : list nat) (rs : list (list R)) : Prop :=
  disTol <= 1 / 2
  /\ (forall b, In b bs -> 0 < br b)
  /\ forall i j e r, (i < length bs)%nat -> (j < length bs)%nat ->
       In e (segments (nth i bs (Bore 0 0 0 0 0 0 0)) (nth i ns 0%nat) (Some (nth i rs []))) ->
       In r (segments (nth j bs (Bore 0 0 0 0 0 0 0)) (nth j ns 0%nat) (Some (nth j rs []))) ->
       planar e r = 0 \/ tiny <= planar e r.
Definition settled (m : motion) (c : call) : Prop :=
  displacement m \/ all_vertical (boreholes_of c)
  \/ clear_plan (o_disTol (c_options c)) (boreholes_of c) (segments_of c) (ratios_of c).

(** The boreholes of a call with their numbers of segments and ratios. *)
Definition plan_of (c : call) : list (bore * (nat * list R)) := combine (boreholes_of c) (combine (segments_of c) (ratios_of c)).

(** The same boreholes, with the same segments, in another order. *)
Definition reordered (c c' : call) : Prop :=
  (exists bs, c_source c = GFun_Model.Field bs) /\ (exists bs, c_source c' = GFun_Model.Field bs) /\ Permutation (plan_of c) (plan_of c')
  /\ c_alpha c' = c_alpha c /\ c_time c' = c_time c /\ c_method c' = c_method c /\ c_bc c' = c_bc c
  /\ c_mb c' = c_mb c /\ c_mn c' = c_mn c /\ c_cp c' = c_cp c /\ o_thr (c_options c') = o_thr (c_options c).

(** Vertical boreholes that are below the ground and have a length and a radius. *)
Definition upright (bs : list bore) : Prop := forall b, In b bs -> btilt b = 0 /\ 0 < bH b /\ 0 <= bD b /\ 0 < br b.

(** The same call for other boreholes. *)
Definition with_boreholes (c : call) (bs : list bore) : call :=
  mkcall (GFun_Model.Field bs) (c_alpha c) (c_time c) (c_method c) (c_bc c) (c_mb c) (c_mn c) (c_cp c) (c_options c).
(** One number of segments and one rule of the ratios for all boreholes. *)
Definition same_segments (o : options) (n : nat) : Prop :=
  o_n o = SInt n /\ match o_r o with Detailed_Model.RArray r => List.length r = n | Detailed_Model.RNone => True | Detailed_Model.RFun f => List.length (f n) = n | Detailed_Model.RList _ => False end.
