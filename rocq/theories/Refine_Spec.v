(** Segments that are cut into shorter segments (C144). *)
From Coq Require Import Reals List.
From Verif Require Import Base.
Import ListNotations.
Local Open Scope R_scope.

(** Ratios r' that come from the ratios r by cutting each of them into parts. *)
Definition refines (r r' : list R) : Prop :=
  exists parts, r' = concat parts /\ Forall2 (fun x p => Rsum p = x) r parts.

From Verif Require Import Bore_Model Detailed_Model Detailed_Spec GFun_Model.

(** Options of a solver for a field: numbers of segments and ratios that fit the boreholes,
    ratios that are positive and add up to one, the usual start of the times, positive
    tolerances. *)
Definition fit_options (bs : list bore) (o : options) : Prop :=
  let ns := format_segments (length bs) (o_n o) in let rs := format_ratios (length bs) ns (o_r o) in
  segmented bs ns rs /\ good_ratios rs /\ o_thr o = None /\ 0 < o_tol o /\ 0 < o_disTol o.

(** The ratios of a field that some options stand for. *)
Definition option_ratios (bs : list bore) (o : options) : list (list R) :=
  format_ratios (length bs) (format_segments (length bs) (o_n o)) (o_r o).

(** [nSegments = n] and [segment_ratios = None]: n segments of the same length. *)
Definition even_options (n : nat) : options := mkoptions (SInt n) Detailed_Model.RNone None (1 / 10 ^ 6) (1 / 100) 1.

(** [segment_ratios = r]: the same ratios for all of the boreholes. *)
Definition cut_options (r : list R) : options := mkoptions (SInt (length r)) (Detailed_Model.RArray r) None (1 / 10 ^ 6) (1 / 100) 1.
