(** Borefield.evaluate_g_function: pygfunction/borefield.py 146-341, with the default
    options of the solvers.  A field is converted to the list of its boreholes. *)
From Coq Require Import String.
From Verif Require Import Base FLS_Model Bore_Model Field_Model TimeGrid_Model Detailed_Model Eq_Model GFun_Model.
Local Open Scope R_scope.

Section Whole.
  (** scipy's clustering, the quadrature rule of inclined boreholes and numpy's roots *)
  Variable link : list R -> tree.
  Variable uw : list (R * R).
  Variable roots : nat -> R -> list R.

  (** The default of segment_ratios: utilities.segment_ratios with end_length_ratio = 0.02
      (utilities.py 76).  An exception is the empty list, which the solvers refuse. *)
  Definition usual_ratios (n : nat) : list R :=
    match segment_ratios roots n (2 / 100) with Some l => l | None => [] end.

  (** solvers/_base_solver.py 114-118, similarities.py 156, equivalent.py 175; [n] is
      nSegments, 8 unless given. *)
  Definition usual_options (n : nat) : options :=
    mkoptions (SInt n) (Detailed_Model.RFun usual_ratios) None (1 / 10 ^ 6) (1 / 100) 1.

  (** borefield.py 326-341 and gfunction.py 1406-1432; no options are an empty dictionary *)
  Definition evaluate_g_function (f : field) (alpha : R) (time : pyval) (method bc : string) (o : option options) : option gresult :=
    gfunction link uw (mkcall (GFun_Model.Field (to_boreholes f)) alpha time method (Some bc) VNone VNone VNone
      (match o with Some o => o | None => usual_options 8 end)).
End Whole.
