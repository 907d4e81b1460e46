(** Model of the construction of boreholes with several U-tubes: pygfunction/pipes.py,
    [MultipleUTube.__init__] (1844-1886) and [IndependentMultipleUTube.__init__]
    (2289-2330), on a fresh module state.

    Simplified: the resistances of [multi] are real numbers, an infinite resistance is
    written as zero, so that 1/R is zero as in the code. *)
From Verif Require Import Base LinAlg Bore_Model Net_Model Pipe_Model Res_Model Multi_Model.
Import ListNotations.
Local Open Scope R_scope.

(** numpy.inf is written as zero *)
Definition number (x : xres) : R := match x with Res r => r | Infinite => 0 end.

(** pipes.py 1844-1886 and 2289-2330; 1859 and 2303 are the checks of the geometry, 1881-1883
    and 2325-2327 the resistances.  r_out and R_fp are numbers (2914-2917). *)
Definition tube_args (pos : list (R * R)) (r_out r_b k_s k_g R_fp : R) (J : nat) : rargs :=
  mkrargs pos (repeat r_out (length pos)) r_b k_s k_g (repeat R_fp (length pos)) J.
Definition multiple_utube (pos : list (R * R)) (r_in r_out : R) (b : bore) (k_s k_g R_fp : R) (n : nat) (k : kind) (J : nat) (rev : bool)
  : option multi :=
  if check_utube pos r_in r_out (br b) k_s k_g R_fp n (Z.of_nat J) then
    match thermal_resistances (tube_args pos r_out (br b) k_s k_g R_fp J) with
    | Some (_, Rd) => Some (mkmulti (fun i j => number (Rd i j)) b rev n k)
    | None => None
    end
  else None.

(** pipes.py 731, [local_borehole_thermal_resistance]: 1 / numpy.trace(1 / self._Rd) *)
Definition m_local (u : multi) : R := 1 / sumn (2 * x_n u) (fun p => 1 / x_Rd u p p).
