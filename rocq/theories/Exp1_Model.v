(** Model of the formula of the exponential integral, utilities.py 43-73 (exp1), for one
    positive argument.  numpy.euler_gamma is the decimal it prints. *)
From Coq Require Import Reals.
Local Open Scope R_scope.

Definition euler_gamma : R := 5772156649015329 / 10000000000000000.

(** 67: G *)
Definition e_G : R := exp (- euler_gamma).
(** 68: b *)
Definition e_b : R := sqrt (2 * (1 - e_G) / (e_G * (2 - e_G))).
(** 69: h_inf *)
Definition e_hinf : R := (1 - e_G) * (e_G ^ 2 - 6 * e_G + 12) / (3 * e_G * (2 - e_G) ^ 2 * e_b).
(** 66: q *)
Definition e_q (x : R) : R := 20 / 47 * Rpower x (sqrt (31 / 26)).
(** 70: h *)
Definition e_h (x : R) : R := 1 / (1 + x * sqrt x) + e_hinf * e_q x / (1 + e_q x).
(** the argument of the logarithm of 71 *)
Definition e_arg (x : R) : R := 1 + e_G / x - (1 - e_G) / (e_h x + e_b * x) ^ 2.
(** 66-73: exp1 *)
Definition exp1 (x : R) : R := exp (- x) * ln (e_arg x) / (e_G + (1 - e_G) * exp (- x / (1 - e_G))).
