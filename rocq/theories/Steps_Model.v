(** Model of the time steps of MLAA and Liu. *)
From Verif Require Import Base.

(** load_aggregation.py 452 and 703: [Nt = int(np.ceil(tmax/dt))]. A negative
    number of steps gives no times in [range]; the arrays of loads, which numpy
    refuses to build then, are not modelled here. *)
Definition total_steps (dt tmax : R) : nat := Z.to_nat (- Int_part (- (tmax / dt))).

(** load_aggregation.py 357-369 and 605-617, [get_times_for_simulation] of MLAA
    and of Liu. *)
Definition sim_times (dt tmax : R) : list R :=
  map (fun i => INR (i + 1) * dt) (seq 0 (total_steps dt tmax)).
