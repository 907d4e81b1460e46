(** Sources that share their loads: [phi] tells for each source the group that it
    belongs to. *)
From Verif Require Import Base LoadAgg_Model.

(** The loads of the groups, handed out to the sources. *)
Definition hand_out (phi : list nat) (q : list R) : list R := map (fun c => nth c q 0) phi.
Definition expand (phi : list nat) (ops : list op) : list op :=
  map (fun o => match o with Next => Next | SetLoad q => SetLoad (hand_out phi q) end) ops.

(** The response of a group is that of its members together. *)
Definition grouped (phi : list nat) (g : nat -> nat -> nat -> R) (i c k : nat) : R :=
  sumn (length phi) (fun j => if (nth j phi O =? c)%nat then g i j k else 0).
