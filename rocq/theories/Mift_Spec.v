(** Equivalent boreholes and the mixed inlet temperature of a network: statements. *)
From Coq Require Import String.
From Verif Require Import Base LinAlg FLS_Model.
From Verif Require Import Bore_Model Net_Model Net_Spec Solve_Model Detailed_Model Detailed_Spec Sim_Model Sim_Spec Eq_Model Eq_Spec GFun_Model GFun_Spec.
Local Open Scope R_scope.

(** All boreholes are in parallel, and boreholes of the same dimensions have the same
    pipes. *)
Definition parallel_alike (w : network) : Prop :=
  build_net (List.length (w_b w)) None = Some (w_c w) /\ List.length (w_p w) = List.length (w_b w) /\
  forall p q, (p < List.length (w_b w))%nat -> (q < List.length (w_b w))%nat ->
    same_dims (nth p (w_b w) no_bore) (nth q (w_b w) no_bore) -> nth p (w_p w) no_pipe = nth q (w_p w) no_pipe.

(** The mass flow rates [ms] of the network, a number or an array, none of them zero. *)
Definition network_flows (c : call) (ms : list R) : Prop :=
  c_mb c = VNone /\ (exists cp, c_cp c = VFloat cp) /\ (c_mn c = VArr ms \/ exists x, c_mn c = VFloat x /\ ms = [x]) /\ Forall (fun x => x <> 0) ms.

(** The same g-function, or the same g-functions of all pairs of flows at all times. *)
Definition same_result (nt : nat) (a b : gresult) : Prop :=
  match a, b with
  | G1 g, G1 g' => g = g'
  | G3 k g, G3 k' g' => k = k' /\ forall i j p, (i < k)%nat -> (j < k)%nat -> (p < nt)%nat -> g i j p = g' i j p
  | _, _ => False
  end.
