(** Properties of the general procedure of single U-tubes (C151). *)
From Coq Require Import Reals Lra Lia List Bool.
From Coquelicot Require Import Coquelicot.
From Verif Require Import Base LinAlg Bore_Model Net_Model Pipe_Model Pipe_Spec Pipe_Props Gen_Model Gen_Proofs.
Import ListNotations.
Local Open Scope R_scope.

(** A reversible tube with the flow reversed, three segments: the hypotheses below hold. *)
Example C151_case : good_flow (ex_tube true) (- (3/10)) 4000 3 None 1 0
  /\ good_flow (ex_tube false) (3/10) 4000 2 (Some [1/3; 2/3]) 0 1.
Proof. split; apply ex_tube_good; try (cbn; lia).
  - right. repeat split; lra.
  - left. repeat split. left; lra.
  - cbn. split; [reflexivity|]. split; [repeat constructor; lra|lra].
Qed.

(** C151: the general procedure of the base class succeeds and gives the coefficients of the
    outlet temperature of the specialised method. *)
Theorem C151_outlet u m cp n r d e : good_flow u m cp n r d e ->
  exists a b, general_outlet u m cp n r = Some (a, b)
  /\ a O O = fst (outlet u m cp n r)
  /\ forall k, (k < n)%nat -> b O k = snd (outlet u m cp n r) k.
Proof. exact (outlet_general u m cp n r d e). Qed.
Print Assumptions C151_outlet.

(** C151: and those of the fluid temperatures at every depth, in both legs. *)
Theorem C151_temperature u m cp n r d e z : good_flow u m cp n r d e -> 0 <= z ->
  exists a b, general_temperature u m cp n r z = Some (a, b)
  /\ (forall i, (i < 2)%nat -> a i O = fst (temperature u m cp n r z) i)
  /\ forall i k, (i < 2)%nat -> (k < n)%nat -> b i k = snd (temperature u m cp n r z) i k.
Proof. intros G. exact (temperature_general u m cp n r d e G z). Qed.
Print Assumptions C151_temperature.

(** C151: the functions integrated over the segments are primitives of the kernels. *)
Theorem C151_primitives b1 b2 b12 z : 0 < b1 + b2 -> 0 < b1 * b2 + b12 * (b1 + b2) ->
  is_derive (F4 (vars_of b1 b2 b12)) z (f4 (vars_of b1 b2 b12) z)
  /\ is_derive (F5 (vars_of b1 b2 b12)) z (f5 (vars_of b1 b2 b12) z).
Proof. intros Hs Hd. exact (F_der b1 b2 b12 Hs Hd z). Qed.
Print Assumptions C151_primitives.
