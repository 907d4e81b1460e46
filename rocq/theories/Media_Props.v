(** Fluids: C139, C140. *)
From Coq Require Import String Ascii List Reals Lra Lia Arith.
From Verif Require Import Media_Model Media_Spec Media_Proofs.
Import ListNotations.
Local Open Scope R_scope.

(** * C139: names and properties *)

(** The ValueError of the class is for the names that are none of the known ones, in any case. *)
Theorem C139_unsupported : forall lib s percent T,
  mk_fluid lib s percent T = Unsupported <-> ~ exists n, In n known_names /\ same_word s n.
Proof.
  intros. unfold mk_fluid. rewrite <- (choose_none lib s percent).
  destruct (choose lib s percent) as [[c|]|]; split; intros H; try discriminate; reflexivity.
Qed.
Print Assumptions C139_unsupported.

(** The case of the letters does not matter. *)
Theorem C139_case : forall lib s t percent T, same_word s t -> mk_fluid lib s percent T = mk_fluid lib t percent T.
Proof. intros lib s t p T H. unfold mk_fluid. rewrite (choose_upper lib s t) by (apply upper_word; exact H). reflexivity. Qed.
Print Assumptions C139_case.

(** The short and the long names are for the same mixture, with the mass fraction percent / 100;
    for water the percentage is ignored. *)
Theorem C139_mixture : forall lib percent T f,
  (mk_fluid lib "MPG" percent T = Made f -> s_PropyleneGlycol lib (percent / 100) = Some (f_fluid f)) /\
  (mk_fluid lib "MEG" percent T = Made f -> s_EthyleneGlycol lib (percent / 100) = Some (f_fluid f)) /\
  (mk_fluid lib "MMA" percent T = Made f -> s_MethylAlcohol lib (percent / 100) = Some (f_fluid f)) /\
  (mk_fluid lib "MEA" percent T = Made f -> s_EthylAlcohol lib (percent / 100) = Some (f_fluid f)) /\
  (mk_fluid lib "Water" percent T = Made f -> s_Water lib = f_fluid f) /\
  mk_fluid lib "MPG" percent T = mk_fluid lib "PropyleneGlycol" percent T /\
  mk_fluid lib "MEG" percent T = mk_fluid lib "EthyleneGlycol" percent T /\
  mk_fluid lib "MMA" percent T = mk_fluid lib "MethylAlcohol" percent T /\
  mk_fluid lib "MEA" percent T = mk_fluid lib "EthylAlcohol" percent T.
Proof.
  intros lib p T f. unfold mk_fluid.
  change (choose lib "MPG" p) with (Some (s_PropyleneGlycol lib (p / 100))).
  change (choose lib "PropyleneGlycol" p) with (Some (s_PropyleneGlycol lib (p / 100))).
  change (choose lib "MEG" p) with (Some (s_EthyleneGlycol lib (p / 100))).
  change (choose lib "EthyleneGlycol" p) with (Some (s_EthyleneGlycol lib (p / 100))).
  change (choose lib "MMA" p) with (Some (s_MethylAlcohol lib (p / 100))).
  change (choose lib "MethylAlcohol" p) with (Some (s_MethylAlcohol lib (p / 100))).
  change (choose lib "MEA" p) with (Some (s_EthylAlcohol lib (p / 100))).
  change (choose lib "EthylAlcohol" p) with (Some (s_EthylAlcohol lib (p / 100))).
  change (choose lib "Water" p) with (Some (Some (s_Water lib))).
  repeat split; try (destruct (_ lib (p / 100)) as [c|]; intros H; [injection H as <-; reflexivity|discriminate]).
  intros H. injection H as <-. reflexivity.
Qed.
Print Assumptions C139_mixture.

(** All attributes are those of the library at the temperature T, and consistent. *)
Theorem C139_attributes : forall lib s percent T f, mk_fluid lib s percent T = Made f ->
  f_T_C f = T /\ f_name f = co_name (f_fluid f) /\ f_rho f = co_density (f_fluid f) T /\
  f_mu f = co_viscosity (f_fluid f) T /\ f_cp f = co_heat (f_fluid f) T /\ f_k f = co_conductivity (f_fluid f) T /\
  f_Pr f = co_prandtl (f_fluid f) T /\ f_rhoCp f = f_rho f * f_cp f /\ (f_rho f <> 0 -> f_nu f * f_rho f = f_mu f) /\
  density f = f_rho f /\ dynamic_viscosity f = f_mu f /\ kinematic_viscosity f = f_nu f /\
  specific_heat_capacity f = f_cp f /\ volumetric_heat_capacity f = f_rhoCp f /\
  thermal_conductivity f = f_k f /\ Prandlt_number f = f_Pr f.
Proof.
  intros lib s p T f. unfold mk_fluid. destruct (choose lib s p) as [[c|]|]; try discriminate.
  intros H. injection H as <-. cbn. repeat split. intros N. unfold kinematic_viscosity. cbn. field. exact N.
Qed.
Print Assumptions C139_attributes.

(** A library for the examples: linear in the temperature. *)
Definition demo_coolant (x : R) : coolant :=
  {| co_name := "demo"; co_density := fun T => 1000 - T; co_viscosity := fun T => (100 - T) / 100000;
     co_heat := fun _ => 4000 - 1000 * x; co_conductivity := fun _ => 1 / 2; co_prandtl := fun _ => 8 |}.
Definition demo_lib : scp :=
  {| s_Water := demo_coolant 0; s_PropyleneGlycol := fun x => Some (demo_coolant x); s_EthyleneGlycol := fun x => Some (demo_coolant x);
     s_MethylAlcohol := fun x => Some (demo_coolant x); s_EthylAlcohol := fun x => Some (demo_coolant x) |}.
Example C139_example : same_word "mEg" "MEG" /\ (exists f, mk_fluid demo_lib "mEg" 20 10 = Made f /\ f_cp f = 3800 /\ f_rho f = 990)
  /\ mk_fluid demo_lib "Glycol" 20 10 = Unsupported.
Proof.
  split; [|split].
  - split; [right; right; cbn; lia|split; [left; reflexivity|split; [right; right; cbn; lia|exact I]]].
  - eexists. split; [reflexivity|]. cbn. split; lra.
  - reflexivity.
Qed.

(** After an assignment to T_C the methods do not agree any more: density() and
    dynamic_viscosity() are at the new temperature, kinematic_viscosity() and
    volumetric_heat_capacity() at the old one. *)
Theorem C139_stale_refuted : exists lib s percent T f T', mk_fluid lib s percent T = Made f /\
  let f' := set_T_C f T' in
  density f' <> 0 /\ kinematic_viscosity f' * density f' <> dynamic_viscosity f' /\
  volumetric_heat_capacity f' <> density f' * specific_heat_capacity f'.
Proof.
  exists demo_lib, "Water"%string, 0, 0. eexists. exists 50. split; [reflexivity|]. cbn. unfold density, kinematic_viscosity, dynamic_viscosity, volumetric_heat_capacity, specific_heat_capacity. cbn.
  split; [lra|]. split; lra.
Qed.
Print Assumptions C139_stale_refuted.

(** * C140: append_to_dict *)

(** It raises for every fluid and every dictionary. *)
Theorem C140_append_refuted : forall shown f d, snd (append_to_dict shown f d) = false.
Proof.
  intros shown f d. unfold append_to_dict.
  assert (K : forall d', snd (append_all shown (attributes f) d') = false).
  { intros d'. unfold attributes. cbn [append_all format_E].
    destruct (lookup "Pr" d'); [|reflexivity]. destruct (lookup "T_C" _); [|reflexivity].
    destruct (lookup "cp" _); [|reflexivity]. destruct (lookup "fluid" _); reflexivity. }
  apply K.
Qed.
Print Assumptions C140_append_refuted.

(** An empty dictionary is left with three values and seven empty lists. *)
Theorem C140_left_behind : forall shown f, fst (append_to_dict shown f []) =
  [("Pr", [shown (f_Pr f)]); ("T_C", [shown (f_T_C f)]); ("cp", [shown (f_cp f)]); ("fluid", []); ("k", []); ("mu", []);
   ("name", []); ("nu", []); ("rho", []); ("rhoCp", [])]%string.
Proof. reflexivity. Qed.
Print Assumptions C140_left_behind.
