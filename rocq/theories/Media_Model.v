(** Model of pygfunction/media.py (class Fluid).

    The library of secondary coolants (scp) is a parameter: five kinds of objects with a
    name and five properties as functions of the temperature; the constructors of the
    four mixtures may refuse a mass fraction.  The names are strings of ASCII characters;
    no other character has an upper case within the accepted names.  Numbers are reals. *)
From Coq Require Import String Ascii List Reals Arith.
Import ListNotations.
Local Open Scope R_scope.

(** Objects of scp: [fluid_name], [density], [viscosity], [specific_heat], [conductivity], [prandtl]
    (media.py 82-98, 117-196). *)
Record coolant := { co_name : string; co_density : R -> R; co_viscosity : R -> R; co_heat : R -> R;
  co_conductivity : R -> R; co_prandtl : R -> R }.

(** The classes imported by media.py 2-6; [None] is an exception of the library. *)
Record scp := { s_Water : coolant; s_PropyleneGlycol : R -> option coolant; s_EthyleneGlycol : R -> option coolant;
  s_MethylAlcohol : R -> option coolant; s_EthylAlcohol : R -> option coolant }.

(** str.upper on ASCII characters (media.py 67-75). *)
Definition upper_char (c : ascii) : ascii :=
  let n := nat_of_ascii c in if andb (97 <=? n)%nat (n <=? 122)%nat then ascii_of_nat (n - 32) else c.
Fixpoint upper (s : string) : string :=
  match s with EmptyString => EmptyString | String c r => String (upper_char c) (upper r) end.

(** The attributes of an object (media.py 80-98); they are mutable. *)
Record fluid := { f_fluid : coolant; f_name : string; f_T_C : R; f_rho : R; f_mu : R; f_nu : R; f_cp : R;
  f_rhoCp : R; f_k : R; f_Pr : R }.

(** Methods (media.py 113-209): they read the attributes of the object. *)
Definition density (f : fluid) : R := co_density (f_fluid f) (f_T_C f).                (* 123 *)
Definition dynamic_viscosity (f : fluid) : R := co_viscosity (f_fluid f) (f_T_C f).    (* 135 *)
Definition kinematic_viscosity (f : fluid) : R := f_mu f / f_rho f.                    (* 147 *)
Definition specific_heat_capacity (f : fluid) : R := co_heat (f_fluid f) (f_T_C f).    (* 159 *)
Definition volumetric_heat_capacity (f : fluid) : R := f_rho f * f_cp f.               (* 171 *)
Definition thermal_conductivity (f : fluid) : R := co_conductivity (f_fluid f) (f_T_C f). (* 183 *)
Definition Prandlt_number (f : fluid) : R := co_prandtl (f_fluid f) (f_T_C f).         (* 195 *)

Inductive made := Made (f : fluid) | LibraryError | Unsupported.

(** Choice of the mixture (media.py 64-77). *)
Definition choose (lib : scp) (fluid_str : string) (percent : R) : option (option coolant) :=
  let x_frac := percent / 100 in
  let u := upper fluid_str in
  if String.eqb u "WATER" then Some (Some (s_Water lib))
  else if existsb (String.eqb u) ["PROPYLENEGLYCOL"; "MPG"]%string then Some (s_PropyleneGlycol lib x_frac)
  else if existsb (String.eqb u) ["ETHYLENEGLYCOL"; "MEG"]%string then Some (s_EthyleneGlycol lib x_frac)
  else if existsb (String.eqb u) ["METHYLALCOHOL"; "MMA"]%string then Some (s_MethylAlcohol lib x_frac)
  else if existsb (String.eqb u) ["ETHYLALCOHOL"; "MEA"]%string then Some (s_EthylAlcohol lib x_frac)
  else None.

(** Fluid.__init__ (media.py 62-98): the attributes in the order in which they are set. *)
Definition mk_fluid (lib : scp) (fluid_str : string) (percent T : R) : made :=
  match choose lib fluid_str percent with
  | None => Unsupported
  | Some None => LibraryError
  | Some (Some c) =>
      let f0 := {| f_fluid := c; f_name := co_name c; f_T_C := T; f_rho := 0; f_mu := 0; f_nu := 0; f_cp := 0;
                   f_rhoCp := 0; f_k := 0; f_Pr := 0 |} in
      let rho := density f0 in
      let mu := dynamic_viscosity f0 in
      let f1 := {| f_fluid := c; f_name := co_name c; f_T_C := T; f_rho := rho; f_mu := mu; f_nu := 0; f_cp := 0;
                   f_rhoCp := 0; f_k := 0; f_Pr := 0 |} in
      let nu := kinematic_viscosity f1 in
      let cp := specific_heat_capacity f1 in
      let f2 := {| f_fluid := c; f_name := co_name c; f_T_C := T; f_rho := rho; f_mu := mu; f_nu := nu; f_cp := cp;
                   f_rhoCp := 0; f_k := 0; f_Pr := 0 |} in
      let rhoCp := volumetric_heat_capacity f2 in
      let k := thermal_conductivity f2 in
      let Pr := Prandlt_number f2 in
      Made {| f_fluid := c; f_name := co_name c; f_T_C := T; f_rho := rho; f_mu := mu; f_nu := nu; f_cp := cp;
              f_rhoCp := rhoCp; f_k := k; f_Pr := Pr |}
  end.

(** Assignment to the attribute [T_C]. *)
Definition set_T_C (f : fluid) (T : R) : fluid :=
  {| f_fluid := f_fluid f; f_name := f_name f; f_T_C := T; f_rho := f_rho f; f_mu := f_mu f; f_nu := f_nu f;
     f_cp := f_cp f; f_rhoCp := f_rhoCp f; f_k := f_k f; f_Pr := f_Pr f |}.

(** append_to_dict (media.py 106-111).  A value is a number, an object or a string; the
    format [.5E] is defined for numbers only: a TypeError for the object, a ValueError for
    the string.  [shown] is the text of a number. *)
Inductive value := VNum (x : R) | VObj (c : coolant) | VStr (s : string).
Definition format_E (shown : R -> string) (v : value) : option string :=
  match v with VNum x => Some (shown x) | VObj _ | VStr _ => None end.
Definition attributes (f : fluid) : list (string * value) :=
  [("Pr", VNum (f_Pr f)); ("T_C", VNum (f_T_C f)); ("cp", VNum (f_cp f)); ("fluid", VObj (f_fluid f));
   ("k", VNum (f_k f)); ("mu", VNum (f_mu f)); ("name", VStr (f_name f)); ("nu", VNum (f_nu f));
   ("rho", VNum (f_rho f)); ("rhoCp", VNum (f_rhoCp f))]%string.
Definition dict := list (string * list string).
Fixpoint lookup (k : string) (d : dict) : option (list string) :=
  match d with [] => None | (k', v) :: r => if String.eqb k k' then Some v else lookup k r end.
Fixpoint extend (k x : string) (d : dict) : dict :=
  match d with [] => [] | (k', v) :: r => if String.eqb k k' then (k', v ++ [x]) :: r else (k', v) :: extend k x r end.
(** The loop of lines 110-111: the dictionary left behind, and whether it went through. *)
Fixpoint append_all (shown : R -> string) (l : list (string * value)) (d : dict) : dict * bool :=
  match l with
  | [] => (d, true)
  | (k, v) :: r =>
      match lookup k d, format_E shown v with
      | Some _, Some x => append_all shown r (extend k x d)
      | _, _ => (d, false)
      end
  end.
Definition append_to_dict (shown : R -> string) (f : fluid) (d : dict) : dict * bool :=
  append_all shown (attributes f) (match d with [] => map (fun p => (fst p, [])) (attributes f) | _ => d end).
