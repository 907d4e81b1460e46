(** Model of what a single U-tube or coaxial borehole shares with its caller: the arrays of
    segment ratios are kept by reference in the store (pygfunction/pipes.py 822-827 and
    852-855), and the arrays of coefficients that a method returns are those of the store
    (829-831 and the last lines of the methods).  PipeCache_Model.v keeps both by value.

    The arrays of the caller have numbers as names; [heap] gives what they contain.  Lists
    of ratios, and the arrays of flows, are left out: the products m_flow_borehole*cp_f are
    new objects. *)
From Coq Require Import Reals List Bool Arith.
From Verif Require Import Base LinAlg Bore_Model Net_Model Pipe_Model PipeCache_Model.
Import ListNotations.
Local Open Scope R_scope.

Definition heap := nat -> list R.

(** The arguments of a call: segment_ratios is None or an array *)
Record rcall := mkrcall { r_m : R; r_cp : R; r_n : nat; r_a : option nat }.
Definition deref (h : heap) (g : rcall) : call := mkcall (r_m g) (r_cp g) (r_n g) (option_map h (r_a g)).

(** The key of 822-827 and 852-855 *)
Record rkey := mkrkey { kr_mcp : R; kr_n : nat; kr_a : option nat }.
Definition rkey_of (g : rcall) : rkey := mkrkey (r_m g * r_cp g) (r_n g) (r_a g).
Definition key_at (h : heap) (k : rkey) : key := mkkey (kr_mcp k) (kr_n k) (option_map h (kr_a k)).

Record robj := mkrobj {
  w_tube : utube; w_iin : nat; w_vars : uvars; w_key : option rkey; w_store : nat -> option (rkey * result) }.

(** What the object compares and returns, in a given heap *)
Definition view (h : heap) (o : robj) : pobj :=
  mkpobj (w_tube o) (w_iin o) (w_vars o) (option_map (key_at h) (w_key o))
         (fun i => option_map (fun p => (key_at h (fst p), snd p)) (w_store o i)).

(** 810-818 *)
Definition new_robj (u : utube) : robj := mkrobj u 0 (mkuv 0 0 0 0 0 0) None (fun _ => None).

(** 1637-1644 *)
Definition r_set_dir (g : rcall) (o : robj) : robj :=
  mkrobj (w_tube o) (i_inlet (w_tube o) (r_m g)) (w_vars o) (w_key o) (w_store o).

(** 833-857 *)
Definition r_check_vars (h : heap) (g : rcall) (o : robj) : robj :=
  if same_vars (deref h g) (option_map (key_at h) (w_key o)) then o
  else mkrobj (w_tube o) (i_inlet (w_tube o) (r_m g)) (model_vars (w_tube o) (r_m g) (r_cp g)) (Some (rkey_of g)) (w_store o).

(** 820-831 *)
Definition r_set_stored (id : nat) (g : rcall) (v : result) (o : robj) : robj :=
  mkrobj (w_tube o) (w_iin o) (w_vars o) (w_key o) (fun i => if Nat.eqb i id then Some (rkey_of g, v) else w_store o i).

(** The common shape of the methods with a store *)
Definition r_stored (h : heap) (id : nat) (g : rcall) (compute : robj -> robj * result) (o : robj) : robj * result :=
  match same_coefs (deref h g) (option_map (fun p => key_at h (fst p)) (w_store o id)) with
  | None => (o, RError)
  | Some true => (o, match w_store o id with Some (_, v) => v | None => RError end)
  | Some false =>
      match compute o with
      | (o', RError) => (o', RError)
      | (o', v) => (r_set_stored id g v o', v)
      end
  end.

(** 1128-1167 *)
Definition r_outlet (h : heap) (g : rcall) : robj -> robj * result :=
  r_stored h 4 g (fun o =>
    let o' := r_check_vars h g o in
    let b := u_b (w_tube o') in
    (o', RScal (out_in (w_vars o') (bH b), out_b (w_vars o') (bH b) (segment_edges b (r_n g) (option_map h (r_a g)))))).

(** 1208-1325 at one depth *)
Definition r_temp_coefs (h : heap) (g : rcall) (o : robj) (z : R) : (nat -> R) * Mx :=
  let b := u_b (w_tube o) in
  temperature_at (w_vars o) (w_iin o) (bH b) (segment_edges b (r_n g) (option_map h (r_a g))) z.
Definition r_temperature (h : heap) (z : R) (g : rcall) (o : robj) : robj * result :=
  let o' := r_check_vars h g o in (o', RTemp (r_temp_coefs h g o' z)).

(** 563-598 *)
Definition r_heat (h : heap) (g : rcall) : robj -> robj * result :=
  r_stored h 6 g (fun o =>
    let o' := r_check_vars h g (r_set_dir g o) in
    (o', RHeat (heat_from (r_temp_coefs h g o')
                  (segment_edges (u_b (w_tube o')) (r_n g) (option_map h (r_a g))) (r_m g) (r_cp g)))).

(** 632-667 *)
Definition r_fluid (h : heap) (g : rcall) : robj -> robj * result :=
  r_stored h 7 g (fun o =>
    let (o', a) := r_outlet h g (r_set_dir g o) in
    (o', match a with RScal ab => RScal (fluid_from ab (r_m g) (r_cp g)) | _ => RError end)).

(** 319-345 *)
Definition r_inlet (h : heap) (g : rcall) : robj -> robj * result :=
  r_stored h 3 g (fun o =>
    let (o', a) := r_fluid h g o in
    (o', match a with
         | RScal q => match inlet_from q with Some c => RScal c | None => RError end
         | _ => RError
         end)).

(** 1341-1348 and 2626-2640 *)
Definition r_update (Rd : nat -> nat -> xres) (o : robj) : robj :=
  mkrobj (mkutube Rd (u_b (w_tube o)) (u_reversible (w_tube o))) (w_iin o) (w_vars o) None (fun _ => None).

(** What happens: a request, or a statement of the caller that writes in an array of
    ratios, or in the arrays that the method [id] returned last. *)
Inductive event :=
| GetInlet (g : rcall) | GetOutlet (g : rcall) | GetTemperature (z : R) (g : rcall) | GetHeat (g : rcall) | GetFluid (g : rcall)
| NewResistances (Rd : nat -> nat -> xres)
| WriteArray (a : nat) (l : list R)
| WriteResult (id : nat) (v : result).

Definition set_heap (h : heap) (a : nat) (l : list R) : heap := fun i => if Nat.eqb i a then l else h i.

Definition step (e : event) (s : heap * robj) : (heap * robj) * result :=
  let h := fst s in
  let done p := ((h, fst p), snd p) in
  match e with
  | GetInlet g => done (r_inlet h g (snd s))
  | GetOutlet g => done (r_outlet h g (snd s))
  | GetTemperature z g => done (r_temperature h z g (snd s))
  | GetHeat g => done (r_heat h g (snd s))
  | GetFluid g => done (r_fluid h g (snd s))
  | NewResistances Rd => ((h, r_update Rd (snd s)), RDone)
  | WriteArray a l => ((set_heap h a l, snd s), RDone)
  | WriteResult id v =>
      ((h, mkrobj (w_tube (snd s)) (w_iin (snd s)) (w_vars (snd s)) (w_key (snd s))
             (fun i => if Nat.eqb i id then option_map (fun p => (fst p, v)) (w_store (snd s) i) else w_store (snd s) i)), RDone)
  end.

(** The state after a sequence of events *)
Definition run (l : list event) (s : heap * robj) : heap * robj := fold_left (fun s e => fst (step e s)) l s.
