(** Model of the coefficients that a single U-tube or coaxial borehole stores
    between calls: pygfunction/pipes.py, [_BasePipe] 810-880 and the methods of
    [SingleUTube] around them.

    Segment ratios are numpy arrays (lists are never found in the store and are
    not modelled); they are stored by value, while the code keeps a reference to
    the array of the caller. *)
From Verif Require Import Base LinAlg Bore_Model Net_Model Pipe_Model.

(** The arguments of a call *)
Record call := mkcall { c_m : R; c_cp : R; c_n : nat; c_r : option (list R) }.

(** The key under which a result is stored: pipes.py 822-827 and 852-855. *)
Record key := mkkey { k_mcp : R; k_n : nat; k_r : option (list R) }.
Definition key_of (g : call) : key := mkkey (c_m g * c_cp g) (c_n g) (c_r g).

(** pipes.py 847 and 877 *)
Definition near_mcp (x stored : R) : bool := Rltb (Rabs (x - stored)) (Rabs stored * tol).

(** pipes.py 838-857, the test of [_check_model_variables]; [None] is the key
    before the first call, which contains NaN. *)
Definition same_vars (g : call) (k : option key) : bool :=
  match k with
  | None => false
  | Some k =>
      near_mcp (c_m g * c_cp g) (k_mcp k) && Nat.eqb (c_n g) (k_n k)
      && match k_r k, c_r g with
         | None, None => true
         | Some s, Some l =>
             Nat.eqb (length l) (length s)
             && match near_val l s with Some b => b | None => false end
         | _, _ => false
         end
  end.

(** pipes.py 859-880, [_check_coefficients]; the result [None] is an exception
    (arrays that do not broadcast). *)
Definition same_coefs (g : call) (k : option key) : option bool :=
  match k with
  | None => Some false
  | Some k =>
      if Nat.eqb (c_n g) (k_n k) then
        match k_r k, c_r g with
        | None, None => Some (near_mcp (c_m g * c_cp g) (k_mcp k))
        | Some s, Some l =>
            match near_val l s with
            | Some b => Some (b && near_mcp (c_m g * c_cp g) (k_mcp k))
            | None => None
            end
        | _, _ => Some false
        end
      else Some false
  end.

(** What a method returns *)
Inductive result :=
| RScal (c : R * (nat -> R))          (* coefficients of one temperature or rate *)
| RHeat (c : (nat -> R) * Mx)         (* of the rates of the segments *)
| RTemp (c : (nat -> R) * Mx)         (* of the temperatures at a depth *)
| RDone                               (* no value *)
| RError.                             (* exception *)

(** The object: pipes.py 810-818 and the attributes of 1587-1656.  [q_iin] is
    [_iInlet]. *)
Record pobj := mkpobj {
  q_tube : utube;
  q_iin : nat;
  q_vars : uvars;
  q_key : option key;
  q_store : nat -> option (key * result)
}.

(** pipes.py 810-818; the model variables have no value before the first call. *)
Definition new_pobj (u : utube) : pobj :=
  mkpobj u 0 (mkuv 0 0 0 0 0 0) None (fun _ => None).

(** pipes.py 1637-1644, the part of [_format_inputs] that later calls read *)
Definition set_dir (g : call) (o : pobj) : pobj :=
  mkpobj (q_tube o) (i_inlet (q_tube o) (c_m g)) (q_vars o) (q_key o) (q_store o).

(** pipes.py 833-857, [_check_model_variables], with 1568-1606 *)
Definition check_vars (g : call) (o : pobj) : pobj :=
  if same_vars g (q_key o) then o
  else mkpobj (q_tube o) (i_inlet (q_tube o) (c_m g))
              (model_vars (q_tube o) (c_m g) (c_cp g)) (Some (key_of g)) (q_store o).

(** pipes.py 820-831 *)
Definition set_stored (id : nat) (g : call) (v : result) (o : pobj) : pobj :=
  mkpobj (q_tube o) (q_iin o) (q_vars o) (q_key o)
         (fun i => if Nat.eqb i id then Some (key_of g, v) else q_store o i).

(** The common shape of the methods with a store *)
Definition stored (id : nat) (g : call) (compute : pobj -> pobj * result) (o : pobj) : pobj * result :=
  match same_coefs g (option_map fst (q_store o id)) with
  | None => (o, RError)
  | Some true => (o, match q_store o id with Some (_, v) => v | None => RError end)
  | Some false =>
      match compute o with
      | (o', RError) => (o', RError)
      | (o', v) => (set_stored id g v o', v)
      end
  end.

(** pipes.py 1128-1167 *)
Definition q_outlet (g : call) : pobj -> pobj * result :=
  stored 4 g (fun o =>
    let o' := check_vars g o in
    let b := u_b (q_tube o') in
    (o', RScal (out_in (q_vars o') (bH b),
                out_b (q_vars o') (bH b) (segment_edges b (c_n g) (c_r g))))).

(** pipes.py 1208-1325 at one depth: the row of the inlet leg is [_iInlet] *)
Definition temp_coefs (g : call) (o : pobj) (z : R) : (nat -> R) * Mx :=
  let b := u_b (q_tube o) in
  temperature_at (q_vars o) (q_iin o) (bH b) (segment_edges b (c_n g) (c_r g)) z.
Definition q_temperature (z : R) (g : call) (o : pobj) : pobj * result :=
  let o' := check_vars g o in (o', RTemp (temp_coefs g o' z)).

(** pipes.py 563-598 *)
Definition q_heat (g : call) : pobj -> pobj * result :=
  stored 6 g (fun o =>
    let o' := check_vars g (set_dir g o) in
    (o', RHeat (heat_from (temp_coefs g o')
                  (segment_edges (u_b (q_tube o')) (c_n g) (c_r g)) (c_m g) (c_cp g)))).

(** pipes.py 632-667 *)
Definition q_fluid (g : call) : pobj -> pobj * result :=
  stored 7 g (fun o =>
    let (o', a) := q_outlet g (set_dir g o) in
    (o', match a with RScal ab => RScal (fluid_from ab (c_m g) (c_cp g)) | _ => RError end)).

(** pipes.py 319-345 *)
Definition q_inlet (g : call) : pobj -> pobj * result :=
  stored 3 g (fun o =>
    let (o', a) := q_fluid g o in
    (o', match a with
         | RScal q => match inlet_from q with Some c => RScal c | None => RError end
         | _ => RError
         end)).

(** pipes.py 1341-1348 and 2626-2640: new resistances, empty store *)
Definition q_update (Rd : nat -> nat -> xres) (o : pobj) : pobj :=
  mkpobj (mkutube Rd (u_b (q_tube o)) (u_reversible (q_tube o))) (q_iin o) (q_vars o) None (fun _ => None).

(** One request to the object *)
Inductive request :=
| AskInlet (g : call) | AskOutlet (g : call) | AskTemperature (z : R) (g : call)
| AskHeat (g : call) | AskFluid (g : call) | Update (Rd : nat -> nat -> xres).

Definition ask (q : request) (o : pobj) : pobj * result :=
  match q with
  | AskInlet g => q_inlet g o
  | AskOutlet g => q_outlet g o
  | AskTemperature z g => q_temperature z g o
  | AskHeat g => q_heat g o
  | AskFluid g => q_fluid g o
  | Update Rd => (q_update Rd o, RDone)
  end.

(** The object after a sequence of requests *)
Definition after (l : list request) (o : pobj) : pobj := fold_left (fun o q => fst (ask q o)) l o.
