(** Model of small host utilities: parameter store, solver callbacks, field name map,
    cell id translation, work sizes. *)
From Coq Require Export String ZArith Lia Bool Arith List.
Export ListNotations.

(** * std::map keyed by std::string: association list, [operator[]=] replaces. *)
Section StrMap.
  Context {V : Type}.
  Fixpoint smfind (m : list (string * V)) (k : string) : option V :=
    match m with
    | [] => None
    | (k', v) :: r => if String.eqb k' k then Some v else smfind r k
    end.
  Fixpoint smassign (m : list (string * V)) (k : string) (v : V) : list (string * V) :=
    match m with
    | [] => [(k, v)]
    | (k', v') :: r => if String.eqb k' k then (k, v) :: r else (k', v') :: smassign r k v
    end.
End StrMap.

(** * ParameterStore (include/nektar_interface/parameter_store.hpp 19-95) *)
Section Store.
  Context {INT REAL : Type}.
  (** std::variant<INT, REAL> (line 21). *)
  Inductive pvalue := VInt (i : INT) | VReal (r : REAL).
  Definition pstore := list (string * pvalue).
  (** set<INT>, set<REAL> (61-65). *)
  Definition ps_set_int (s : pstore) (k : string) (v : INT) : pstore := smassign s k (VInt v).
  Definition ps_set_real (s : pstore) (k : string) (v : REAL) : pstore := smassign s k (VReal v).
  (** contains (73-75). *)
  Definition ps_contains (s : pstore) (k : string) : bool :=
    match smfind s k with Some _ => true | None => false end.
  (** std::get<T>(variant) throws bad_variant_access on the other alternative (90). *)
  Inductive getres (T : Type) := Got (v : T) | BadAccess.
  Arguments Got {T}. Arguments BadAccess {T}.
  (** get<INT>(name, value = 0) (85-94). *)
  Definition ps_get_int (s : pstore) (k : string) (d : INT) : getres INT :=
    if ps_contains s k then
      match smfind s k with Some (VInt i) => Got i | _ => BadAccess end
    else Got d.
  (** get<REAL>(name, value = 0) (85-94). *)
  Definition ps_get_real (s : pstore) (k : string) (d : REAL) : getres REAL :=
    if ps_contains s k then
      match smfind s k with Some (VReal r) => Got r | _ => BadAccess end
    else Got d.
  (** add_internal (23-28): the input std::map is the list of its entries, in key order. *)
  Fixpoint ps_add_ints (s : pstore) (l : list (string * INT)) : pstore :=
    match l with [] => s | (k, v) :: r => ps_add_ints (ps_set_int s k v) r end.
  Fixpoint ps_add_reals (s : pstore) (l : list (string * REAL)) : pstore :=
    match l with [] => s | (k, v) :: r => ps_add_reals (ps_set_real s k v) r end.
  (** Client operations: the three constructors start from an empty store (31-53) and
      are histories of [add_internal]; [set] may follow. *)
  Inductive psop := OSetInt (k : string) (v : INT) | OSetReal (k : string) (v : REAL)
                  | OAddInts (l : list (string * INT)) | OAddReals (l : list (string * REAL)).
  Definition ps_apply (s : pstore) (o : psop) : pstore :=
    match o with
    | OSetInt k v => ps_set_int s k v
    | OSetReal k v => ps_set_real s k v
    | OAddInts l => ps_add_ints s l
    | OAddReals l => ps_add_reals s l
    end.
  Definition ps_run (l : list psop) : pstore := fold_left ps_apply l [].
End Store.
Arguments pvalue : clear implicits.
Arguments Got {T}. Arguments BadAccess {T}.
Arguments psop : clear implicits.

(** * SolverCallbackHandler (include/solvers/solver_callback_handler.hpp 38-224) *)
Section Callbacks.
  (** SOLVER state together with whatever the callbacks' instances refer to. *)
  Context {S : Type}.
  Record handler := mkHandler { pre_funcs : list (S -> S); post_funcs : list (S -> S) }.
  (** The three overloads (89-91,112-116,133-136; 153-155,175-179,196-199) bind the function,
      the member function with std::ref(inst), or SolverCallback::call with the object; an
      instance is a component of [S] reached through its reference, so each becomes one
      transformer. Simplification: callbacks do not register further callbacks while the
      vector is iterated (undefined behaviour in the code). *)
  Definition register_pre (h : handler) (f : S -> S) : handler :=
    mkHandler (pre_funcs h ++ [f]) (post_funcs h).
  Definition register_post (h : handler) (f : S -> S) : handler :=
    mkHandler (pre_funcs h) (post_funcs h ++ [f]).
  Fixpoint call_all (l : list (S -> S)) (s : S) : S :=
    match l with [] => s | f :: r => call_all r (f s) end.
  (** call_pre_integrate (207-211), call_post_integrate (219-223). *)
  Definition call_pre (h : handler) (s : S) : S := call_all (pre_funcs h) s.
  Definition call_post (h : handler) (s : S) : S := call_all (post_funcs h) s.
  Inductive cbop := RegPre (f : S -> S) | RegPost (f : S -> S) | FirePre | FirePost.
  Definition cb_step (hs : handler * S) (o : cbop) : handler * S :=
    let (h, s) := hs in
    match o with
    | RegPre f => (register_pre h f, s)
    | RegPost f => (register_post h f, s)
    | FirePre => (h, call_pre h s)
    | FirePost => (h, call_post h s)
    end.
  Definition cb_run (ops : list cbop) (s : S) : S :=
    snd (fold_left cb_step ops (mkHandler [] [], s)).
End Callbacks.
Arguments cbop : clear implicits.

(** * NektarFieldIndexMap (include/nektar_interface/utilities.hpp 33-81) *)
(** constructor 45-50 *)
Fixpoint fim_build (names : list string) (index : Z) (m : list (string * Z)) : list (string * Z) :=
  match names with
  | [] => m
  | n :: r => fim_build r (index + 1)%Z (smassign m n index)
  end.
Definition fim_make (names : list string) : list (string * Z) := fim_build names 0%Z [].
(** get_idx 57-61 *)
Definition fim_get_idx (m : list (string * Z)) (n : string) : Z :=
  match smfind m n with Some i => i | None => (-1)%Z end.
(** at / operator[] 71, 81: [None] is std::out_of_range. *)
Definition fim_at (m : list (string * Z)) (n : string) : option Z := smfind m n.

(** * get_global_size, pad_to_vector_length (include/nektar_interface/utility_sycl.hpp) *)
(** 23-30, for N and L below 2^63 (the casts to long long are then exact). *)
Definition get_global_size (N L : Z) : Z :=
  let quot := Z.quot N L in
  let rem := Z.rem N L in
  let outer := (quot + (if Z.eqb rem 0 then 0 else 1))%Z in
  (outer * L)%Z.
(** 70-77 with NESO_VECTOR_LENGTH = VL *)
Definition pad_to_vector_length (VL L : Z) : Z :=
  let rem_L := Z.rem L VL in
  if Z.eqb rem_L 0 then L else (L + (VL - rem_L))%Z.

(** * Cell id translation *)
(** std::map<int, T>: list sorted by key, [operator[]=] replaces. *)
Section ZMap.
  Context {V : Type}.
  Fixpoint zassign (m : list (Z * V)) (k : Z) (v : V) : list (Z * V) :=
    match m with
    | [] => [(k, v)]
    | (k', v') :: r =>
        if Z.eqb k k' then (k, v) :: r
        else if Z.ltb k k' then (k, v) :: (k', v') :: r
        else (k', v') :: zassign r k v
    end.
  Definition zassign_all (l : list (Z * V)) (m : list (Z * V)) : list (Z * V) :=
    fold_left (fun m kv => zassign m (fst kv) (snd kv)) l m.
End ZMap.

(** get_all_elements_2d (geometry_transport_2d.cpp 11-24), get_all_elements_3d
    (geometry_transport_3d.cpp 11-32): per shape std::maps merged in this order.
    A geometry is its (global id, shape type). *)
Notation geom := (Z * Z)%type.
Definition get_all_elements_2d (tris quads : list (Z * geom)) : list (Z * geom) :=
  zassign_all quads (zassign_all tris []).
Definition get_all_elements_3d (tets pyrs prisms hexs : list (Z * geom)) : list (Z * geom) :=
  zassign_all hexs (zassign_all prisms (zassign_all pyrs (zassign_all tets []))).

Definition INT_MAX : Z := 2147483647.
Definition INT_MIN : Z := (-2147483648).
Definition in_int (z : Z) : bool := Z.leb INT_MIN z && Z.leb z INT_MAX.

Record cell_ids := mkCellIds {
  map_to_nektar : list Z;          (* line 84 *)
  map_to_geom_type : list Z;       (* line 91 *)
  id_map : list (option Z);        (* line 36; [None] = uninitialised device memory *)
  id_shift : Z }.                  (* line 37 *)

(** construct_maps first loop (52-62): [None] = failed assertion. *)
Fixpoint cm_loop (geoms : list (Z * geom)) (id_min id_max : Z) (ids types : list Z)
  : option (Z * Z * list Z * list Z) :=
  match geoms with
  | [] => Some (id_min, id_max, ids, types)
  | (k, (id, ty)) :: r =>
      if Z.eqb k id then cm_loop r (Z.min id_min id) (Z.max id_max id) (ids ++ [id]) (types ++ [ty])
      else None
  end.
(** store at a raw pointer index, [None] = out of bounds *)
Fixpoint upd {A} (l : list A) (i : nat) (x : A) : option (list A) :=
  match l, i with
  | [], _ => None
  | _ :: r, O => Some (x :: r)
  | a :: r, S j => option_map (cons a) (upd r j x)
  end.
Definition updZ {A} (l : list A) (i : Z) (x : A) : option (list A) :=
  if Z.ltb i 0 then None else upd l (Z.to_nat i) x.
(** construct_maps second loop (69-72) *)
Fixpoint cm_fill (ids : list Z) (shift : Z) (ex : Z) (buf : list (option Z)) : option (list (option Z)) :=
  match ids with
  | [] => Some buf
  | id :: r => match updZ buf (id - shift) (Some ex) with
               | Some b => cm_fill r shift (ex + 1) b
               | None => None
               end
  end.
(** construct_maps (39-75). [id_max - id_min] is int arithmetic (66): overflow is undefined
    behaviour, outcome [None]. *)
Definition construct_maps (geoms : list (Z * geom)) : option cell_ids :=
  match cm_loop geoms INT_MAX INT_MIN [] [] with
  | None => None
  | Some (id_min, id_max, ids, types) =>
      let shifted_max := (id_max - id_min)%Z in
      if in_int shifted_max && in_int (shifted_max + 1) then
        match cm_fill ids id_min 0 (repeat None (Z.to_nat (shifted_max + 1))) with
        | Some b => Some (mkCellIds ids types b id_min)
        | None => None
        end
      else None
  end.
(** execute (128-145), per particle: [None] = out of bounds or uninitialised read. *)
Definition translate (c : cell_ids) (nektar_cell : Z) : option Z :=
  let shifted := (nektar_cell - id_shift c)%Z in
  if Z.ltb shifted 0 then None
  else match nth_error (id_map c) (Z.to_nat shifted) with
       | Some (Some v) => Some v
       | _ => None
       end.
Definition execute_translation (c : cell_ids) (particles : list Z) : list (option Z) :=
  map (translate c) particles.
