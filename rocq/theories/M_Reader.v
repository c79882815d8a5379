(** Model of the particle session reader
    (src/nektar_interface/solver_base/particle_reader.cpp).
    Strings are lists of characters; std::string::npos is [None];
    a thrown exception / failed assertion is [None] of the result. *)
From Coq Require Import String.
From Coq Require Export List ZArith Lia Bool Arith Ascii.
Export ListNotations.

Definition str := list ascii.
Definition sp : ascii := " "%char.
Definition eqs : ascii := "="%char.

(** std::string::find_first_of(c) for a single character. *)
Fixpoint find_first_of (c : ascii) (s : str) : option nat :=
  match s with
  | [] => None
  | a :: r => if Ascii.eqb a c then Some O else option_map S (find_first_of c r)
  end.
(** std::string::find_first_not_of(c). *)
Fixpoint find_first_not_of (c : ascii) (s : str) : option nat :=
  match s with
  | [] => None
  | a :: r => if Ascii.eqb a c then option_map S (find_first_not_of c r) else Some O
  end.
(** std::string::find_last_of(c). *)
Fixpoint find_last_of (c : ascii) (s : str) : option nat :=
  match s with
  | [] => None
  | a :: r => match find_last_of c r with
              | Some k => Some (S k)
              | None => if Ascii.eqb a c then Some O else None
              end
  end.
(** std::string::find_last_not_of(c). *)
Fixpoint find_last_not_of (c : ascii) (s : str) : option nat :=
  match s with
  | [] => None
  | a :: r => match find_last_not_of c r with
              | Some k => Some (S k)
              | None => if Ascii.eqb a c then None else Some O
              end
  end.
(** std::string::substr(pos, n): throws out_of_range when pos > size (in
    particular for npos). *)
Definition substr (s : str) (pos : option nat) (n : option nat) : option str :=
  match pos with
  | None => None
  | Some p =>
      if Nat.ltb (length s) p then None
      else Some (match n with Some k => firstn k (skipn p s) | None => skipn p s end)
  end.
(** [npos + 1] wraps to 0. *)
Definition succ_pos (p : option nat) : nat := match p with Some k => S k | None => O end.

Definition opt_nat_eqb (a b : option nat) : bool :=
  match a, b with
  | Some x, Some y => Nat.eqb x y
  | None, None => true
  | _, _ => false
  end.

Definition bindo {A B} (x : option A) (f : A -> option B) : option B :=
  match x with Some a => f a | None => None end.

(** particle_reader.cpp 40-63 (parse_equals). *)
Definition parse_equals (line : str) : option (str * str) :=
  let beg := find_first_not_of sp line in
  let en := find_first_of eqs line in
  if opt_nat_eqb beg en then None
  else if negb (opt_nat_eqb en (find_last_of eqs line)) then None
  else match en with
  | None => None
  | Some e =>
      (* end - beg; beg = npos cannot happen here (there is a '=') *)
      bindo (substr line beg (Some (e - match beg with Some b => b | None => O end)%nat)) (fun l0 =>
      bindo (substr l0 (Some O) (Some (succ_pos (find_last_not_of sp l0)))) (fun lhs =>
      bindo (substr line (Some (succ_pos (find_last_of eqs line))) None) (fun r0 =>
      bindo (substr r0 (find_first_not_of sp r0) None) (fun r1 =>
      bindo (substr r1 (Some O) (Some (succ_pos (find_last_not_of sp r1)))) (fun rhs =>
        Some (lhs, rhs))))))
  end.

(** boost::to_upper in the classic locale. *)
Definition to_upper_char (c : ascii) : ascii :=
  let n := nat_of_ascii c in
  if (Nat.leb 97 n && Nat.leb n 122)%bool then ascii_of_nat (n - 32) else c.
Definition to_upper (s : str) : str := map to_upper_char s.

Fixpoint str_eqb (a b : str) : bool :=
  match a, b with
  | [], [] => true
  | x :: a', y :: b' => Ascii.eqb x y && str_eqb a' b'
  | _, _ => false
  end.

(** std::map<std::string, V> with operator[] assignment: newest binding first. *)
Section Maps.
  Context {V : Type}.
  Definition smap := list (str * V).
  Definition sget (m : smap) (k : str) : option V :=
    option_map snd (find (fun kv => str_eqb (fst kv) k) m).
  Definition sset (m : smap) (k : str) (v : V) : smap := (k, v) :: m.
End Maps.
Arguments smap V : clear implicits.

(** ** INFO properties *)

(** particle_reader.cpp 65-120 (read_info): the list of (PROPERTY, VALUE)
    attributes in document order, [None] for a missing attribute. *)
Fixpoint read_info (items : list (option str * option str)) (m : smap str)
  : option (smap str) :=
  match items with
  | [] => Some m
  | (Some p, Some v) :: r =>
      match p, v with
      | [], _ => None
      | _, [] => None
      | _, _ => read_info r (sset m (to_upper p) v)
      end
  | _ => None
  end.

(** particle_reader.cpp 125-128 (defines_info). *)
Definition defines_info (m : smap str) (name : str) : bool :=
  match sget m (to_upper name) with Some _ => true | None => false end.

(** particle_reader.cpp 137-145 (get_info): NB looks up [name], not
    [name_upper].  [None] is the failed assertion. *)
Definition get_info (m : smap str) (name : str) : option str := sget m name.

(** ** PARAMETERS *)
Section Params.
  Context {V : Type}.
  (** Nektar++ expression evaluator: value of an expression given the
      parameters set so far (names as written), [None] = runtime_error. *)
  Variable eval : smap V -> str -> option V.

  (** particle_reader.cpp 147-202 (read_parameters); the same loop body appears in
      read_species and read_reactions.  State: interpreter parameters, stored
      parameters. *)
  Fixpoint read_parameters (lines : list str) (interp params : smap V)
    : option (smap V * smap V) :=
    match lines with
    | [] => Some (interp, params)
    | line :: r =>
        bindo (parse_equals line) (fun lr =>
          let lhs := fst lr in let rhs := snd lr in
          match lhs, rhs with
          | [], _ | _, [] => read_parameters r interp params
          | _, _ =>
              bindo (eval interp rhs) (fun v =>
                read_parameters r (sset interp lhs v) (sset params (to_upper lhs) v))
          end)
    end.

  (** particle_reader.cpp 207-210, 220-228. *)
  Definition defines_parameter (params : smap V) (name : str) : bool :=
    match sget params (to_upper name) with Some _ => true | None => false end.
  Definition get_parameter (params : smap V) (name : str) : option V :=
    sget params (to_upper name).

  (** particle_reader.cpp 849-873: double variants of load_parameter. *)
  Definition load_double (params : smap V) (name : str) : option V := sget params (to_upper name).
  Definition load_double_default (params : smap V) (name : str) (d : V) : V :=
    match sget params (to_upper name) with Some v => v | None => d end.

  (** C round() followed by LU::checked_cast<int>, which asserts the value fits. *)
  Variable round : V -> Z.
  Open Scope Z_scope.
  Definition checked_int (v : V) : option Z :=
    let z := round v in
    if (- 2 ^ 31 <=? z) && (z <? 2 ^ 31) then Some z else None.
  (** particle_reader.cpp 797-820: int variants. *)
  Definition load_int (params : smap V) (name : str) : option Z :=
    bindo (sget params (to_upper name)) checked_int.
  Definition load_int_default (params : smap V) (name : str) (d : Z) : option Z :=
    match sget params (to_upper name) with Some v => checked_int v | None => Some d end.
  (** particle_reader.cpp 825-847: size_t variants go through checked_cast<int>;
      the int is then converted to a 64 bit unsigned. *)
  Definition load_size_t (params : smap V) (name : str) : option Z :=
    bindo (sget params (to_upper name)) (fun v => option_map (fun z => z mod 2 ^ 64) (checked_int v)).
End Params.

(** ** BOUNDARYINTERACTION *)
Inductive ctype := CondC | CondP | CondOther.
Inductive bctype := Reflective | Periodic.
(** One condition element: tag, SPECIES attribute, and all attributes in order. *)
Record condition := mkCond
  { cd_type : ctype; cd_species : option str; cd_attrs : list (str * str) }.

Definition name_species : str := list_ascii_of_string "SPECIES".
Definition name_value : str := list_ascii_of_string "VALUE".
Definition name_user : str := list_ascii_of_string "user_definedTYPE".
Section Boundary.
  (** std::stoi: [None] = throws; it throws on the empty string. *)
  Variable stoi : str -> option Z.
  (** Nektar++ ParseUtils::GenerateSeqVector: the sequence of a region list, [None] = not parsed. *)
  Variable gen_seq : str -> option (list Z).

  (** particle_reader.cpp 545-567: attribute loop of a C condition. *)
  Fixpoint c_attrs_ok (l : list (str * str)) : bool :=
    match l with
    | [] => true
    | (n, v) :: r =>
        if str_eqb n name_species then c_attrs_ok r
        else if str_eqb n name_value then negb (str_eqb v []) && c_attrs_ok r
        else false
    end.
  (** particle_reader.cpp 603-624: the value between brackets. The positions are ints, npos becomes -1; the substr is
      computed before the test beg < end, with a length that wraps to a huge one when negative; it does not throw as
      beg + 1 is at most the size. *)
  Definition int_pos (p : option nat) : Z := match p with Some k => Z.of_nat k | None => -1 end.
  Definition periodic_value_ok (v : str) : bool :=
    let beg := int_pos (find_first_of "["%char v) in
    let en := int_pos (find_first_of "]"%char v) in
    let len := (en - beg - 1)%Z in
    match substr v (Some (Z.to_nat (beg + 1))) (if (len <? 0)%Z then None else Some (Z.to_nat len)) with
    | None => false
    | Some inner =>
        if (beg <? en)%Z then match gen_seq inner with Some [_] => true | _ => false end else false
    end.
  (** particle_reader.cpp 582-627: attribute loop of a P condition. *)
  Fixpoint p_attrs_ok (l : list (str * str)) : bool :=
    match l with
    | [] => true
    | (n, v) :: r =>
        if str_eqb n name_species then p_attrs_ok r
        else if str_eqb n name_user then negb (str_eqb v []) && p_attrs_ok r
        else if str_eqb n name_value then negb (str_eqb v []) && periodic_value_ok v && p_attrs_ok r
        else p_attrs_ok r
    end.

  Definition bmap := list (Z * bctype).   (* newest binding first *)
  Definition bget (m : bmap) (s : Z) : option bctype :=
    option_map snd (find (fun kv => Z.eqb (fst kv) s) m).

  (** particle_reader.cpp 521-638: one condition element.
      Line 532: [attr_data = condition_element->Attribute("SPECIES")] with a missing
      attribute constructs a std::string from a null pointer ([None] here), and line
      533 applies std::stoi before line 535 tests for an empty string. *)
  Definition read_condition (all_species : list Z) (c : condition) (m : bmap) : option bmap :=
    match cd_species c with
    | None => None
    | Some attr_data =>
        bindo (stoi attr_data) (fun species_id =>
          match cd_type c with
          | CondC =>
              if str_eqb attr_data []
              then Some (map (fun s => (s, Reflective)) all_species ++ m)
              else match cd_attrs c with
                   | [] => Some m
                   | _ => if c_attrs_ok (cd_attrs c) then Some ((species_id, Reflective) :: m) else None
                   end
          | CondP =>
              if str_eqb attr_data [] then None
              else match cd_attrs c with
                   | [] => None
                   | _ => if p_attrs_ok (cd_attrs c) then Some ((species_id, Periodic) :: m) else None
                   end
          | CondOther => Some m
          end)
    end.

  Fixpoint read_conditions (all_species : list Z) (cs : list condition) (m : bmap) : option bmap :=
    match cs with
    | [] => Some m
    | c :: r => bindo (read_condition all_species c m) (read_conditions all_species r)
    end.

  Definition regions := list (Z * bmap).
  (** particle_reader.cpp 497-643: all REGION elements. *)
  Fixpoint read_regions (all_species : list Z) (rs : list (Z * list condition)) (acc : regions)
    : option regions :=
    match rs with
    | [] => Some acc
    | (ref, cs) :: r =>
        if existsb (fun kv => Z.eqb (fst kv) ref) acc then None
        else bindo (read_conditions all_species cs []) (fun m =>
               read_regions all_species r ((ref, m) :: acc))
    end.
  (** particle_reader.cpp 485-645 (read_boundary): no-op when already read. *)
  Definition read_boundary (all_species : list Z) (rs : list (Z * list condition)) (acc : regions)
    : option regions :=
    match acc with [] => read_regions all_species rs [] | _ => Some acc end.
End Boundary.
