(** Specification vocabulary for the session reader. *)
From Coq Require Import String.
Open Scope list_scope.
From Verif Require Import M_Reader.

(** A non-empty string which neither starts nor ends with a space. *)
Definition trimmed (s : str) : Prop :=
  s <> [] /\ hd_error s <> Some sp /\ hd_error (rev s) <> Some sp.

(** [line] is: spaces, name, spaces, '=', spaces, value, spaces. *)
Definition is_assignment (line name value : str) : Prop :=
  exists a b c d : nat,
    line = repeat sp a ++ name ++ repeat sp b ++ eqs :: repeat sp c ++ value ++ repeat sp d
    /\ trimmed name /\ trimmed value /\ ~ In eqs name /\ ~ In eqs value.

(** Equality up to letter case, from the table of the letters. *)
Definition letters : list (ascii * ascii) :=
  combine (list_ascii_of_string "abcdefghijklmnopqrstuvwxyz") (list_ascii_of_string "ABCDEFGHIJKLMNOPQRSTUVWXYZ").
Definition same_letter (a b : ascii) : Prop := a = b \/ In (a, b) letters \/ In (b, a) letters.
Definition same_name (a b : str) : Prop := Forall2 same_letter a b.
Definition no_lower_case (a : str) : Prop := forall c, In c a -> ~ In c (map fst letters).

(** [v] is the value given to [name] by the last definition in [defs]
    (definitions in document order). *)
Definition last_definition {V} (defs : list (str * V)) (name : str) (v : V) : Prop :=
  exists d1 n d2, defs = d1 ++ (n, v) :: d2 /\ same_name n name /\
    forall n' v', In (n', v') d2 -> ~ same_name n' name.

(** The (PROPERTY, VALUE) pairs of the INFO items that have both. *)
Fixpoint info_defs (items : list (option str * option str)) : list (str * str) :=
  match items with
  | (Some p, Some v) :: r => (p, v) :: info_defs r
  | _ :: r => info_defs r
  | [] => []
  end.


Section Evaluated.
  Context {V : Type}.
  Variable eval : smap V -> str -> option V.

  (** [evaluated lines interp defs]: the definitions obtained by evaluating the
      lines one after the other, each in the environment of the previous ones. *)
  Inductive evaluated : list str -> smap V -> list (str * V) -> Prop :=
  | ev_nil interp : evaluated [] interp []
  | ev_cons line lines interp name value v defs :
      is_assignment line name value ->
      eval interp value = Some v ->
      evaluated lines (sset interp name v) defs ->
      evaluated (line :: lines) interp ((name, v) :: defs).

End Evaluated.

Section Effects.
  Variable stoi : str -> option Z.
  (** The effect of the accepted conditions with an explicit species. *)
  Definition cond_effect (c : condition) : option (Z * bctype) :=
    match cd_species c, cd_type c with
    | Some s, CondC => match cd_attrs c with [] => None | _ => option_map (fun i => (i, Reflective)) (stoi s) end
    | Some s, CondP => option_map (fun i => (i, Periodic)) (stoi s)
    | _, _ => None
    end.
  Fixpoint effects (cs : list condition) : list (Z * bctype) :=
    match cs with
    | [] => []
    | c :: r => match cond_effect c with Some e => e :: effects r | None => effects r end
    end.

End Effects.

(** A periodic VALUE names one region in brackets; as the code looks for the first bracket of each kind, text around them
    is allowed, and so is a missing opening bracket. *)
Definition region_value (gen_seq : str -> option (list Z)) (v : str) : Prop :=
  exists pre inner post z, gen_seq inner = Some [z] /\ ~ In "]"%char inner /\
    ((v = pre ++ "["%char :: inner ++ "]"%char :: post /\ ~ In "["%char pre /\ ~ In "]"%char pre) \/
     (v = inner ++ "]"%char :: post /\ ~ In "["%char v)).
(** The conditions that are accepted: a species with an integer id, and attributes as documented. *)
Definition condition_ok (stoi : str -> option Z) (gen_seq : str -> option (list Z)) (c : condition) : Prop :=
  (exists s i, cd_species c = Some s /\ stoi s = Some i) /\
  match cd_type c with
  | CondC => forall n v, In (n, v) (cd_attrs c) -> n = list_ascii_of_string "SPECIES" \/ n = list_ascii_of_string "VALUE" /\ v <> []
  | CondP => cd_attrs c <> [] /\ forall n v, In (n, v) (cd_attrs c) ->
      (n = list_ascii_of_string "VALUE" -> region_value gen_seq v) /\ (n = list_ascii_of_string "user_definedTYPE" -> v <> [])
  | CondOther => True
  end.
