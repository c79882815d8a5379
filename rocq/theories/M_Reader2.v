(** Model of the rest of the particle session reader (src/nektar_interface/solver_base/particle_reader.cpp): species,
    their functions, reactions, read_particles and the species and reaction parameter loads.
    XML elements are records of their attributes and the texts of their parameter elements (an element without text is
    skipped, 445, 687). A failed NESOASSERT and an exception leaving the reader are [AssertFail]; [UB] is a std::string
    built from the null pointer of a missing attribute, or an index past the end of a vector. *)
From Coq Require Import String.
From Verif Require Export M_Bytes M_Reader.
From Coq Require Export List ZArith.
Export ListNotations.

(** boost::split(.., is_any_of(c)) for one character. *)
Fixpoint split_on (c : ascii) (s : str) : list str :=
  match s with
  | [] => [[]]
  | a :: r => if Ascii.eqb a c then [] :: split_on c r
              else match split_on c r with t :: ts => (a :: t) :: ts | [] => [[a]] end
  end.
(** std::string s = element->Attribute(name). *)
Definition attr (a : option str) : outcome str := match a with Some s => Ok s | None => UB end.
(** NESOASSERT(!s.empty()). *)
Definition nonempty (s : str) : outcome unit := match s with [] => AssertFail | _ => Ok tt end.
Definition from_opt {A} (x : option A) : outcome A := match x with Some a => Ok a | None => AssertFail end.

(** * Functions of a species *)
(** One entry of a FUNCTION: tag and attributes. *)
Record fentry := { en_tag : str; en_var : option str; en_domain : option str; en_evars : option str;
                   en_value : option str; en_file : option str; en_time : option str }.
Record fblock := { fb_name : option str; fb_entries : list fentry }.
(** LU::FunctionVariableDefinition: type with expression or file name, and variable inside the file. *)
Inductive fkind := FExpr (value evars : str) | FFile (name : str) | FTransient (name : str).
Record fdef := { fd_kind : fkind; fd_filevar : str }.
Notation fvmap := (list ((str * Z) * fdef)).
Definition key_eqb (a b : str * Z) : bool := str_eqb (fst a) (fst b) && Z.eqb (snd a) (snd b).
Definition fv_get (m : fvmap) (k : str * Z) : option fdef := option_map snd (find (fun kv => key_eqb (fst kv) k) m).

Section Functions.
  (** Nektar++ ParseUtils: GenerateVector and GenerateSeqVector (their results are used whatever they return), and
      boost::lexical_cast<bool> (None = throws). *)
  Variable gen_vec : str -> list str.
  Variable gen_seqv : str -> list Z.
  Variable lex_bool : str -> option bool.
  Definition star : str := list_ascii_of_string "*".
  Definition zero : str := list_ascii_of_string "0".
  Definition base_evars : str := list_ascii_of_string "x y z t".
  Definition tagE : str := list_ascii_of_string "E".
  Definition tagF : str := list_ascii_of_string "F".
  Definition dflt (d : str) (a : option str) : str := match a with Some s => s | None => d end.
  (** 268-300: variables, domains and evaluation variables of an entry *)
  Definition vars_of (e : fentry) : list str := gen_vec (dflt star (en_var e)).
  Definition doms_of (e : fentry) : list Z := gen_seqv (dflt zero (en_domain e)).
  Definition evars_of (e : fentry) : str := match en_evars e with Some s => base_evars ++ sp :: s | None => base_evars end.
  (** 302-379: the definition without file variable, and var_split *)
  Definition parse_entry (e : fentry) : outcome (fkind * list str) :=
    if str_eqb (en_tag e) tagE then
      obind (from_opt (en_value e)) (fun v => obind (nonempty v) (fun _ => Ok (FExpr v (evars_of e), [])))
    else if str_eqb (en_tag e) tagF then
      obind (match en_time e with None => Ok false | Some t => from_opt (lex_bool t) end) (fun transient =>
      obind (from_opt (en_file e)) (fun file => obind (nonempty file) (fun _ =>
        let k := fun n => if transient then FTransient n else FFile n in
        match split_on ":"%char file with
        | [n] => Ok (k n, [])
        | [n; vs] =>
            match vars_of e with
            | [] => UB (* variable_list[0], 355 *)
            | v0 :: _ =>
                if str_eqb v0 star then AssertFail
                else let var_split := split_on ","%char vs in
                     if Nat.eqb (length var_split) (length (vars_of e)) then Ok (k n, var_split) else AssertFail
            end
        | _ => AssertFail
        end)))
    else AssertFail.
  (** 381-402: the keys an entry sets, in order *)
  Definition entry_keys (e : fentry) (k : fkind) (var_split : list str) : fvmap :=
    flat_map (fun vf => map (fun j => ((fst vf, j), {| fd_kind := k; fd_filevar := snd vf |})) (doms_of e))
      (combine (vars_of e) (match var_split with [] => repeat [] (length (vars_of e)) | _ => var_split end)).
  Fixpoint add_keys (keys m : fvmap) : outcome fvmap :=
    match keys with
    | [] => Ok m
    | (k, d) :: r => if existsb (fun kv => key_eqb (fst kv) k) m then AssertFail else add_keys r ((k, d) :: m)
    end.
  Fixpoint read_entries (es : list fentry) (m : fvmap) : outcome fvmap :=
    match es with
    | [] => Ok m
    | e :: r => obind (parse_entry e) (fun kv => obind (add_keys (entry_keys e (fst kv) (snd kv)) m) (read_entries r))
    end.
  (** 230-410 (read_species_functions); functions: name in upper case -> variables, newest first *)
  Fixpoint read_functions (fs : list fblock) (acc : list (str * fvmap)) : outcome (list (str * fvmap)) :=
    match fs with
    | [] => Ok acc
    | f :: r =>
        obind (from_opt (fb_name f)) (fun n => obind (nonempty n) (fun _ =>
        obind (read_entries (fb_entries f) []) (fun m => read_functions r ((to_upper n, m) :: acc))))
    end.
End Functions.

(** * Species, reactions, session *)
Record specie := { sp_id : option str; sp_name : option str; sp_lines : list str; sp_funcs : list fblock }.
Record reaction := { re_id : option str; re_type : option str; re_species : option str; re_lines : list str }.
Record document := { d_params : list str; d_species : list specie; d_regions : list (Z * list condition); d_reactions : list reaction }.
Record srec {V} := { sr_name : str; sr_params : smap V; sr_funcs : list (str * fvmap) }.
Record rrec {V} := { rr_type : str; rr_species : list Z; rr_params : smap V }.
Arguments srec V : clear implicits.
Arguments rrec V : clear implicits.
Record session {V} := { se_params : smap V; se_species : list (Z * srec V); se_boundary : regions; se_reactions : list (Z * rrec V) }.
Arguments session V : clear implicits.
(** std::map<int, T> with operator[] assignment: newest binding first *)
Definition zget {A} (m : list (Z * A)) (k : Z) : option A := option_map snd (find (fun kv => Z.eqb (fst kv) k) m).

Section Session.
  Context {V : Type}.
  Variable eval : smap V -> str -> option V.
  Variable stoi : str -> option Z.
  Variable gen_vec : str -> list str.
  Variable gen_seqv : str -> list Z.
  Variable gen_seq : str -> option (list Z).
  Variable lex_bool : str -> option bool.

  (** 412-485 (read_species): ID and NAME, parameters (evaluated with the interpreter shared by the whole session),
      functions, then species[stoi(id)] = .. *)
  Fixpoint read_species (els : list specie) (interp : smap V) (acc : list (Z * srec V)) : outcome (smap V * list (Z * srec V)) :=
    match els with
    | [] => Ok (interp, acc)
    | e :: r =>
        obind (attr (sp_id e)) (fun id => obind (nonempty id) (fun _ =>
        obind (attr (sp_name e)) (fun name => obind (nonempty name) (fun _ =>
        obind (from_opt (read_parameters eval (sp_lines e) interp [])) (fun ip =>
        obind (read_functions gen_vec gen_seqv lex_bool (sp_funcs e) []) (fun fs =>
        obind (from_opt (stoi id)) (fun i =>
          read_species r (fst ip) ((i, {| sr_name := name; sr_params := snd ip; sr_funcs := fs |}) :: acc))))))))
    end.
  (** 665-675: the species of a reaction; each must be declared *)
  Fixpoint reaction_species (declared : list Z) (items : list str) : outcome (list Z) :=
    match items with
    | [] => Ok []
    | s :: r => obind (from_opt (stoi s)) (fun i =>
                  if existsb (Z.eqb i) declared then obind (reaction_species declared r) (fun l => Ok (i :: l)) else AssertFail)
    end.
  (** 647-725 (read_reactions) *)
  Fixpoint read_reactions2 (declared : list Z) (els : list reaction) (interp : smap V) (acc : list (Z * rrec V)) : outcome (smap V * list (Z * rrec V)) :=
    match els with
    | [] => Ok (interp, acc)
    | e :: r =>
        obind (attr (re_id e)) (fun id => obind (nonempty id) (fun _ =>
        obind (attr (re_type e)) (fun type => obind (nonempty type) (fun _ =>
        obind (attr (re_species e)) (fun species =>
        obind (reaction_species declared (split_on ","%char species)) (fun sl =>
        obind (from_opt (read_parameters eval (re_lines e) interp [])) (fun ip =>
        obind (from_opt (stoi id)) (fun i =>
          read_reactions2 declared r (fst ip) ((i, {| rr_type := type; rr_species := sl; rr_params := snd ip |}) :: acc)))))))))
    end.
  (** 727-746 (read_particles) *)
  Definition read_particles (interp : smap V) (d : document) : outcome (session V) :=
    obind (from_opt (read_parameters eval (d_params d) interp [])) (fun ip =>
    obind (read_species (d_species d) (fst ip) []) (fun isp =>
    obind (from_opt (read_boundary stoi gen_seq (map fst (snd isp)) (d_regions d) [])) (fun bs =>
    obind (read_reactions2 (map fst (snd isp)) (d_reactions d) (fst isp) []) (fun ire =>
      Ok {| se_params := snd ip; se_species := snd isp; se_boundary := bs; se_reactions := snd ire |})))).
  (** 748-792: map::at throws for an undeclared id; the name is looked up in upper case *)
  Definition load_species_double (s : session V) (id : Z) (name : str) : outcome V :=
    obind (from_opt (zget (se_species s) id)) (fun r => from_opt (sget (sr_params r) (to_upper name))).
  Definition load_species_int (round : V -> Z) (s : session V) (id : Z) (name : str) : outcome Z :=
    obind (load_species_double s id name) (fun v => from_opt (checked_int round v)).
  Definition load_reaction_double (s : session V) (id : Z) (name : str) : outcome V :=
    obind (from_opt (zget (se_reactions s) id)) (fun r => from_opt (sget (rr_params r) (to_upper name))).
  Definition load_reaction_int (round : V -> Z) (s : session V) (id : Z) (name : str) : outcome Z :=
    obind (load_reaction_double s id name) (fun v => from_opt (checked_int round v)).
End Session.
