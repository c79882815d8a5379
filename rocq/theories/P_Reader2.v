(** Property theorems C55, C64 and C65 (species, functions and reactions of a session). *)
From Coq Require Import String.
From Verif Require Import M_Reader2 S_Reader2 L_Reader3 P_Reader.
From Coq Require Import List.
Import ListNotations.
Open Scope list_scope.

(** C55: a stored reaction comes from the last R element with its id, has its TYPE and the ids listed in its SPECIES
    attribute, and each of these is the id of a declared species. *)
Theorem C55_reactions_use_declared_species :
  forall (V : Type) (eval : smap V -> str -> option V) stoi gen_vec gen_seqv gen_seq lex_bool interp d s id r,
  read_particles eval stoi gen_vec gen_seqv gen_seq lex_bool interp d = Ok s -> zget (se_reactions s) id = Some r ->
  exists k e t, last_at (reaction_id stoi id) (d_reactions d) k e /\ re_species e = Some t /\ re_type e = Some (rr_type r) /\
    (exists parts, parts <> [] /\ join ","%char parts = t /\ (forall p, In p parts -> ~ In ","%char p) /\
                   map stoi parts = map Some (rr_species r)) /\
    forall i, In i (rr_species r) -> exists e', In e' (d_species d) /\ species_id stoi i e'.
Proof. exact @session_reactions. Qed.
Print Assumptions C55_reactions_use_declared_species.

(** C55, C64: a session loads exactly when every section is well formed; in particular never with a reaction naming an
    undeclared species. *)
Theorem C55_session_accepted :
  forall (V : Type) (eval : smap V -> str -> option V) stoi gen_vec gen_seqv gen_seq lex_bool,
  stoi [] = None -> forall interp d,
  (exists s, read_particles eval stoi gen_vec gen_seqv gen_seq lex_bool interp d = Ok s) <->
  document_ok eval stoi gen_vec gen_seqv gen_seq lex_bool interp d.
Proof. exact @session_accepted. Qed.
Print Assumptions C55_session_accepted.

(** C64: the parameter groups (general, then each species, then each reaction) are evaluated one after the other; a general
    parameter is the last general definition of the name, a species (reaction) parameter the last definition of the name
    in the last element with that id; other elements' definitions are not seen. *)
Theorem C64_parameter_scopes :
  forall (V : Type) (eval : smap V -> str -> option V) stoi gen_vec gen_seqv gen_seq lex_bool interp d s,
  read_particles eval stoi gen_vec gen_seqv gen_seq lex_bool interp d = Ok s ->
  exists pd sds rds,
    threads eval (d_params d :: map sp_lines (d_species d) ++ map re_lines (d_reactions d)) interp (pd :: sds ++ rds) /\
    length sds = length (d_species d) /\ length rds = length (d_reactions d) /\
    (forall name v, get_parameter (se_params s) name = Some v <-> last_definition pd name v) /\
    (forall id name v, load_species_double s id name = Ok v <->
       exists k e defs, last_at (species_id stoi id) (d_species d) k e /\ nth_error sds k = Some defs /\ last_definition defs name v) /\
    (forall id name v, load_reaction_double s id name = Ok v <->
       exists k e defs, last_at (reaction_id stoi id) (d_reactions d) k e /\ nth_error rds k = Some defs /\ last_definition defs name v).
Proof. exact @session_parameters. Qed.
Print Assumptions C64_parameter_scopes.

(** C64, integer loads, and: a load fails cleanly, never undefined, when there is no such species, reaction or name. *)
Theorem C64_integer_loads : forall (V : Type) (round : V -> Z) (s : session V) id name z,
  (load_species_int round s id name = Ok z <->
     exists v, load_species_double s id name = Ok v /\ round v = z /\ (-2147483648 <= z <= 2147483647)%Z) /\
  (load_reaction_int round s id name = Ok z <->
     exists v, load_reaction_double s id name = Ok v /\ round v = z /\ (-2147483648 <= z <= 2147483647)%Z).
Proof. exact @session_ints. Qed.
Print Assumptions C64_integer_loads.
Theorem C64_missing_parameters : forall (V : Type) (s : session V) id name,
  ((forall v, load_species_double s id name <> Ok v) -> load_species_double s id name = AssertFail) /\
  ((forall v, load_reaction_double s id name <> Ok v) -> load_reaction_double s id name = AssertFail).
Proof. exact @session_missing. Qed.
Print Assumptions C64_missing_parameters.

(** A session: general a; species 1 (m = a, secret), species 2 (m), a second element for species 2; one reaction. *)
Definition mk_sp (id name : string) (ls : list string) (fs : list fblock) : specie :=
  {| sp_id := Some (lit id); sp_name := Some (lit name); sp_lines := map lit ls; sp_funcs := fs |}.
Definition ex_entry (tag var dom val file : string) : fentry :=
  {| en_tag := lit tag; en_var := Some (lit var); en_domain := Some (lit dom); en_evars := None;
     en_value := Some (lit val); en_file := Some (lit file); en_time := None |}.
Definition ex_fun : fblock :=
  {| fb_name := Some (lit "Initial"); fb_entries := [ex_entry "E" "u" "0" "x+1" ""; ex_entry "F" "v,w" "1" "" "f.fld:a,b"] |}.
Definition ex_doc (reacting : string) : document :=
  {| d_params := [lit "a = one"];
     d_species := [mk_sp "1" "ion" ["m = a"; "secret = xxxxx"]%string [ex_fun]; mk_sp "2" "old" ["m = zz"; "Q = secret"]%string [];
                   mk_sp "2" "electron" ["m = a"; "r = secret"]%string []];
     d_regions := [(100%Z, [mkCond CondC (Some (lit "1")) ex_attrs])];
     d_reactions := [{| re_id := Some (lit "0"); re_type := Some (lit "IZ"); re_species := Some (lit reacting); re_lines := [lit "rate = m"] |}] |}.
Definition ex_vec (s : str) : list str := split_on ","%char s.
Definition ex_seqv (s : str) : list Z := match ex_stoi s with Some z => [z] | None => [] end.
Definition ex_read (r : string) := read_particles ex_eval ex_stoi ex_vec ex_seqv ex_seq (fun _ => Some true) [] (ex_doc r).
Example C64_nonvacuous : exists s, ex_read "1,2" = Ok s /\
  load_species_double s 1 (lit "M") = Ok 4%nat /\ load_species_double s 2 (lit "m") = Ok 4%nat /\ load_species_double s 2 (lit "q") = AssertFail /\
  load_species_double s 3 (lit "m") = AssertFail /\ load_species_double s 1 (lit "a") = AssertFail /\ load_reaction_double s 0 (lit "RATE") = Ok 5%nat /\
  load_species_int Z.of_nat s 1 (lit "M") = Ok 4%Z.
Proof. eexists. split; [vm_compute; reflexivity|]. vm_compute. auto 8. Qed.
(** A parameter of one species is visible in the expressions of later ones: r = secret of species 2 sees species 1. *)
Example C64_shared_interpreter : exists s, ex_read "1,2" = Ok s /\ load_species_double s 2 (lit "r") = Ok 6%nat.
Proof. eexists. split; [vm_compute; reflexivity|]. vm_compute. auto. Qed.
Example C55_nonvacuous : ex_read "1,3" = AssertFail /\ ex_stoi [] = None /\
  exists s r, ex_read "2,1" = Ok s /\ zget (se_reactions s) 0 = Some r /\ rr_species r = [2%Z; 1%Z].
Proof. split; [vm_compute; reflexivity|]. split; [reflexivity|]. do 2 eexists. split; [vm_compute; reflexivity|]. vm_compute. auto. Qed.

(** C65: the functions of a species are accepted exactly when each is well formed. *)
Theorem C65_functions_accepted : forall gen_vec gen_seqv lex_bool fs,
  (exists fm, read_functions gen_vec gen_seqv lex_bool fs [] = Ok fm) <->
  forall b, In b fs -> function_ok gen_vec gen_seqv lex_bool b.
Proof. exact functions_accepted. Qed.
Print Assumptions C65_functions_accepted.

(** C65: after loading, a species (the last element with its id) has its NAME, and for each function name (up to case),
    variable and domain exactly the definition of the entry that names them in the last FUNCTION of that name. *)
Theorem C65_species_functions :
  forall (V : Type) (eval : smap V -> str -> option V) stoi gen_vec gen_seqv gen_seq lex_bool interp d s id r,
  read_particles eval stoi gen_vec gen_seqv gen_seq lex_bool interp d = Ok s -> zget (se_species s) id = Some r ->
  exists k e, last_at (species_id stoi id) (d_species d) k e /\ sp_name e = Some (sr_name r) /\
    (forall b, In b (sp_funcs e) -> function_ok gen_vec gen_seqv lex_bool b) /\
    forall name v dom f, function_def (sr_funcs r) name v dom = Some f <->
      exists j b en, last_at (named name) (sp_funcs e) j b /\ In en (fb_entries b) /\ entry_def gen_vec gen_seqv lex_bool en v dom f.
Proof. exact @session_species. Qed.
Print Assumptions C65_species_functions.

Example C65_nonvacuous : exists s r, ex_read "1,2" = Ok s /\ zget (se_species s) 1 = Some r /\ sr_name r = lit "ion" /\
  function_def (sr_funcs r) (lit "INITIAL") (lit "u") 0 = Some {| fd_kind := FExpr (lit "x+1") (lit "x y z t"); fd_filevar := [] |} /\
  function_def (sr_funcs r) (lit "initial") (lit "w") 1 = Some {| fd_kind := FFile (lit "f.fld"); fd_filevar := lit "b" |} /\
  function_def (sr_funcs r) (lit "initial") (lit "w") 0 = None.
Proof. do 2 eexists. split; [vm_compute; reflexivity|]. split; [vm_compute; reflexivity|]. vm_compute. auto. Qed.
(** the same variable and domain twice in one function is rejected *)
Example C65_duplicate : read_functions ex_vec ex_seqv (fun _ => Some true)
  [{| fb_name := Some (lit "f"); fb_entries := [ex_entry "E" "u" "0" "1" ""; ex_entry "E" "v,u" "0" "2" ""] |}] [] = AssertFail.
Proof. vm_compute. reflexivity. Qed.
