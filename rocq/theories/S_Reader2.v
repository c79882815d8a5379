(** Specification vocabulary for species, functions and reactions (C55, C64, C65). *)
From Coq Require Import String.
From Verif Require Export M_Reader2 S_Reader.
From Coq Require Export List.
Export ListNotations.
Open Scope list_scope.

(** [a] is the last element of the list with the property, at position k. *)
Definition last_at {A} (p : A -> Prop) (l : list A) (k : nat) (a : A) : Prop :=
  nth_error l k = Some a /\ p a /\ forall k' a', (k < k')%nat -> nth_error l k' = Some a' -> ~ p a'.
(** The text with a separator between the parts. *)
Fixpoint join (c : ascii) (parts : list str) : str :=
  match parts with [] => [] | [p] => p | p :: r => p ++ c :: join c r end.

Section Defs.
  Context {V : Type}.
  Variable eval : smap V -> str -> option V.
  (** the environment after some definitions *)
  Definition extend (env : smap V) (defs : list (str * V)) : smap V := fold_left (fun m nv => sset m (fst nv) (snd nv)) defs env.
  (** Groups of parameter lines evaluated one after the other, each in the environment all earlier definitions left. *)
  Inductive threads : list (list str) -> smap V -> list (list (str * V)) -> Prop :=
  | th_nil env : threads [] env []
  | th_cons lines rest env defs dss : evaluated eval lines env defs -> threads rest (extend env defs) dss -> threads (lines :: rest) env (defs :: dss).
End Defs.

Section Functions.
  Variable gen_vec : str -> list str.
  Variable gen_seqv : str -> list Z.
  Variable lex_bool : str -> option bool.
  (** variables and domains an entry is for: all variables, and domain 0, when not given *)
  Definition variables (e : fentry) : list str := gen_vec (match en_var e with Some s => s | None => list_ascii_of_string "*" end).
  Definition domains (e : fentry) : list Z := gen_seqv (match en_domain e with Some s => s | None => list_ascii_of_string "0" end).
  Definition evaluation_variables (e : fentry) : str :=
    list_ascii_of_string "x y z t" ++ match en_evars e with Some s => " "%char :: s | None => [] end.
  (** whether a file is time dependent *)
  Definition transient (e : fentry) (b : bool) : Prop := match en_time e with None => b = false | Some t => lex_bool t = Some b end.
  Definition file_kind (b : bool) (n : str) : fkind := if b then FTransient n else FFile n.
  (** What an entry defines, and for each of its variables the variable in the file ("" when not mapped). *)
  Inductive entry_kind (e : fentry) : fkind -> list str -> Prop :=
  | ek_expr value : en_tag e = list_ascii_of_string "E" -> en_value e = Some value -> value <> [] ->
      entry_kind e (FExpr value (evaluation_variables e)) (repeat [] (length (variables e)))
  | ek_file n b : en_tag e = list_ascii_of_string "F" -> transient e b -> en_file e = Some n -> n <> [] -> ~ In ":"%char n ->
      entry_kind e (file_kind b n) (repeat [] (length (variables e)))
  | ek_map n fvs b : en_tag e = list_ascii_of_string "F" -> transient e b -> en_file e = Some (n ++ ":"%char :: join ","%char fvs) ->
      ~ In ":"%char n -> ~ In ":"%char (join ","%char fvs) -> (forall f, In f fvs -> ~ In ","%char f) -> fvs <> [] ->
      length fvs = length (variables e) -> hd_error (variables e) <> Some (list_ascii_of_string "*") ->
      entry_kind e (file_kind b n) fvs.
  (** The entry's i-th variable and j-th domain. *)
  Definition entry_key (e : fentry) (i j : nat) (v : str) (d : Z) : Prop := nth_error (variables e) i = Some v /\ nth_error (domains e) j = Some d.
  Definition entry_def (e : fentry) (v : str) (d : Z) (f : fdef) : Prop :=
    exists k fvs i j fv, entry_kind e k fvs /\ entry_key e i j v d /\ nth_error fvs i = Some fv /\ f = {| fd_kind := k; fd_filevar := fv |}.
  (** A FUNCTION element is well formed: non-empty name, every entry understood, no variable and domain defined twice. *)
  Definition function_ok (b : fblock) : Prop :=
    (exists n, fb_name b = Some n /\ n <> []) /\ (forall e, In e (fb_entries b) -> exists k fvs, entry_kind e k fvs) /\
    forall x y e e' i j i' j' v d, nth_error (fb_entries b) x = Some e -> nth_error (fb_entries b) y = Some e' ->
      entry_key e i j v d -> entry_key e' i' j' v d -> x = y /\ i = i' /\ j = j'.
  Definition named (name : str) (b : fblock) : Prop := exists n, fb_name b = Some n /\ same_name n name.
End Functions.

(** the definition a function map holds for a function name, variable and domain *)
Definition function_def (fm : list (str * fvmap)) (name v : str) (d : Z) : option fdef :=
  match sget fm (to_upper name) with Some m => fv_get m (v, d) | None => None end.
(** the integer id of an S or R element *)
Definition species_id (stoi : str -> option Z) (id : Z) (e : specie) : Prop := exists t, sp_id e = Some t /\ stoi t = Some id.
Definition reaction_id (stoi : str -> option Z) (id : Z) (e : reaction) : Prop := exists t, re_id e = Some t /\ stoi t = Some id.

Section Document.
  Context {V : Type}.
  Variable eval : smap V -> str -> option V.
  Variable stoi : str -> option Z.
  Variable gen_vec : str -> list str.
  Variable gen_seqv : str -> list Z.
  Variable gen_seq : str -> option (list Z).
  Variable lex_bool : str -> option bool.
  Definition filled (a : option str) : Prop := exists s, a = Some s /\ s <> [].
  Definition species_ok (e : specie) : Prop :=
    (exists id, species_id stoi id e) /\ filled (sp_name e) /\ forall b, In b (sp_funcs e) -> function_ok gen_vec gen_seqv lex_bool b.
  (** the comma separated parts of the SPECIES attribute *)
  Definition comma_parts (e : reaction) (parts : list str) : Prop :=
    parts <> [] /\ re_species e = Some (join ","%char parts) /\ forall p, In p parts -> ~ In ","%char p.
  Definition reaction_ok (declared : list specie) (e : reaction) : Prop :=
    (exists id, reaction_id stoi id e) /\ filled (re_type e) /\
    exists parts, comma_parts e parts /\ forall p, In p parts -> exists i e', stoi p = Some i /\ In e' declared /\ species_id stoi i e'.
  (** A session that loads. *)
  Definition document_ok (interp : smap V) (d : document) : Prop :=
    (exists dss, threads eval (d_params d :: map sp_lines (d_species d) ++ map re_lines (d_reactions d)) interp dss) /\
    (forall e, In e (d_species d) -> species_ok e) /\
    NoDup (map fst (d_regions d)) /\ (forall ref cs c, In (ref, cs) (d_regions d) -> In c cs -> condition_ok stoi gen_seq c) /\
    (forall e, In e (d_reactions d) -> reaction_ok (d_species d) e).
End Document.
