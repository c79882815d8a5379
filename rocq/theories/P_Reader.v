(** Property theorems C09-C12 (particle session reader). *)
From Coq Require Import String.
From Verif Require Import M_Reader S_Reader L_Reader.

Definition lit (s : string) : str := list_ascii_of_string s.

(** C09: a line parses to (name, value) exactly when it is
    spaces name spaces '=' spaces value spaces with a trimmed, non-empty, '='-free
    name and value; every other line is rejected. *)
Theorem C09_parse_equals_iff : forall line name value : str,
  parse_equals line = Some (name, value) <-> is_assignment line name value.
Proof. exact parse_equals_iff. Qed.
Print Assumptions C09_parse_equals_iff.

Example C09_accepts : parse_equals (lit "  num part =  3 * 4 ") = Some (lit "num part", lit "3 * 4").
Proof. vm_compute. reflexivity. Qed.
Example C09_rejects :
  map (fun s => parse_equals (lit s)) ["a"; "=3"; "a=b=c"; "a="; "  "; ""]%string
  = [None; None; None; None; None; None].
Proof. vm_compute. reflexivity. Qed.

(** C10, for names without lower case letters: existence test and fetch agree, and the
    fetched value is the last one given in the session. *)
Theorem C10_info_lookup_partial : forall items m name,
  read_info items [] = Some m -> no_lower_case name ->
  (defines_info m name = true <-> exists v, get_info m name = Some v) /\
  (forall v, get_info m name = Some v <-> last_definition (info_defs items) name v).
Proof. intros items m name H Hn'. pose proof (no_lower_upper name Hn') as Hn. split; [exact (get_info_upper m name Hn)|intros v; exact (read_info_get items m name v H Hn)]. Qed.
Print Assumptions C10_info_lookup_partial.

Definition ex_items := [(Some (lit "Solver"), Some (lit "A")); (Some (lit "ORDER"), Some (lit "2"));
                        (Some (lit "solver"), Some (lit "B"))].
Example C10_nonvacuous : exists m, read_info ex_items [] = Some m /\
  get_info m (lit "SOLVER") = Some (lit "B") /\ get_info m (lit "ORDER") = Some (lit "2").
Proof. eexists. split; [vm_compute; reflexivity|]. vm_compute. auto. Qed.

(** C10 in general: FALSE of the code.  A property can be reported as defined and
    yet not be fetched under the very same name (particle_reader.cpp 139 looks up
    [name] instead of [name_upper]). *)
Theorem C10_info_defined_implies_fetchable_refuted :
  ~ (forall items m name, read_info items [] = Some m ->
       defines_info m name = true -> exists v, get_info m name = Some v).
Proof.
  intros H. destruct (H ex_items _ (lit "Solver") eq_refl eq_refl) as [v Hv]. vm_compute in Hv. discriminate.
Qed.
Print Assumptions C10_info_defined_implies_fetchable_refuted.

(** C11: when the parameter lines are accepted there is a list of definitions (each
    line an assignment, evaluated in the environment of the previous ones) such that
    under any capitalisation fetching returns the last definition, the existence test
    is true exactly for the defined names, and the defaulting load returns the default
    exactly when undefined. *)
Theorem C11_parameter_lookup : forall (V : Type) (eval : smap V -> str -> option V) lines interp i' p',
  read_parameters eval lines interp [] = Some (i', p') ->
  exists defs, evaluated eval lines interp defs /\
    forall name,
      (forall v, get_parameter p' name = Some v <-> last_definition defs name v) /\
      (defines_parameter p' name = true <-> exists n v, In (n, v) defs /\ same_name n name) /\
      (forall d, (defines_parameter p' name = false -> load_double_default p' name d = d) /\
                 (forall v, last_definition defs name v -> load_double_default p' name d = v)).
Proof. intros V eval; exact (params_lookup eval). Qed.
Print Assumptions C11_parameter_lookup.

(** C11: every evaluable sequence of assignments is accepted. *)
Theorem C11_parameters_accepted : forall (V : Type) (eval : smap V -> str -> option V) lines interp defs params,
  evaluated eval lines interp defs ->
  exists r, read_parameters eval lines interp params = Some r.
Proof.
  intros V eval lines interp defs params H.
  destruct (evaluated_read eval lines interp defs H params) as [i' E]. exists (i', store defs params). exact E.
Qed.
Print Assumptions C11_parameters_accepted.

Definition ex_eval (m : smap nat) (e : str) : option nat :=
  match sget m e with Some v => Some (S v) | None => Some (List.length e) end.
Example C11_nonvacuous : exists i p,
  read_parameters ex_eval [lit "dt = abc"; lit "x=dt"; lit "DT = 1"] [] [] = Some (i, p) /\
  get_parameter p (lit "Dt") = Some 1%nat /\ get_parameter p (lit "X") = Some 4%nat /\
  get_parameter p (lit "y") = None.
Proof. do 2 eexists. split; [vm_compute; reflexivity|]. vm_compute. auto. Qed.

(** C11, unsigned variant: FALSE of the code.  Loading into a size_t does not return
    the parameter's (rounded) value for every value representable in a size_t: it is
    squeezed through int, so 3e9 is refused, and a negative value comes back as a
    huge number. *)
Theorem C11_load_size_t_exact_refuted :
  ~ (forall (p : smap Z) name v, get_parameter p name = Some v -> (0 <= v < 2 ^ 64)%Z ->
       load_size_t (fun z => z) p name = Some v).
Proof.
  intros H. specialize (H [(lit "N", 3000000000%Z)] (lit "N") 3000000000%Z eq_refl).
  cbv beta in H. assert (X : (0 <= 3000000000 < 2 ^ 64)%Z) by lia. specialize (H X).
  vm_compute in H. discriminate.
Qed.
Print Assumptions C11_load_size_t_exact_refuted.
Theorem C11_load_size_t_rejects_negative_refuted :
  ~ (forall (p : smap Z) name v, get_parameter p name = Some v -> (v < 0)%Z ->
       load_size_t (fun z => z) p name = None).
Proof.
  intros H. specialize (H [(lit "N", (-1)%Z)] (lit "N") (-1)%Z eq_refl).
  cbv beta in H. assert (X : (-1 < 0)%Z) by lia. specialize (H X). vm_compute in H. discriminate.
Qed.
Print Assumptions C11_load_size_t_rejects_negative_refuted.

(** C11, integer loads: the value rounded, exactly when it fits an int; the default exactly when undefined. *)
Theorem C11_load_int : forall (V : Type) (round : V -> Z) (p : smap V) name z,
  load_int round p name = Some z <->
  exists v, get_parameter p name = Some v /\ round v = z /\ (-2147483648 <= z <= 2147483647)%Z.
Proof. exact @load_int_iff. Qed.
Print Assumptions C11_load_int.
Theorem C11_load_int_default : forall (V : Type) (round : V -> Z) (p : smap V) name d,
  (defines_parameter p name = false -> load_int_default round p name d = Some d) /\
  (forall v, get_parameter p name = Some v -> forall z,
     load_int_default round p name d = Some z <-> round v = z /\ (-2147483648 <= z <= 2147483647)%Z).
Proof. exact @load_int_default_iff. Qed.
Print Assumptions C11_load_int_default.
(** C11, loads into a size_t: exact for values from 0 to 2^31 - 1, and a negative int comes back 2^64 larger. *)
Theorem C11_load_size_t_partial : forall (V : Type) (round : V -> Z) (p : smap V) name z,
  load_size_t round p name = Some z <->
  exists v, get_parameter p name = Some v /\
    ((0 <= round v <= 2147483647 /\ z = round v) \/ (-2147483648 <= round v < 0 /\ z = round v + 18446744073709551616))%Z.
Proof. exact @load_size_t_iff. Qed.
Print Assumptions C11_load_size_t_partial.
Example C11_load_nonvacuous : load_int (fun z => z) [(lit "N", 7%Z)] (lit "n") = Some 7%Z /\
  load_int (fun z => z) [(lit "N", 2147483648%Z)] (lit "n") = None /\ load_int (fun z => z) [(lit "N", (-2147483648)%Z)] (lit "n") = Some (-2147483648)%Z.
Proof. vm_compute. auto. Qed.

(** C12: FALSE of the code, for every input: a boundary section in which any
    condition leaves the species out (missing or empty attribute) never loads
    (std::stoi is applied before the test for an empty string). *)
Theorem C12_unnamed_species_refuted :
  forall (stoi : str -> option Z) (gen_seq : str -> option (list Z)),
  stoi [] = None ->
  forall all rs,
    (exists ref cs c, In (ref, cs) rs /\ In c cs /\ (cd_species c = None \/ cd_species c = Some [])) ->
    read_boundary stoi gen_seq all rs [] = None.
Proof. intros stoi gs H all rs. exact (regions_rejected stoi gs H all rs []). Qed.
Print Assumptions C12_unnamed_species_refuted.

(** C12: a boundary section loads exactly when the region REFs differ and every
    condition names a species and has the attributes its kind asks for. *)
Theorem C12_boundary_accepted :
  forall (stoi : str -> option Z) (gen_seq : str -> option (list Z)),
  stoi [] = None ->
  forall all rs,
    (exists out, read_boundary stoi gen_seq all rs [] = Some out) <->
    NoDup (map fst rs) /\ forall ref cs c, In (ref, cs) rs -> In c cs -> condition_ok stoi gen_seq c.
Proof. exact boundary_iff. Qed.
Print Assumptions C12_boundary_accepted.

(** C12, explicit species: each region (distinct REFs, else rejected) gets, in
    document order, exactly the conditions of its entries. *)
Theorem C12_boundary_regions_partial :
  forall (stoi : str -> option Z) (gen_seq : str -> option (list Z)),
  stoi [] = None ->
  forall all rs out,
    read_boundary stoi gen_seq all rs [] = Some out ->
    NoDup (map fst out) /\
    out = rev (map (fun rc => (fst rc, rev (effects stoi (snd rc)))) rs).
Proof.
  intros stoi gs H all rs out E.
  destruct (read_regions_spec stoi gs H all rs [] out E (NoDup_nil _)) as [H1 H2].
  rewrite app_nil_r in H2. exact (conj H1 H2).
Qed.
Print Assumptions C12_boundary_regions_partial.

Definition ex_stoi (s : str) : option Z :=
  match s with [c] => Some (Z.of_nat (nat_of_ascii c) - 48)%Z | _ => None end.
Definition ex_seq (s : str) : option (list Z) := option_map (fun z => [z]) (ex_stoi s).
Definition ex_attrs := [(lit "SPECIES", lit "1"); (lit "VALUE", lit "x")].
Definition ex_attrsP := [(lit "SPECIES", lit "2"); (lit "VALUE", lit "[7]")].
Example C12_nonvacuous :
  read_boundary ex_stoi ex_seq [1%Z; 2%Z]
    [(100%Z, [mkCond CondC (Some (lit "1")) ex_attrs; mkCond CondP (Some (lit "2")) ex_attrsP]);
     (200%Z, [mkCond CondP (Some (lit "1")) ex_attrsP])] []
  = Some [(200%Z, [(1%Z, Periodic)]); (100%Z, [(2%Z, Periodic); (1%Z, Reflective)])]
  /\ ex_stoi [] = None.
Proof. vm_compute. auto. Qed.
(** a VALUE without its opening bracket passes, one without the closing bracket does not *)
Example C12_brackets : periodic_value_ok ex_seq (lit "5]") = true /\ periodic_value_ok ex_seq (lit "[5") = false.
Proof. vm_compute. auto. Qed.
