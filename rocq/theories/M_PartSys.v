(** Model of the base class of all particle systems, src/nektar_interface/solver_base/partsys_base.cpp and
    include/nektar_interface/solver_base/partsys_base.hpp, and of the choice of a particle system by an equation system,
    include/nektar_interface/solver_base/eqnsys_base.hpp 54-78. *)
From Verif Require Export M_Bytes.
From Coq Require Export ZArith String List Bool.
Export ListNotations.
Open Scope string_scope.
Open Scope list_scope.
Open Scope Z_scope.

(** The integer parameters of the PARTICLES element once read (load_parameter, C09-C12: the value, or the default). *)
Notation icfg := (string -> option Z).
Definition load_int (c : icfg) (n : string) (d : Z) : Z := match c n with Some v => v | None => d end.
Definition no_cfg : icfg := fun _ => None.

(** param_vals_to_report (hpp 175): a map from label to text; here the number printed. *)
Notation report := (list (string * Z)).
Definition rep_set (r : report) (k : string) (v : Z) : report := (k, v) :: filter (fun e => negb (String.eqb (fst e) k)) r.
Definition rep_get (r : report) (k : string) : option Z := option_map snd (find (fun e => String.eqb (fst e) k) r).

(** The members. num_parts_tot has no initialiser (hpp 45): None until it is assigned. [ps_file]: the trajectory file, its
    name and the steps written, in order. *)
Record psb := { pb_num : option Z; pb_freq : Z; pb_report : report; pb_file : option (string * list Z); pb_notes : list string }.
Definition psb_new : psb := {| pb_num := None; pb_freq := 0; pb_report := []; pb_file := None; pb_notes := [] |}.
Definition set_num (b : psb) (n : Z) : psb := {| pb_num := Some n; pb_freq := pb_freq b; pb_report := pb_report b; pb_file := pb_file b; pb_notes := pb_notes b |}.
Definition set_freq (b : psb) (n : Z) : psb := {| pb_num := pb_num b; pb_freq := n; pb_report := pb_report b; pb_file := pb_file b; pb_notes := pb_notes b |}.
Definition report_param (b : psb) (k : string) (v : Z) : psb :=
  {| pb_num := pb_num b; pb_freq := pb_freq b; pb_report := rep_set (pb_report b) k v; pb_file := pb_file b; pb_notes := pb_notes b |}.
Definition note (b : psb) (m : string) : psb :=
  {| pb_num := pb_num b; pb_freq := pb_freq b; pb_report := pb_report b; pb_file := pb_file b; pb_notes := pb_notes b ++ [m] |}.

(** Two's complement: the MPI_INT sum; the product of 92 is taken in 64 bits. *)
Definition wrap (bits : Z) (x : Z) : Z := (x + 2 ^ (bits - 1)) mod 2 ^ bits - 2 ^ (bits - 1).
(** read_params 68-108. [elements]: the number of elements on every rank. *)
Definition read_params (c : icfg) (elements : list Z) (b : psb) : outcome psb :=
  let num_parts_tot := load_int c "num_particles_total" (-1) in
  let num_parts_per_cell := load_int c "num_particles_per_cell" (-1) in
  let b := if Z.ltb 0 num_parts_tot then
      let b := set_num b num_parts_tot in
      if Z.ltb 0 num_parts_per_cell then note b "ignoring per cell" else b
    else if Z.ltb 0 num_parts_per_cell then
      let num_elements_global := wrap 32 (fold_right Z.add 0 elements) in
      let b := set_num b (wrap 64 (num_elements_global * num_parts_per_cell)) in
      report_param b "Number of particles per cell/element" num_parts_per_cell
    else note b "particles disabled" in
  obind (match pb_num b with Some n => Ok n | None => UB end) (fun n =>
  let b := report_param b "Total number of particles" n in
  let b := set_freq b (load_int c "particle_output_freq" 0) in
  Ok (report_param b "Output frequency (steps)" (pb_freq b))).
(** init_object 124-137 with the default set_up_particles (hpp 81-86): the first reading of the frequency comes before the
    parameters have been read. *)
Definition init_object (c : icfg) (elements : list Z) (b : psb) : outcome psb :=
  let b := set_freq b (load_int no_cfg "particle_output_freq" 0) in
  let b := report_param b "Output frequency (steps)" (pb_freq b) in
  read_params c elements b.

(** is_output_step 64-66; % truncates. *)
Definition is_output_step (b : psb) (step : Z) : bool := Z.ltb 0 (pb_freq b) && Z.eqb (Z.rem step (pb_freq b)) 0.
(** init_output (hpp 140-150), write 110-122. *)
Definition init_output (b : psb) (name : string) : psb :=
  match pb_file b with
  | Some _ => note b "duplicate init_output"
  | None => {| pb_num := pb_num b; pb_freq := pb_freq b; pb_report := pb_report b; pb_file := Some (name, []); pb_notes := pb_notes b |}
  end.
Definition ps_write (b : psb) (step : Z) : psb :=
  match pb_file b with
  | Some (n, l) => {| pb_num := pb_num b; pb_freq := pb_freq b; pb_report := pb_report b; pb_file := Some (n, l ++ [step]); pb_notes := pb_notes b |}
  | None => note b "write ignored"
  end.
(** v_PostIntegrate of the solvers (DriftReducedSystem.cpp 547-554, SOLWithParticlesSystem.cpp 72-79) for the particle part. *)
Definition post_integrate (b : psb) (step : Z) : psb := if is_output_step b step then ps_write b step else b.

(** EqnSysBase 54-78: [elem]: the PARTICLES element, if any, with its PARTTYPE info, if any; [known]: names registered with
    the particle system factory. *)
Definition choose_partsys (known : list string) (elem : option (option string)) : outcome (option string) :=
  match elem with
  | None => Ok None
  | Some (Some n) => if existsb (String.eqb n) known then Ok (Some n) else AssertFail
  | Some None => AssertFail
  end.
