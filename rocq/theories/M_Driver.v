(** Model of the main loop of the two Electrostatic2D3V solvers and of their output:
    solvers/Electrostatic2D3V/ElectrostaticTwoStream2D3V.hpp (constructor 99-237, run 242-352, finalise 354-366),
    ElectrostaticElectronBernsteinWaves2D3V.hpp (constructor 84-204, run 209-307, finalise 311-322),
    Diagnostics/LineFieldEvaluations.hpp (whole), ParticleSystems/ChargedParticles.hpp write 534-547,
    ParticleSystems/PoissonParticleCoupling.hpp write_forcing, write_potential 286-300. The writer is M_Writer.
    The state of the simulation and what its three steps do to it are arguments (M_Pic models them). *)
From Verif Require Export M_RealBase M_Fluid M_Writer.
From Coq Require Export ZArith String List Bool.
Export ListNotations.
Open Scope R_scope.
Open Scope string_scope.
Open Scope list_scope.

Inductive solver := TwoStream | Bernstein.
Inductive hval := HReal (x : R) | HInt (z : Z).

(** LoadParameter without a default throws if the session does not define the parameter. *)
Definition need {A} (o : option A) : fres A := match o with Some a => FOk a | None => FThrow end.
Definition dflt {A} (d : A) (o : option A) : A := match o with Some a => a | None => d end.
Definition defd {A} (o : option A) : bool := match o with Some _ => true | None => false end.
Record dset := mkDS { ds_N : Z; ds_wp : Z; ds_wf : Z; ds_we : Z; ds_pr : Z; ds_B : R * R * R; ds_type : Z; ds_coef : R;
  ds_line : option (Z * Z * Z) }.
(** Two stream 139-173, Bernstein 123-141. *)
Definition drv_field (k : solver) (ints : string -> option Z) (reals : string -> option R) : fres ((R * R * R) * Z) :=
  match k with
  | TwoStream =>
      let bx := reals "particle_B_x_magnitude" in let by' := reals "particle_B_y_magnitude" in let bz := reals "particle_B_z_magnitude" in
      let t := if defd bx || defd by' || defd bz then 1%Z else 0%Z in
      FOk ((dflt 0 bx, dflt 0 by', dflt 0 bz), dflt t (ints "particle_integrator_type"))
  | Bernstein =>
      let! bx := need (reals "particle_B_x") in let! by' := need (reals "particle_B_y") in let! bz := need (reals "particle_B_z") in
      FOk ((bx, by', bz), 1%Z)
  end.
(** Two stream 210-236, Bernstein 177-203. [junk]: the member line_field_deriv_evaluations_step before anything was
    assigned to it. The constructor of LineFieldEvaluations (57-190) rejects negative numbers; rank 0 makes nx*ny points. *)
Definition drv_line (ints : string -> option Z) (junk : Z) : fres (option (Z * Z * Z)) :=
  let! l := (if defd (ints "line_field_deriv_evaluations_step") then
      let! s := need (ints "line_field_deriv_evaluations_step") in
      let! nx := need (ints "line_field_deriv_evaluations_numx") in
      let! ny := need (ints "line_field_deriv_evaluations_numy") in FOk (s, nx, ny)
    else FOk (junk, (-1)%Z, (-1)%Z)) in
  if (defd (ints "line_field_deriv_evaluations_step") && Z.ltb 0 (fst (fst l)))%bool then
    let nx := snd (fst l) in let ny := snd l in
    if negb (Z.leb 0 nx && Z.leb 0 ny) then FThrow else
    if Z.ltb (nx * ny) (2 ^ 31) then FOk (Some l) else FUB
  else FOk None.
(** The constructors. *)
Definition drv_setup (k : solver) (ints : string -> option Z) (reals : string -> option R) (junk : Z) : fres dset :=
  let! n := need (ints "particle_num_time_steps") in
  let! wp := need (ints "particle_num_write_particle_steps") in
  let! wf := need (ints "particle_num_write_field_steps") in
  let! we := need (ints "particle_num_write_field_energy_steps") in
  let! pr := need (ints "particle_num_print_steps") in
  let! bt := drv_field k ints reals in
  let! l := drv_line ints junk in
  FOk (mkDS n wp wf we pr (fst bt) (snd bt) (dflt 1 (reals "particle_E_rescale")) l).
(** 122-127: whether this rank has the file. *)
Definition has_file (d : dset) (rank : Z) : bool := (Z.eqb rank 0 && (Z.ltb 0 (ds_we d) || Z.ltb 0 (ds_wp d)))%bool.
(** 187-207 / 151-175. [env]: extents, charge, mass and weight (C59). *)
Record denv := { en_Lx : R; en_Ly : R; en_q : R; en_m : R; en_w : R; en_ox : R; en_oy : R }.
Definition drv_globals (k : solver) (e : denv) (d : dset) : list (string * hval) :=
  let '(bx, by', bz) := ds_B d in
  [("L_x", HReal (en_Lx e)); ("L_y", HReal (en_Ly e)); ("q", HReal (en_q e)); ("m", HReal (en_m e)); ("w", HReal (en_w e))] ++
  match k with TwoStream => [("B_z", HReal bz)] | Bernstein => [("B_x", HReal bx); ("B_y", HReal by'); ("B_z", HReal bz)] end ++
  [("particle_integrator_type", HInt (ds_type d)); ("particle_E_rescale", HReal (ds_coef d))].

(** LineFieldEvaluations 141-176: the branch taken (the other one is `if (false)`): index and position of the points. *)
Definition line_points (e : denv) (nx ny : Z) : list ((Z * Z) * (R * R)) :=
  let hx := en_Lx e / IZR nx in let hy := en_Ly e / IZR ny in
  let x0 := en_ox e + 1/2 * hx in let y0 := en_oy e + 1/2 * hy in
  flat_map (fun px => map (fun py => ((Z.of_nat px, Z.of_nat py), (x0 + IZR (Z.of_nat px) * hx, y0 + IZR (Z.of_nat py) * hy)))
    (seq 0 (Z.to_nat ny))) (seq 0 (Z.to_nat nx)).

(** What a rank does, in order. *)
Inductive which := FE | KE | PE.
Inductive dev :=
  | EInt1 | EField | EInt2
  | EParticles | EForcing (s : Z) | EPotential (s : Z)
  | ECompute (q : which) | EStart (s : Z) | EValue (key : string) (q : which) | EEnd
  | ELine (s : Z) | EDeriv (s : Z) | EPrint (s : Z) | ECall (c : nat) (s : Z).
Definition due (f s : Z) : bool := (Z.ltb 0 f && Z.eqb (Z.rem s f) 0)%bool.
Definition line_due (d : dset) (s : Z) : bool := match ds_line d with Some (f, _, _) => Z.eqb (Z.rem s f) 0 | None => false end.
(** One pass of the loop, 255-330 / 221-293. [ncb]: the number of callbacks. *)
Definition step_events (k : solver) (d : dset) (rank : Z) (ncb : nat) (s : Z) : list dev :=
  [EInt1; EField; EInt2] ++
  (if due (ds_wp d) s then [EParticles] else []) ++
  (if due (ds_wf d) s then [EForcing s; EPotential s] else []) ++
  (if due (ds_we d) s then [ECompute FE; ECompute KE; ECompute PE] ++
     (if has_file d rank then [EStart s; EValue "field_energy" FE; EValue "kinetic_energy" KE; EValue "potential_energy" PE; EEnd] else []) else []) ++
  (if line_due d s then match k with TwoStream => [ELine s; EDeriv s] | Bernstein => [EDeriv s; ELine s] end else []) ++
  (if due (ds_pr d) s && Z.eqb rank 0 then [EPrint s] else []) ++
  map (fun c => ECall c s) (seq 0 ncb).
Definition run_events (k : solver) (d : dset) (rank : Z) (ncb : nat) : list dev :=
  flat_map (fun i => step_events k d rank ncb (Z.of_nat i)) (seq 0 (Z.to_nat (ds_N d))).
Section Interp.
  Context {W : Type} (int1 field int2 : W -> W) (en : which -> W -> R) (phi : W -> R * R -> R) (grad : W -> R * R -> R * R) (mean : W -> R).
  Context (k : solver) (e : denv) (d : dset) (rank : Z).
  (** [sm_fe] ...: the diagnostics' member `energy`, which has no initialiser. *)
  Record sim := mkSim { sm_w : W; sm_fe : option R; sm_ke : option R; sm_pe : option R; sm_file : option (writer hval);
    sm_traj : list W; sm_vtu : list (string * Z * Z * W); sm_line : list (Z * list ((Z * Z) * R)); sm_deriv : list (Z * list ((Z * Z) * (R * R)));
    sm_print : list (Z * option (R * R * R)); sm_calls : list (nat * Z * W) }.
  Definition energy (m : sim) (q : which) : option R := match q with FE => sm_fe m | KE => sm_ke m | PE => sm_pe m end.
  Definition set_w (f : W -> W) (m : sim) : sim := mkSim (f (sm_w m)) (sm_fe m) (sm_ke m) (sm_pe m) (sm_file m) (sm_traj m) (sm_vtu m) (sm_line m) (sm_deriv m) (sm_print m) (sm_calls m).
  Definition set_file (w : option (writer hval)) (m : sim) : sim := mkSim (sm_w m) (sm_fe m) (sm_ke m) (sm_pe m) w (sm_traj m) (sm_vtu m) (sm_line m) (sm_deriv m) (sm_print m) (sm_calls m).
  Definition set_energy (q : which) (x : R) (m : sim) : sim :=
    mkSim (sm_w m) (match q with FE => Some x | _ => sm_fe m end) (match q with KE => Some x | _ => sm_ke m end) (match q with PE => Some x | _ => sm_pe m end)
      (sm_file m) (sm_traj m) (sm_vtu m) (sm_line m) (sm_deriv m) (sm_print m) (sm_calls m).
  Definition add_traj (m : sim) : sim := mkSim (sm_w m) (sm_fe m) (sm_ke m) (sm_pe m) (sm_file m) (sm_traj m ++ [sm_w m]) (sm_vtu m) (sm_line m) (sm_deriv m) (sm_print m) (sm_calls m).
  Definition add_vtu (n : string) (s : Z) (m : sim) : sim := mkSim (sm_w m) (sm_fe m) (sm_ke m) (sm_pe m) (sm_file m) (sm_traj m) (sm_vtu m ++ [(n, rank, s, sm_w m)]) (sm_line m) (sm_deriv m) (sm_print m) (sm_calls m).
  Definition add_line (x : Z * list ((Z * Z) * R)) (m : sim) : sim := mkSim (sm_w m) (sm_fe m) (sm_ke m) (sm_pe m) (sm_file m) (sm_traj m) (sm_vtu m) (sm_line m ++ [x]) (sm_deriv m) (sm_print m) (sm_calls m).
  Definition add_deriv (x : Z * list ((Z * Z) * (R * R))) (m : sim) : sim := mkSim (sm_w m) (sm_fe m) (sm_ke m) (sm_pe m) (sm_file m) (sm_traj m) (sm_vtu m) (sm_line m) (sm_deriv m ++ [x]) (sm_print m) (sm_calls m).
  Definition add_print (x : Z * option (R * R * R)) (m : sim) : sim := mkSim (sm_w m) (sm_fe m) (sm_ke m) (sm_pe m) (sm_file m) (sm_traj m) (sm_vtu m) (sm_line m) (sm_deriv m) (sm_print m ++ [x]) (sm_calls m).
  Definition add_call (c : nat) (s : Z) (m : sim) : sim := mkSim (sm_w m) (sm_fe m) (sm_ke m) (sm_pe m) (sm_file m) (sm_traj m) (sm_vtu m) (sm_line m) (sm_deriv m) (sm_print m) (sm_calls m ++ [(c, s, sm_w m)]).
  Definition points : list ((Z * Z) * (R * R)) := match ds_line d with Some (_, nx, ny) => line_points e nx ny | None => [] end.
  Definition on_file (c : wcall hval) (m : sim) : fres sim :=
    match sm_file m with
    | None => FUB
    | Some w => match do_call w c with WOk w' => FOk (set_file (Some w') m) | WAbort => FThrow | WUB => FUB end
    end.
  (** The energies printed, 309-318 / 272-283: pe, ke, fe as they are; without energy steps only the time is printed. *)
  Definition printed (m : sim) : fres (option (R * R * R)) :=
    if Z.ltb 0 (ds_we d) then
      match sm_fe m, sm_ke m, sm_pe m with Some a, Some b, Some c => FOk (Some (a, b, c)) | _, _, _ => FUB end
    else FOk None.
  (** write of LineFieldEvaluations 199-220: with the mean taken off (line_field_evaluations) or not (the derivatives). *)
  Definition interp (ev : dev) (m : sim) : fres sim :=
    match ev with
    | EInt1 => FOk (set_w int1 m) | EField => FOk (set_w field m) | EInt2 => FOk (set_w int2 m)
    | EParticles => FOk (add_traj m)
    | EForcing s => FOk (add_vtu "forcing" s m) | EPotential s => FOk (add_vtu "potential" s m)
    | ECompute q => FOk (set_energy q (en q (sm_w m)) m)
    | EStart s => on_file (CStart s) m
    | EValue key q => match energy m q with Some x => on_file (CValue key (HReal x)) m | None => FUB end
    | EEnd => on_file CEnd m
    | ELine s => FOk (add_line (s, map (fun p => (fst p, phi (sm_w m) (snd p) - mean (sm_w m))) points) m)
    | EDeriv s => FOk (add_deriv (s, map (fun p => (fst p, grad (sm_w m) (snd p))) points) m)
    | EPrint s => let! x := printed m in FOk (add_print (s, x) m)
    | ECall c s => FOk (add_call c s m)
    end.
  Definition interps (l : list dev) (r : fres sim) : fres sim := fold_left (fun r ev => let! m := r in interp ev m) l r.
  (** The state after the constructor: the file, if any, holds the global values. *)
  Definition start (w : W) : fres sim :=
    let m f := mkSim w None None None f [] [] [] [] [] [] in
    if has_file d rank then
      match do_calls (map (fun g => CGlobal (fst g) (snd g)) (drv_globals k e d)) (w_new true) with
      | WOk f => FOk (m (Some f)) | WAbort => FThrow | WUB => FUB
      end
    else FOk (m None).
  (** run, then finalise *)
  Definition simulate (ncb : nat) (w : W) : fres sim :=
    let! m := interps (run_events k d rank ncb) (start w) in
    if has_file d rank then on_file CClose m else FOk m.
End Interp.
Arguments sim : clear implicits.
