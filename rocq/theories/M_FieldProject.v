(** Model of FieldProject (include/nektar_interface/function_projection.hpp 62-561), over the kernels of M_Basis.
    Nektar++ parts are arguments: the inverse mass matrix (MultiplyByElmtInvMass / MultiplyByInvMassMatrix), BwdTrans and
    LocCoordToLocCollapsed. A ParticleDat is identified by a number; all the dats of the group exist. *)
From Verif Require Export M_Basis.
From Coq Require Export List ZArith.
Export ListNotations.

(** A particle: reference position and, per dat, its components. A cell: shape, nummodes, coefficient offset, particles. *)
Definition pdata := nat -> list R.
Record fcell := { fc_shape : shape; fc_P : nat; fc_off : nat; fc_parts : list (R * R * R * pdata) }.
(** The kernels' view of component [comp] of dat [sym] (function_basis_projection.hpp 112): k_input[cellx][component]. *)
Definition comp_cell (sym comp : nat) (c : fcell) : pcell :=
  {| pc_shape := fc_shape c; pc_P := fc_P c; pc_off := fc_off c;
     pc_parts := map (fun xd => (fst xd, nth comp (snd xd sym) 0)) (fc_parts c) |}.

(** Result: an assertion failed (NESOASSERT aborts), a read or write out of bounds, or the fields' new coefficients and
    physical values. *)
Inductive presult := PAssert | POob | PSet (fields : list (list R * list R)).
(** the isfinite loops (497-507, 513-518) *)
Fixpoint all_finite (l : list fl) : option (list R) :=
  match l with
  | [] => Some []
  | None :: _ => None
  | Some x :: l' => match all_finite l' with None => None | Some r => Some (x :: r) end
  end.
(** The argument checks of 454-480; components are ints. *)
Definition args_ok (nfields : nat) (ncomp : nat -> nat) (syms : list nat) (comps : list Z) : bool :=
  Nat.eqb (length syms) nfields && Nat.eqb (length comps) nfields &&
  forallb (fun sc => Z.leb 0 (snd sc) && Z.ltb (snd sc) (Z.of_nat (ncomp (fst sc)))) (combine syms comps).
(** The tail of project and project_host: mass matrix solve, checks, SetCoeff, BwdTrans, SetPhys (496-526, 369-398). *)
Definition solve_one (invmass : list R -> list fl) (bwd : list R -> list R) (rhs : list fl) : option (list R * list R) :=
  match all_finite rhs with
  | None => None
  | Some b =>
      match all_finite (invmass b) with
      | None => None
      | Some x => Some (x, bwd x) end
  end.
Fixpoint solve_each (invmass : nat -> list R -> list fl) (bwd : nat -> list R -> list R) (fieldx : nat) (rhss : list (list fl)) : presult :=
  match rhss with
  | [] => PSet []
  | rhs :: rhss' =>
      match solve_one (invmass fieldx) (bwd fieldx) rhs with
      | None => PAssert
      | Some cp => match solve_each invmass bwd (S fieldx) rhss' with PSet l => PSet (cp :: l) | e => e end
      end
  end.
(** All the right hand sides are computed (482-486) before the first solve (496). *)
Fixpoint all_rhs (rhss : list (option (list fl))) : option (list (list fl)) :=
  match rhss with
  | [] => Some []
  | r :: rhss' => get r <- r; get l <- all_rhs rhss'; Some (r :: l)
  end.
Definition solve_all (invmass : nat -> list R -> list fl) (bwd : nat -> list R -> list R) (fieldx : nat) (rhss : list (option (list fl))) : presult :=
  match all_rhs rhss with
  | None => POob
  | Some l => solve_each invmass bwd fieldx l
  end.
(** project (432-527): the device projection of each field in turn (482-486), [sched fieldx] being the order in which the
    atomic adds of that projection happen, then the solves. [ncomp] are the numbers of components in the group the object
    was made with (473-477), [cells] the particles of the group passed: a component the latter's dat lacks is read out of
    bounds. *)
Definition reads_ok (cells : list fcell) (sym comp : nat) : bool :=
  forallb (fun c => forallb (fun xd => Nat.ltb comp (length (snd xd sym))) (fc_parts c)) cells.
Definition device_rhs (T : jtable) (ndim n : nat) (cells : list fcell) (sched : list (nat * fl) -> list (nat * fl)) (sym comp : nat) : option (list fl) :=
  if negb (reads_ok cells sym comp) then None else
  get adds <- adds_all T ndim (map (comp_cell sym comp) cells);
  project_run n (sched adds).
Definition project (T : jtable) (ndim n nfields : nat) (ncomp : nat -> nat) (cells : list fcell)
    (sched : nat -> list (nat * fl) -> list (nat * fl)) (invmass : nat -> list R -> list fl) (bwd : nat -> list R -> list R)
    (syms : list nat) (comps : list Z) : presult :=
  if args_ok nfields ncomp syms comps then
    solve_all invmass bwd 0
      (map (fun '(i, (s, c)) => device_rhs T ndim n cells (sched i) s (Z.to_nat c)) (combine (seq 0 nfields) (combine syms comps)))
  else PAssert.
(** project_host (204-399): loops over cells, particles, modes; phi[modex] += phi_j * quantity (344-356). [ncollapse] is
    LocCoordToLocCollapsed of Nektar++; num_modes_total (GetNcoeffs of the expansion) is the number of modes. The matches
    of geometry ids, offsets and dimensions asserted on the way hold by construction of the cell list. *)
Definition host_adds (ncollapse : shape -> R * R * R -> R * R * R) (sym comp : nat) (c : fcell) : list (nat * fl) :=
  flat_map (fun xd =>
    let '(e0, e1, e2) := ncollapse (fc_shape c) (fst xd) in
    let modes := eval_modes (fc_shape c) (fc_P c) e0 e1 e2 in
    map (fun '(modex, phi_j) => ((fc_off c + modex)%nat, fmul phi_j (Some (nth comp (snd xd sym) 0))))
      (combine (seq 0 (length modes)) modes)) (fc_parts c).
Definition host_rhs (ncollapse : shape -> R * R * R -> R * R * R) (n : nat) (cells : list fcell) (sym comp : nat) : option (list fl) :=
  if negb (reads_ok cells sym comp) then None else project_run n (flat_map (host_adds ncollapse sym comp) cells).
Definition project_host (ncollapse : shape -> R * R * R -> R * R * R) (n nfields : nat) (ncomp : nat -> nat) (cells : list fcell)
    (invmass : nat -> list R -> list fl) (bwd : nat -> list R -> list R) (syms : list nat) (comps : list Z) : presult :=
  if args_ok nfields ncomp syms comps then
    solve_all invmass bwd 0 (map (fun '(i, (s, c)) => host_rhs ncollapse n cells s (Z.to_nat c)) (combine (seq 0 nfields) (combine syms comps)))
  else PAssert.
(** FieldEvaluate::evaluate without derivative (function_evaluation.hpp 128-132): the basis evaluation with the field's
    coefficients. *)
Definition evaluate_field (T : jtable) (c : fcell) (coeffs : list R) (xi : R * R * R) : option fl :=
  evaluate_particle T (fc_shape c) (fc_P c) (skipn (fc_off c) coeffs) xi.
