(** Model of depositing particle data on fields: the constructor of FieldProject with its comparison of the fields
    (include/nektar_interface/function_projection.hpp 107-170), FunctionProjectBasis::project for groups and sub groups
    (function_basis_projection.hpp 37-183, 216-269) with the setup of M_FieldEval and the launches of M_Launch, and
    FieldProject::project (432-527). The kernels are those of M_Basis, the solves those of M_FieldProject. *)
From Verif Require Import M_Bytes.
From Verif Require Export M_FieldEval M_FieldProject.
From Coq Require Import List ZArith.
Import ListNotations.

(** A field: its expansions, per expansion the basis types, GetCoordim of its first expansion, GetNcoeffs, GetTotPoints. *)
Record pfield := { pf_exps : list fexp; pf_types : list (list Z); pf_coordim : nat; pf_ncoeffs : nat; pf_npoints : nat }.
Definition assert_that (b : bool) : outcome unit := if b then Ok tt else AssertFail.
(** 155-163: dimensions [dx], ..., the bases of expansion [ex] of the first field and of the field tested. A basis that does
    not exist is an access out of bounds. *)
Fixpoint check_bases (todo dx : nat) (b0 bt : list (nat * nat)) (t0 tt' : list Z) : outcome unit :=
  match todo with
  | O => Ok tt
  | S k =>
      match nth_error bt dx, nth_error b0 dx with
      | Some (m, _), Some (m0, _) =>
          obind (assert_that (Nat.eqb m m0)) (fun _ =>
          match nth_error tt' dx, nth_error t0 dx with
          | Some t, Some t' => obind (assert_that (Z.eqb t t')) (fun _ => check_bases k (S dx) b0 bt t0 tt')
          | _, _ => UB
          end)
      | _, _ => UB
      end
  end.
(** 144-164, the loop over the expansions *)
Fixpoint check_exps (ndim : nat) (same_dim : bool) (e0 et : list fexp) (t0 tt' : list (list Z)) : outcome unit :=
  match e0, et, t0, tt' with
  | [], _, _, _ => Ok tt
  | x0 :: r0, x :: r, y0 :: s0, y :: s =>
      obind (assert_that same_dim) (fun _ =>
      obind (assert_that (Z.eqb (fe_gid x) (fe_gid x0))) (fun _ =>
      obind (check_bases ndim 0 (ex_base (fe_exp x0)) (ex_base (fe_exp x)) y0 y) (fun _ =>
      check_exps ndim same_dim r0 r s0 s)))
  | _, _, _, _ => UB
  end.
(** 133-166, one field of the loop *)
Definition check_field (f0 f : pfield) : outcome unit :=
  obind (assert_that (Nat.eqb (pf_ncoeffs f) (pf_ncoeffs f0))) (fun _ =>
  obind (assert_that (Nat.eqb (pf_npoints f) (pf_npoints f0))) (fun _ =>
  obind (assert_that (Nat.eqb (List.length (pf_exps f)) (List.length (pf_exps f0)))) (fun _ =>
  check_exps (pf_coordim f0) (Nat.eqb (pf_coordim f) (pf_coordim f0)) (pf_exps f0) (pf_exps f) (pf_types f0) (pf_types f)))).
Fixpoint check_fields (f0 : pfield) (fs : list pfield) : outcome unit :=
  match fs with [] => Ok tt | f :: r => obind (check_field f0 f) (fun _ => check_fields f0 r) end.
(** The constructor, 107-170: FunctionProjectBasis over the first field, build_geom_to_expansion_map, the comparisons when
    there are several fields. *)
Definition make_field_project (fields : list pfield) (gids : list Z) : outcome bsetup :=
  match fields with
  | [] => AssertFail
  | f0 :: rest =>
      obind (basis_setup (pf_exps f0) gids) (fun z =>
      obind (geom_map 0 (pf_exps f0) []) (fun _ =>
      match rest with
      | [] => Ok z
      | _ :: _ => obind (check_fields f0 fields) (fun _ => Ok z)
      end))
  end.

(** Particle data of the group passed: NESO_REFERENCE_POSITIONS, the numbers of components of its dats and their values
    [pd_in sym cell component layer]. *)
Record pdats := { pd_ref : nat -> nat -> nat -> R; pd_ncomp : nat -> nat; pd_in : nat -> nat -> nat -> nat -> R }.
(** One work item (102-126) or particle of a sub group's loop (153-176): the atomic adds it makes, at
    dofs = &global_coeffs[offset]. A component the dat does not have is read out of bounds. *)
Definition deposit_item (z : bsetup) (d : pdats) (sym : nat) (comp : Z) (item : nat * nat) : option (list (nat * fl)) :=
  let '(cell, layer) := item in
  match nth_error (bz_cells z) cell, nth_error (cs_nummodes (bz_st z)) cell with
  | Some e, Some P =>
      let s := ex_shape (fe_exp e) in
      if (Z.leb 0 comp && Z.ltb comp (Z.of_nat (pd_ncomp d sym)))%bool then
        get a <- project_particle (ctor_table (bz_st z)) s P (ref_position s (fun k => pd_ref d cell k layer)) (pd_in d sym cell (Z.to_nat comp) layer);
        Some (map (fun mv => ((fe_off e + fst mv)%nat, snd mv)) a)
      else None
  | _, _ => None
  end.
Fixpoint deposit_items (z : bsetup) (d : pdats) (sym : nat) (comp : Z) (its : list (nat * nat)) : option (list (nat * fl)) :=
  match its with
  | [] => Some []
  | it :: r => get a <- deposit_item z d sym comp it; get b <- deposit_items z d sym comp r; Some (a ++ b)
  end.
(** project, 217-269: zero fill, the launches or loops (M_FieldEval.items), copy back; the adds happen in the order [sched]
    makes of them. *)
Definition deposit (z : bsetup) (n L ndim : nat) (d : pdats) (g : particles) (sched : list (nat * fl) -> list (nat * fl)) (sym : nat) (comp : Z) : option (list fl) :=
  get adds <- deposit_items z d sym comp (items (cell_shapes (bz_cells z)) L ndim g);
  project_run n (sched adds).
(** FieldProject::project, 432-527. [ncomp]: numbers of components in the group the object was made with. *)
Definition field_project (z : bsetup) (n L ndim nfields : nat) (ncomp : nat -> nat) (d : pdats) (g : particles)
    (sched : nat -> list (nat * fl) -> list (nat * fl)) (invmass : nat -> list R -> list fl) (bwd : nat -> list R -> list R)
    (syms : list nat) (comps : list Z) : presult :=
  if args_ok nfields ncomp syms comps then
    solve_all invmass bwd 0 (map (fun '(i, (s, c)) => deposit z n L ndim d g (sched i) s c) (combine (seq 0 nfields) (combine syms comps)))
  else PAssert.
