(** Model of the setup of BasisEvaluateBase for a field (include/nektar_interface/expansion_looping/basis_evaluate_base.hpp
    152-268, geom_to_expansion_builder.hpp 37-53), of FunctionEvaluateBasis::evaluate for groups and sub groups of particles
    (function_basis_evaluation.hpp 36-278) and of the value path of FieldEvaluate (function_evaluation.hpp 57-129). The
    kernels are those of M_Basis, the launches those of M_Launch. *)
From Verif Require Import M_Bytes.
From Verif Require Export M_Launch.
From Coq Require Import List ZArith.
Import ListNotations.

(** An expansion of the field: global id of its geometry, its element id, shape and bases, GetCoeff_Offset. *)
Record fexp := { fe_gid : Z; fe_elmt : Z; fe_exp : expansion; fe_off : nat }.
(** build_geom_to_expansion_map, geom_to_expansion_builder.hpp 37-53. The map is kept as the list of its assignments, last
    first. *)
Fixpoint geom_map (ex : nat) (l : list fexp) (m : list (Z * nat)) : outcome (list (Z * nat)) :=
  match l with
  | [] => Ok m
  | e :: r => if Z.eqb (Z.of_nat ex) (fe_elmt e) then geom_map (S ex) r ((fe_gid e, ex) :: m) else AssertFail
  end.
(** geom_to_exp[id], basis_evaluate_base.hpp 187: std::map::operator[] gives 0 for an id that is not there. *)
Definition exp_id (m : list (Z * nat)) (g : Z) : nat :=
  match find (fun kv => Z.eqb (fst kv) g) m with Some kv => snd kv | None => O end.
(** field->GetExp(expansion_id) for each cell, 183-189; [gids] is map_to_nektar by cell, which has one entry per cell of the
    mesh. There is no such expansion only in an empty field. *)
Fixpoint cell_exps (exps : list fexp) (m : list (Z * nat)) (gids : list Z) : outcome (list fexp) :=
  match gids with
  | [] => Ok []
  | g :: r => match nth_error exps (exp_id m g) with
      | None => UB
      | Some e => obind (cell_exps exps m r) (fun l => Ok (e :: l))
      end
  end.
(** The constructor: the expansion of every cell and the state of M_Basis.ctor_loop (numbers of modes, largest orders, local
    sizes); expansion_count (229-248) adds up the cells per shape. *)
Record bsetup := { bz_cells : list fexp; bz_st : ctor_st }.
Definition cell_shapes (z : list fexp) : list shape := map (fun e => ex_shape (fe_exp e)) z.
Definition expansion_count (cells : list fexp) : nat :=
  fold_left (fun n s => (n + List.length (cells_of (cell_shapes cells) s))%nat) [Tri; Quad; Hex; Prism; Pyr; Tet] O.
Definition basis_setup (exps : list fexp) (gids : list Z) : outcome bsetup :=
  obind (geom_map 0 exps []) (fun m =>
  obind (cell_exps exps m gids) (fun cells =>
  match ctor_loop (map fe_exp cells) with
  | None => AssertFail
  | Some st => if Nat.eqb (expansion_count cells) (List.length gids) then Ok {| bz_cells := cells; bz_st := st |} else AssertFail
  end)).

(** Particle data: symbol, cell, component, layer. A value that is not finite is None. *)
Definition fdats := nat -> nat -> nat -> nat -> fl.
Definition fwrite (d : fdats) (sym cell comp layer : nat) (v : fl) : fdats := fun s c k l =>
  if (Nat.eqb s sym && Nat.eqb c cell && Nat.eqb k comp && Nat.eqb l layer)%bool then v else d s c k l.
(** Arguments of evaluate (237-239): output symbol and component (with the number of components of that dat), coefficients;
    [ec_ref cell d layer]: NESO_REFERENCE_POSITIONS. *)
Record ecall := { ec_sym : nat; ec_comp : Z; ec_ncomp : nat; ec_coeffs : list R; ec_ref : nat -> nat -> nat -> R }.
(** extract_ref_positions_ptr / _dat, basis_evaluate_base.hpp 27-49; ndim is that of the shape *)
Definition shape_ndim (s : shape) : nat := match s with Tri | Quad => 2 | _ => 3 end%nat.
Definition ref_position (s : shape) (ref : nat -> R) : R * R * R :=
  (ref 0%nat, ref 1%nat, if Nat.eqb (shape_ndim s) 3 then ref 2%nat else 0).
(** One work item or particle loop iteration, 104-121 and 166-189. dofs = &global_coeffs[offset]: reads past the end of the
    coefficients, and a component the output dat does not have, are undefined. *)
Definition eval_item (z : bsetup) (c : ecall) (item : nat * nat) (d : fdats) : outcome fdats :=
  let '(cell, layer) := item in
  match nth_error (bz_cells z) cell, nth_error (cs_nummodes (bz_st z)) cell with
  | Some e, Some P =>
      let s := ex_shape (fe_exp e) in
      match evaluate_particle (ctor_table (bz_st z)) s P (skipn (fe_off e) (ec_coeffs c)) (ref_position s (fun k => ec_ref c cell k layer)) with
      | None => UB
      | Some v => if (Z.leb 0 (ec_comp c) && Z.ltb (ec_comp c) (Z.of_nat (ec_ncomp c)))%bool
                  then Ok (fwrite d (ec_sym c) cell (Z.to_nat (ec_comp c)) layer v) else UB
      end
  | _, _ => UB
  end.
(** The particles of the call: a ParticleGroup (number of particles per cell) or a ParticleSubGroup (selected layers of each
    cell), which may be the entire group (145-149). *)
Inductive particles := Group (npart : list nat) | SubGroup (entire : bool) (npart : list nat) (sel : nat -> list nat).
(** Which items run: evaluate 258-275 with the launches of 64-103, or the loops over the cells of each shape 162-190. *)
Definition items (shapes : list shape) (L ndim : nat) (g : particles) : list (nat * nat) :=
  match g with
  | Group npart => launches shapes npart L ndim
  | SubGroup true npart _ => launches shapes npart L ndim
  | SubGroup false _ sel => flat_map (fun s => flat_map (fun cell => map (fun layer => (cell, layer)) (sel cell)) (cells_of shapes s)) (ndim_shapes ndim)
  end.
(** An execution of the items in some order. *)
Definition run_items (z : bsetup) (c : ecall) (order : list (nat * nat)) (d : fdats) : outcome fdats :=
  fold_left (fun a it => obind a (eval_item z c it)) order (Ok d).
(** FieldEvaluate::evaluate, not derivative (function_evaluation.hpp 124-128): component 0, the field's coefficients. *)
Definition value_call (sym ncomp : nat) (coeffs : list R) (ref : nat -> nat -> nat -> R) : ecall :=
  {| ec_sym := sym; ec_comp := 0; ec_ncomp := ncomp; ec_coeffs := coeffs; ec_ref := ref |}.
