(** Model of how the basis kernels are launched on the device and of their work-group local memory:
    FunctionEvaluateBasis::evaluate_inner (include/nektar_interface/function_basis_evaluation.hpp 40-127),
    FunctionProjectBasis::project_inner (function_basis_projection.hpp 39-122), get_loop_data and prepare_per_dim_basis
    (expansion_looping/basis_evaluate_base.hpp 51-80, 111-137), the cells per shape (192-193, 229-246) and
    get_particle_loop_global_size (utility_sycl.hpp 41-48). The values computed are those of M_Basis. Sizes are nat (the
    ints do not overflow). The local size is an argument (get_num_local_work_items of NESO-Particles); SYCL gives the item
    with global id (i, j) of a range split in groups of {1, L} the local id j mod L in group (i, j / L). *)
From Verif Require Export M_Basis.
From Verif Require Import M_Util.
From Coq Require Import List ZArith.
Import ListNotations.

(** * Which items run *)
(** map_shape_to_cells, basis_evaluate_base.hpp 192-193 and map_shape_to_dh_cells 232-246: the cells of a shape in order *)
Definition cells_of (shapes : list shape) (s : shape) : list nat :=
  map fst (filter (fun c => shape_eqb (snd c) s) (combine (seq 0 (List.length shapes)) shapes)).
(** cell_dat.get_nrow_max(): the largest number of particles in a cell *)
Definition nrow_max (npart : list nat) : nat := fold_right Nat.max O npart.
(** get_particle_loop_global_size, utility_sycl.hpp 41-48 *)
Definition outer_size (npart : list nat) (L : nat) : nat :=
  Z.to_nat (get_global_size (Z.of_nat (nrow_max npart)) (Z.of_nat L)).
(** The nd_range of one shape (function_basis_evaluation.hpp 79-81, projection 67-69): items (iter_cell, layer); the test
    at 104 / 101 drops the layers that hold no particle. The result lists (cellx, layerx) of the items that do work. *)
Definition launch (shapes : list shape) (npart : list nat) (L : nat) (s : shape) : list (nat * nat) :=
  flat_map (fun cellx => map (fun layerx => (cellx, layerx))
      (filter (fun layerx => Nat.ltb layerx (nth cellx npart O)) (seq 0 (outer_size npart L))))
    (cells_of shapes s).
(** evaluate / project: one launch per shape of the mesh dimension *)
Definition launches (shapes : list shape) (npart : list nat) (L ndim : nat) : list (nat * nat) :=
  flat_map (launch shapes npart L) (ndim_shapes ndim).

(** * Local memory *)
(** max_total_nummodes{0,1,2} of get_loop_data 127-133 and sum_max_modes 51-54 *)
Definition msize (st : ctor_st) (s : shape) (d : nat) : nat := cs_tot st s d.
Definition msum (st : ctor_st) (s : shape) : nat := (msize st s 0 + msize st s 1 + msize st s 2)%nat.
(** local_mem_ptr = &local_mem[0] + idx_local * max_total_nummodes_sum (101-102); local_mem has sum * local_size items (75) *)
Definition slab (st : ctor_st) (s : shape) (lid : nat) : nat := (lid * msum st s)%nat.
Definition mem_size (st : ctor_st) (s : shape) (L : nat) : nat := (msum st s * L)%nat.
(** prepare_per_dim_basis 61-64: local_space_0, local_space_1, local_space_2 *)
Definition space (st : ctor_st) (s : shape) (lid d : nat) : nat :=
  match d with
  | 0 => slab st s lid
  | 1 => slab st s lid + msize st s 0
  | _ => slab st s lid + msize st s 0 + msize st s 1
  end%nat.
(** 71-79: the writes of the three basis evaluations, in program order: consecutive addresses from each space (the third is
    empty in 2D). *)
Definition writes_at (a : nat) (l : list fl) : list (nat * fl) := combine (seq a (List.length l)) l.
Definition item_writes (st : ctor_st) (s : shape) (lid : nat) (l : list fl * list fl * list fl) : list (nat * fl) :=
  let '(l0, l1, l2) := l in
  writes_at (space st s lid 0) l0 ++ writes_at (space st s lid 1) l1 ++ writes_at (space st s lid 2) l2.
(** A write to the local memory; the contents before the kernel are arbitrary. *)
Definition lmem := nat -> fl.
Definition mwrite (m : lmem) (w : nat * fl) : lmem := fun a => if Nat.eqb a (fst w) then snd w else m a.
(** What can be read through a pointer: everything up to the end of the local memory. *)
Definition seen (st : ctor_st) (s : shape) (L : nat) (m : lmem) (lid d : nat) : list fl :=
  map m (seq (space st s lid d) (mem_size st s L - space st s lid d)).
(** loop_evaluate / loop_project reading the spaces (113-115; projection 113-114). The 2D loops do not use the third
    space. *)
Definition evaluate_from (st : ctor_st) (s : shape) (L P : nat) (dofs : list R) (m : lmem) (lid : nat) : option fl :=
  loop_evaluate s P dofs (seen st s L m lid 0) (seen st s L m lid 1) (seen st s L m lid 2).
Definition project_from (st : ctor_st) (s : shape) (L P : nat) (value : R) (m : lmem) (lid : nat) : option (list (nat * fl)) :=
  loop_project s P value (seen st s L m lid 0) (seen st s L m lid 1) (seen st s L m lid 2).
(** The writes of the item with local id [lid] of a work-group of L items; the items of a group share the cell (groups are
    {1, L}), hence the shape and the number of modes. [xi lid] is the reference position of the item's particle, None for an
    item whose layer holds no particle. *)
Definition group_program (T : jtable) (st : ctor_st) (s : shape) (L P : nat) (xi : nat -> option (R * R * R)) (lid : nat)
  : list (nat * fl) :=
  if Nat.ltb lid L then
    match xi lid with
    | None => []
    | Some x => match collapse s x with
        | None => []
        | Some eta => match prepare T s P eta with None => [] | Some l => item_writes st s lid l end
        end
    end
  else [].
(** The local memory after the writes of a trace. *)
Definition after (m0 : lmem) (tr : list (nat * (nat * fl))) : lmem := fold_left (fun m e => mwrite m (snd e)) tr m0.
