(** Model of BaryEvaluateBase (include/nektar_interface/function_bary_evaluation.hpp), of the map from geometries to expansions
    (expansion_looping/geom_to_expansion_builder.hpp) and of the derivative evaluation of FieldEvaluate (function_evaluation.hpp).
    Exact reals; the kernels are those of M_Bary, the collapsed coordinates those of M_Coord. *)
From Verif Require Export M_Bary M_Coord M_Fluid.
Open Scope R_scope.

(** An expansion of the field: geometry id, element id, shape, quadrature points and barycentric weights in each direction,
    offset of its quadrature values in the field's. *)
Record expn := { ex_gid : Z; ex_elmt : Z; ex_shape : Z; ex_z : list (list R); ex_bw : list (list R); ex_off : nat }.
(** build_geom_to_expansion_map 38-52. The map is kept as the list of insertions, last first. *)
Fixpoint build_map (ex : nat) (l : list expn) (m : list (Z * nat)) : fres (list (Z * nat)) :=
  match l with
  | [] => FOk m
  | e :: r => if Z.eqb (Z.of_nat ex) (ex_elmt e) then build_map (S ex) r ((ex_gid e, ex) :: m) else FThrow
  end.
(** geom_to_exp[id], line 454: std::map::operator[] gives 0 for an id that is not there. *)
Definition exp_of (m : list (Z * nat)) (g : Z) : nat :=
  match find (fun kv => Z.eqb (fst kv) g) m with Some kv => snd kv | None => 0%nat end.

(** CellInfo 36-42; the pointers are the arrays they point to. *)
Record cinfo := { ci_shape : Z; ci_z : list (list R); ci_bw : list (list R); ci_off : nat }.
Definition dir (l : list (list R)) (d : nat) : list R := nth d l [].
Definition bufof (l : list R) : buf := fun i => nth i l 0.
Definition ci_num (c : cinfo) (d : nat) : nat := length (dir (ci_z c) d).
(** the key 458-470 *)
Definition ckey := (Z * list nat)%type.
Definition key_of (ndim : nat) (e : expn) : ckey := (ex_shape e, map (fun d => length (dir (ex_z e) d)) (seq 0 ndim)).
Definition key_eqb (a b : ckey) : bool := Z.eqb (fst a) (fst b) && (if list_eq_dec Nat.eq_dec (snd a) (snd b) then true else false).
(** lambda_rel_err 530-535 *)
Definition rel_err (a b : R) : R :=
  let err_abs := Rabs (a - b) in
  let err_rel := if Rlt_bool 0 (Rabs a) then err_abs / Rabs a else err_abs in
  fmin err_rel err_abs.
(** the values checked, 482-498 and 513-526: per direction the points, then the weights *)
Definition coeffs (ndim : nat) (z bw : list (list R)) : list R := flat_map (fun d => dir z d ++ dir bw d) (seq 0 ndim).
Definition close_all (a b : list R) : bool := forallb (fun p => Rlt_bool (rel_err (fst p) (snd p)) (/ 10 ^ 10)) (combine a b).
(** The constructor's state: max_num_phys, map_cells_to_info, v_cell_info. *)
Record bstate := { bs_max : nat; bs_map : list (ckey * cinfo); bs_cells : list cinfo }.
(** One pass of the loop 452-552. *)
Definition add_cell (ndim : nat) (exps : list expn) (m : list (Z * nat)) (gid : Z) (s : bstate) : fres bstate :=
  match nth_error exps (exp_of m gid) with
  | None => FUB
  | Some e =>
      let key := key_of ndim e in
      let! u := fassert (forallb (fun d => Nat.eqb (length (dir (ex_z e) d)) (length (dir (ex_bw e) d))) (seq 0 ndim)) in
      let push s' ci := FOk {| bs_max := bs_max s'; bs_map := bs_map s';
        bs_cells := bs_cells s' ++ [{| ci_shape := ci_shape ci; ci_z := ci_z ci; ci_bw := ci_bw ci; ci_off := ex_off e |}] |} in
      match find (fun kv => key_eqb (fst kv) key) (bs_map s) with
      | None =>
          let ci := {| ci_shape := ex_shape e; ci_z := ex_z e; ci_bw := ex_bw e; ci_off := 0 |} in
          push {| bs_max := fold_left (fun a d => Nat.max a (length (dir (ex_z e) d))) (seq 0 ndim) (bs_max s);
                  bs_map := bs_map s ++ [(key, ci)]; bs_cells := bs_cells s |} ci
      | Some kv =>
          let a := coeffs ndim (ex_z e) (ex_bw e) in
          let b := coeffs ndim (ci_z (snd kv)) (ci_bw (snd kv)) in
          let! u := fassert (Nat.eqb (length a) (length b)) in
          let! u := fassert (close_all a b) in
          push s (snd kv)
      end
  end.
(** The constructor 433-556. [gids]: cell_id_translation->map_to_nektar, by cell. *)
Definition bary_setup (ndim : nat) (exps : list expn) (gids : list Z) : fres bstate :=
  let! m := build_map 0 exps [] in
  fold_left (fun s g => let! s := s in add_cell ndim exps m g s) gids (FOk {| bs_max := 0; bs_map := []; bs_cells := [] |}).

(** Particle data: symbol, cell, component, layer. *)
Definition pdats := nat -> nat -> nat -> nat -> R.
Definition pwrite (d : pdats) (sym cell comp layer : nat) (v : R) : pdats := fun s c k l =>
  if (Nat.eqb s sym && Nat.eqb c cell && Nat.eqb k comp && Nat.eqb l layer)%bool then v else d s c k l.
(** What a loop over particles needs: where to write, the values, reference positions (cell, component, layer), and the
    previous contents of the work items' local memory (cell, layer). *)
Record bcall := { bc_syms : list (nat * Z); bc_phys : list (list R); bc_ref : nat -> nat -> nat -> R; bc_mem : nat -> nat -> buf; bc_ncomp : nat -> nat }.
Definition nfun (c : bcall) : nat := length (bc_syms c).
(** 340-358: the functions' values one after the other, then transposed (NESO-Particles' matrix_transpose) if there are several. *)
Definition flat (vals : list (list R)) : buf := fun k => nth k (concat vals) 0.
Definition interlaced (vals : list (list R)) : buf :=
  let nf := length vals in let np := length (nth 0 vals []) in
  if Nat.ltb 1 nf then fun k => flat vals ((k mod nf) * np + k / nf)%nat else flat vals.
(** The reads of the cell's values are inside the array; the last weights fit in local memory. *)
Definition reads_fit (np mx ndim : nat) (ci : cinfo) : bool :=
  Nat.leb (ci_off ci + fold_left Nat.mul (map (ci_num ci) (seq 0 ndim)) 1%nat) np && Nat.leb (ci_num ci (ndim - 1)) mx.
(** ptr[cell][component][layer] = value for every function, 110-114. *)
Definition write_all (c : bcall) (cell layer : nat) (val : nat -> R) (d : pdats) : fres pdats :=
  fold_left (fun acc '(fx, (sym, comp)) =>
    let! d := acc in
    if (Z.leb 0 comp && Z.ltb comp (Z.of_nat (bc_ncomp c sym)))%bool then FOk (pwrite d sym cell (Z.to_nat comp) layer (val fx)) else FUB)
    (combine (seq 0 (nfun c)) (bc_syms c)) (FOk d).

(** dispatch_2d 57-120, one particle. [stride]: of the local memory. *)
Definition particle_2d (mx stride : nat) (cells : list cinfo) (c : bcall) (cell layer : nat) (d : pdats) : fres pdats :=
  match nth_error cells cell with
  | None => FUB
  | Some ci =>
      let nf := nfun c in
      if negb (reads_fit (length (nth 0 (bc_phys c) [])) mx 2 ci) then FUB else
      let! eta := fnan (generic_to_collapsed_2d (ci_shape ci) (bc_ref c cell 0%nat layer, bc_ref c cell 1%nat layer)) in
      let b0 := (nf * stride)%nat in let b1 := ((nf + mx) * stride)%nat in
      let! m := fnan (preprocess_weights (ci_num ci 0) (fst eta) (bufof (dir (ci_z ci) 0)) (bufof (dir (ci_bw ci) 0)) b0 stride (bc_mem c cell layer)) in
      let! m := fnan (preprocess_weights (ci_num ci 1) (snd eta) (bufof (dir (ci_z ci) 1)) (bufof (dir (ci_bw ci) 1)) b1 stride m) in
      let m := compute_dir_10_interlaced nf (ci_num ci 0) (ci_num ci 1) (at_ (interlaced (bc_phys c)) (ci_off ci * nf)) (at_ m b0) (at_ m b1) stride stride m in
      write_all c cell layer (fun fx => m (fx * stride)%nat) d
  end.
(** dispatch_3d 124-193, one particle. *)
Definition particle_3d (mx stride : nat) (cells : list cinfo) (c : bcall) (cell layer : nat) (d : pdats) : fres pdats :=
  match nth_error cells cell with
  | None => FUB
  | Some ci =>
      let nf := nfun c in
      if negb (reads_fit (length (nth 0 (bc_phys c) [])) mx 3 ci) then FUB else
      let! eta := fnan (generic_to_collapsed_3d (ci_shape ci) (bc_ref c cell 0%nat layer, bc_ref c cell 1%nat layer, bc_ref c cell 2%nat layer)) in
      let b0 := (nf * stride)%nat in let b1 := ((nf + mx) * stride)%nat in let b2 := ((nf + 2 * mx) * stride)%nat in
      let! m := fnan (preprocess_weights (ci_num ci 0) (fst (fst eta)) (bufof (dir (ci_z ci) 0)) (bufof (dir (ci_bw ci) 0)) b0 stride (bc_mem c cell layer)) in
      let! m := fnan (preprocess_weights (ci_num ci 1) (snd (fst eta)) (bufof (dir (ci_z ci) 1)) (bufof (dir (ci_bw ci) 1)) b1 stride m) in
      let! m := fnan (preprocess_weights (ci_num ci 2) (snd eta) (bufof (dir (ci_z ci) 2)) (bufof (dir (ci_bw ci) 2)) b2 stride m) in
      let m := compute_dir_210_interlaced nf (ci_num ci 0) (ci_num ci 1) (ci_num ci 2) (at_ (interlaced (bc_phys c)) (ci_off ci * nf)) (at_ m b0) (at_ m b1) (at_ m b2) stride stride m in
      write_all c cell layer (fun fx => m (fx * stride)%nat) d
  end.
(** dispatch_3d_cpu 196-309, one block of [N] particles of a cell with [np] particles. The coordinates of the lanes after the
    last particle are whatever was in xi0, xi1, xi2: [junk]. A lane whose coordinates are not finite only affects itself. *)
Definition block_3d (N mx : nat) (junk : nat -> pt3) (cells : list cinfo) (c : bcall) (np cell block : nat) (d : pdats) : fres pdats :=
  match nth_error cells cell with
  | None => FUB
  | Some ci =>
      let nf := nfun c in let start := (block * N)%nat in let bound := Nat.min N (np - start) in
      if negb (reads_fit (length (nth 0 (bc_phys c) [])) mx 3 ci) then FUB else
      let xi b := if Nat.ltb b bound then (bc_ref c cell 0%nat (start + b)%nat, bc_ref c cell 1%nat (start + b)%nat, bc_ref c cell 2%nat (start + b)%nat) else junk b in
      let eta b := match generic_to_collapsed_3d (ci_shape ci) (xi b) with Some e => e | None => (0, 0, 0) end in
      if negb (forallb (fun b => match generic_to_collapsed_3d (ci_shape ci) (xi b) with Some _ => true | None => false end) (seq 0 bound)) then FNan else
      let b0 := (N * nf)%nat in let b1 := (b0 + N * mx)%nat in let b2 := (b1 + N * mx)%nat in
      let! m := fnan (preprocess_weights_block N (ci_num ci 0) (fun b => fst (fst (eta b))) (bufof (dir (ci_z ci) 0)) (bufof (dir (ci_bw ci) 0)) b0 (bc_mem c cell start)) in
      let! m := fnan (preprocess_weights_block N (ci_num ci 1) (fun b => snd (fst (eta b))) (bufof (dir (ci_z ci) 1)) (bufof (dir (ci_bw ci) 1)) b1 m) in
      let! m := fnan (preprocess_weights_block N (ci_num ci 2) (fun b => snd (eta b)) (bufof (dir (ci_z ci) 2)) (bufof (dir (ci_bw ci) 2)) b2 m) in
      let m := compute_dir_210_interlaced_block N nf (ci_num ci 0) (ci_num ci 1) (ci_num ci 2) (at_ (interlaced (bc_phys c)) (ci_off ci * nf)) (at_ m b0) (at_ m b1) (at_ m b2) m in
      fold_left (fun acc '(fx, (sym, comp)) =>
        fold_left (fun acc b => let! d := acc in
          if (Z.leb 0 comp && Z.ltb comp (Z.of_nat (bc_ncomp c sym)))%bool then FOk (pwrite d sym cell (Z.to_nat comp) (start + b)%nat (m (fx * N + b)%nat)) else FUB) (seq 0 bound) acc)
        (combine (seq 0 nf) (bc_syms c)) (FOk d)
  end.

(** The loops over particles and over blocks. [npc]: number of particles of each cell. *)
Definition floop {A} (f : A -> pdats -> fres pdats) (l : list A) (d : pdats) : fres pdats := fold_left (fun acc x => let! d := acc in f x d) l (FOk d).
Definition blocks (N : nat) (npc : list nat) : list (nat * nat * nat) :=
  flat_map (fun '(cell, np) => map (fun b => (np, cell, b)) (seq 0 ((np + N - 1) / N))) (combine (seq 0 (length npc)) npc).
Inductive device := GpuOrSubGroup | CpuWholeGroup.
(** evaluate_inner 313-416 after evaluate 569-579. [parts]: the particles (cell, layer) of the group or sub group; [npc]: of the
    whole group (used by the blocked path only). *)
Definition bary_evaluate (ndim : nat) (dv : device) (stride N : nat) (junk : nat -> nat -> nat -> pt3) (s : bstate) (c : bcall)
    (parts : list (nat * nat)) (npc : list nat) (d : pdats) : fres pdats :=
  if negb (Nat.eqb ndim 2 || Nat.eqb ndim 3) then FThrow
  else if negb (Nat.eqb (length (bc_phys c)) (nfun c)) then FThrow
  else match bc_phys c with
  | [] => FThrow
  | v0 :: _ =>
      if negb (forallb (fun v => Nat.eqb (length v0) (length v)) (bc_phys c)) then FThrow
      else if Nat.eqb ndim 2 then floop (fun '(cell, layer) => particle_2d (bs_max s) stride (bs_cells s) c cell layer) parts d
      else match dv with
        | GpuOrSubGroup => floop (fun '(cell, layer) => particle_3d (bs_max s) stride (bs_cells s) c cell layer) parts d
        | CpuWholeGroup => floop (fun '(np, cell, b) => block_3d N (bs_max s) (junk cell b) (bs_cells s) c np cell b) (blocks N npc) d
        end
  end.

(** FieldEvaluate with derivative: evaluate 97-127. [deriv dx]: the field's PhysDeriv(dx, GetPhys()). *)
Definition evaluate_gradient (ndim : nat) (dv : device) (stride N : nat) (junk : nat -> nat -> nat -> pt3) (s : bstate) (deriv : nat -> list R)
    (ref : nat -> nat -> nat -> R) (mem : nat -> nat -> buf) (ncomp : nat -> nat) (sym : nat) (parts : list (nat * nat)) (npc : list nat) (d : pdats) : fres pdats :=
  if negb (Nat.leb ndim (ncomp sym)) then FThrow
  else bary_evaluate ndim dv stride N junk s
    {| bc_syms := map (fun dx => (sym, Z.of_nat dx)) (seq 0 ndim); bc_phys := map deriv (seq 0 ndim); bc_ref := ref; bc_mem := mem; bc_ncomp := ncomp |} parts npc d.
