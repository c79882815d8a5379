(** The boundary data given to particles: CompositeIntersection::pre_integration and
    get_intersections (src/nektar_interface/composite_interaction/composite_intersection.cpp), the
    normals (composite_collections.cpp, composite_collections.hpp) and the options
    (composite_intersection.cpp, src/nektar_interface/particle_boundary_conditions.cpp). The
    device buffers are explicit and hold arbitrary values when they are taken from the pool. *)
From Coq Require Import Reals String.
From Verif Require Import M_Bytes M_Transport M_Exchange M_Util M_MeshIf M_LinePlane M_Composite.
From Coq Require Import List.
Import ListNotations.
Local Open Scope Z_scope.

(** * The previous positions *)
(** A particle property of the particles of a rank: particle, component. [gs_prev]: None while the
    group has no property NESO_COMP_INT_PREV_POS. *)
Definition pdat := nat -> nat -> R.
Record gstate := mkGstate { gs_pos : pdat; gs_prev : option pdat }.
Definition mem_nat (i : nat) (l : list nat) : bool := existsb (Nat.eqb i) l.
(** pre_integration (composite_intersection.cpp 809-835): [ncomp] components of the position property,
    [init]: the contents of a property just added. The assertion on the compute device is not
    modelled. *)
Definition pre_integration (ndim ncomp : nat) (init : pdat) (iset : list nat) (st : gstate) : outcome gstate :=
  if Nat.eqb ncomp ndim then
    let prev := match gs_prev st with Some p => p | None => init end in
    Ok (mkGstate (gs_pos st)
          (Some (fun i d => if mem_nat i iset && Nat.ltb d ndim then gs_pos st i d else prev i d)))
  else AssertFail.
(** What happens to a group between calls: a call, or particles moving. *)
Inductive gop := GPre (iset : list nat) | GMove (pos : pdat).
Definition gstep (ndim ncomp : nat) (init : pdat) (o : gop) (st : gstate) : outcome gstate :=
  match o with
  | GPre s => pre_integration ndim ncomp init s st
  | GMove p => Ok (mkGstate p (gs_prev st))
  end.
Fixpoint grun (ndim ncomp : nat) (init : pdat) (ops : list gop) (st : gstate) : outcome gstate :=
  match ops with [] => Ok st | o :: r => obind (gstep ndim ncomp init o st) (grun ndim ncomp init r) end.

(** * The normals *)
(** A value not a number is None. *)
Definition xreal := option R.
(** NormalData: a pointer into the device buffer of the normals of a cell. *)
Definition nptr := (list xreal * nat)%type.
(** get_normal_vector of an element (composite_utility.cpp 5-83): a zero length segment gives NaN, a
    face without a normal fails an assertion. *)
Definition element_normal (ndim : nat) (g : bgeom) : outcome (list xreal) :=
  match ndim with
  | 3%nat => match normal_2d false (bg_verts g) with
             | Some n => Ok [Some (vx n); Some (vy n); Some (vz n)]
             | None => AssertFail
             end
  | _ => match bg_verts g with
         | [a; b] => match normal_1d false (vx a, vy a) (vx b, vy b) with
                     | Some n => Ok [Some (fst n); Some (snd n)]
                     | None => Ok [None; None]
                     end
         | _ => AssertFail
         end
  end.
(** lambda_push_normal (composite_collections.cpp 38-43) for a list of elements: h_normal_ids and
    h_normal_data *)
Fixpoint push_normals (ndim : nat) (l : list cgeom) (st : list Z * list xreal) : outcome (list Z * list xreal) :=
  match l with
  | [] => Ok st
  | x :: r => obind (element_normal ndim (cg_geom x)) (fun n =>
              push_normals ndim r (fst st ++ [cg_id x], snd st ++ n))
  end.
(** 76, 182: normal_stride is 3 with faces, 2 with segments *)
Definition normal_stride (s : list cgeom) : nat :=
  match s with [] => 3%nat | _ => 2%nat end.
(** 245-248: map_normals->add. BlockedBinaryTree::add (NESO-Particles) replaces. *)
Fixpoint add_normals (stride : nat) (data : list xreal) (ids : list Z) (ix : nat) (m : list (Z * nptr)) : list (Z * nptr) :=
  match ids with
  | [] => m
  | id :: r => add_normals stride data r (S ix) (zassign m id (data, (stride * ix)%nat))
  end.
(** collect_cell (5-250) with the normals: [snd st] is map_normals. *)
Definition collect_cell_n (ndim : nat) (c2g : list (Z * Z)) (contents : Z -> list cgeom)
  (st : cstate * list (Z * nptr)) (cell : Z) : outcome (cstate * list (Z * nptr)) :=
  obind (collect_cell ndim c2g contents (fst st) cell) (fun st' =>
  if existsb (Z.eqb cell) (cs_collected (fst st)) then Ok (st', snd st)
  else
    obind (get_geometry ndim (contents cell)) (fun qts =>
    let q := fst (fst qts) in let t := snd (fst qts) in let s := snd qts in
    obind (push_normals ndim (q ++ t ++ s) ([], [])) (fun nd =>
    Ok (st', match q, t, s with
             | [], [], [] => snd st
             | _, _, _ => add_normals (normal_stride s) (snd nd) (fst nd) 0 (snd st)
             end)))).
(** NormalMapper::get (composite_collections.hpp 47-53) and the reads of normal[dx], dx < k_ndim
    (composite_intersection.cpp 925-936): a missing id leaves no valid pointer. *)
Fixpoint read_from (data : list xreal) (off n : nat) : outcome (list xreal) :=
  match n with
  | O => Ok []
  | S n' => match nth_error data off with
            | None => UB
            | Some x => obind (read_from data (S off) n') (fun l => Ok (x :: l))
            end
  end.
Definition read_normal (ndim : nat) (m : list (Z * nptr)) (id : Z) : outcome (list xreal) :=
  match zget m id with None => UB | Some p => read_from (fst p) (snd p) ndim end.

(** * The buffers of get_intersections *)
Definition ibuf := nat -> Z.
Definition rbuf := nat -> R.
Definition iset_at (b : ibuf) (i : nat) (v : Z) : ibuf := fun j => if Nat.eqb j i then v else b j.
Definition rset_at (b : rbuf) (i : nat) (v : R) : rbuf := fun j => if Nat.eqb j i then v else b j.
(** queue.fill(k_int, 0, npart_local) (868) *)
Definition fill_zero (N : nat) (b : ibuf) : ibuf := fun j => if Nat.ltb j N then 0 else b j.
(** A particle as the kernels see it: previous and current position and their index tuples. *)
Record bpart := mkBpart { bp_prev : v3; bp_cur : v3; bp_pc : list Z; bp_cc : list Z }.

Section Kernels.
  Variable tree : list (Z * coll).
  Variable m : mhier.
  Variable N : nat.                                (* npart_local *)
  Variable part : nat -> bpart.
  (** 353-360, 571-578, 753-760: d_int and d_real after a hit *)
  Definition write_hit (ndim : nat) (i : nat) (h : bhit) (b : ibuf * rbuf) : ibuf * rbuf :=
    let ib := iset_at (iset_at (iset_at (fst b) i 1) (N + i) (bh_group h)) (N * 2 + i) (bh_id h) in
    let rb := rset_at (rset_at (snd b) i (vx (bh_point h))) (N + i) (vy (bh_point h)) in
    (ib, if Nat.eqb ndim 3 then rset_at rb (N * 2 + i) (vz (bh_point h)) else rb).
  (** the kernel of find_intersections_2d (252-361) for particle i *)
  Definition kernel_2d (lli : v3 -> v3 -> bgeom -> option v3) (b : ibuf * rbuf) (i : nat) : ibuf * rbuf :=
    let p := bp_prev (part i) in let q := bp_cur (part i) in
    match snd (scan tree cc_segs p (lli p q) (scan_cells m (bp_pc (part i)) (bp_cc (part i))) (DBL_MAX, None)) with
    | Some h => write_hit 2 i h b
    | None => (iset_at (fst b) i 0, snd b)
    end.
  (** the quadrilateral kernel of find_intersections_3d (405-579) *)
  Definition kernel_quads (nq : bgeom -> v3 -> Z -> Z -> bool) (grid : Z) (b : ibuf * rbuf) (i : nat) : ibuf * rbuf :=
    let p := bp_prev (part i) in let q := bp_cur (part i) in
    match snd (scan tree cc_quads p (test_quad nq grid p q) (scan_cells m (bp_pc (part i)) (bp_cc (part i))) (DBL_MAX, None)) with
    | Some h => write_hit 3 i h b
    | None => b
    end.
  (** the triangle kernel (589-761): the distance of a hit already found is read back *)
  Definition kernel_tris (nt : bgeom -> v3 -> bool) (b : ibuf * rbuf) (i : nat) : ibuf * rbuf :=
    let p := bp_prev (part i) in let q := bp_cur (part i) in
    let already := negb (fst b i =? 0) in
    let existing := mkV3 (snd b i) (snd b (N + i)%nat) (snd b (N * 2 + i)%nat) in
    let d0 := if already then hit_dist2 existing p else DBL_MAX in
    match snd (scan tree cc_tris p (test_tri nt p q) (scan_cells m (bp_pc (part i)) (bp_cc (part i))) (d0, None)) with
    | Some h => write_hit 3 i h b
    | None => b
    end.
  (** the loops over the particles, in the order the device runs them; nothing is run while nothing is collected
      (243-244, 384-385) *)
  Definition run_2d (lli : v3 -> v3 -> bgeom -> option v3) (order : list nat) (b : ibuf * rbuf) : ibuf * rbuf :=
    match tree with [] => b | _ => fold_left (kernel_2d lli) order b end.
  Definition run_3d (nq : bgeom -> v3 -> Z -> Z -> bool) (nt : bgeom -> v3 -> bool) (grid : Z) (order order' : list nat) (b : ibuf * rbuf) : ibuf * rbuf :=
    match tree with [] => b | _ => fold_left (kernel_tris nt) order' (fold_left (kernel_quads nq grid) order b) end.
End Kernels.

(** What a particle of a returned group carries: the ephemeral properties BOUNDARY_INTERSECTION_POINT,
    BOUNDARY_METADATA and BOUNDARY_NORMAL (None: not written). *)
Record bdata := mkBdata { bd_point : list R; bd_label : Z; bd_geom : Z; bd_normal : option (list xreal) }.
(** 904-936 for one particle *)
Definition particle_data (ndim N : nat) (normals : list (Z * nptr)) (b : ibuf * rbuf) (i : nat) : outcome (nat * bdata) :=
  let point := map (fun dx => snd b (dx * N + i)%nat) (seq 0 ndim) in
  let label := fst b (N + i)%nat in
  let geom_id := fst b (N * 2 + i)%nat in
  match normals with
  | [] => Ok (i, mkBdata point label geom_id None)
  | _ => obind (read_normal ndim normals geom_id) (fun n => Ok (i, mkBdata point label geom_id (Some n)))
  end.
Fixpoint traverse {A B} (f : A -> outcome B) (l : list A) : outcome (list B) :=
  match l with [] => Ok [] | a :: r => obind (f a) (fun b => obind (traverse f r) (fun l' => Ok (b :: l'))) end.
(** 879-940: the groups and their data from the buffers *)
Definition collect_groups (ndim N : nat) (groups : list (Z * list Z)) (iset : list nat) (normals : list (Z * nptr)) (b : ibuf * rbuf)
  : outcome (list (Z * list (nat * bdata))) :=
  let hitting := filter (fun i => fst b i =? 1) iset in
  traverse (fun g =>
    let l := filter (fun i => fst b (N + i)%nat =? fst g) hitting in
    obind (traverse (particle_data ndim N normals b) l) (fun d => Ok (fst g, d))) groups.
(** get_intersections (837-948), after the geometry of the cells of the trajectories was collected
    (C39, C42). [has_prev]: the group has the previous positions. [stale]: what the recycled
    buffers hold. *)
Definition get_intersections_2d (tree : list (Z * coll)) (normals : list (Z * nptr)) (m : mhier) (lli : v3 -> v3 -> bgeom -> option v3)
  (groups : list (Z * list Z)) (N : nat) (part : nat -> bpart) (iset order : list nat) (stale : ibuf * rbuf) (has_prev : bool)
  : outcome (list (Z * list (nat * bdata))) :=
  if has_prev then
    collect_groups 2 N groups iset normals (run_2d tree m N part lli order (fill_zero N (fst stale), snd stale))
  else AssertFail.
Definition get_intersections_3d (tree : list (Z * coll)) (normals : list (Z * nptr)) (m : mhier) (nq : bgeom -> v3 -> Z -> Z -> bool)
  (nt : bgeom -> v3 -> bool) (grid : Z) (groups : list (Z * list Z)) (N : nat) (part : nat -> bpart) (iset order order' : list nat)
  (stale : ibuf * rbuf) (has_prev : bool) : outcome (list (Z * list (nat * bdata))) :=
  if has_prev then
    collect_groups 3 N groups iset normals (run_3d tree m N part nq nt grid order order' (fill_zero N (fst stale), snd stale))
  else AssertFail.

(** * Options *)
Record ci_options := mkCiOptions {
  ci_line_tol : R; ci_newton_tol : R; ci_newton_max : Z; ci_contained_tol : R; ci_modes_factor : R }.
Definition gbind {A B} (x : getres A) (f : A -> getres B) : getres B :=
  match x with Got a => f a | BadAccess => BadAccess end.
(** The constructor of CompositeIntersection 796-806. [num_modes_factor] is then truncated to int. *)
Definition ci_configure (config : @pstore Z R) : getres ci_options :=
  gbind (ps_get_real config "CompositeIntersection/line_intersection_tol" (1 / 100000000)%R) (fun a =>
  gbind (ps_get_real config "CompositeIntersection/newton_tol" (1 / 100000000)%R) (fun b =>
  gbind (ps_get_int config "CompositeIntersection/newton_max_iteration" 51) (fun c =>
  gbind (ps_get_real config "CompositeIntersection/contained_tol" b) (fun d =>
  gbind (ps_get_real config "CompositeIntersection/num_modes_factor" 1%R) (fun e =>
  Got (mkCiOptions a b c d e)))))).
(** NektarCompositeTruncatedReflection (particle_boundary_conditions.cpp 80-101): the intersection object is made without
    the configuration, so with the default argument, an empty store. Result: its options and the
    reset distance. *)
Definition reflection_configure (config : @pstore Z R) : getres (ci_options * R) :=
  gbind (ci_configure []) (fun o =>
  gbind (ps_get_real config "NektarCompositeTruncatedReflection/reset_distance" (1 / 10000000)%R) (fun r => Got (o, r))).
