(** Bounding boxes of elements: XMapNewton::get_bounding_box (include/nektar_interface/particle_cell_mapping/x_map_newton.hpp
    294-432) on MappingGeneric3D, and BoundingBox::get_bounding_box (src/nektar_interface/particle_cell_mapping/
    x_map_bounding_box.cpp 7-56). [double] is R. *)
From Verif Require Export M_Loop M_Coord M_NewtonBind M_Generic3D.
From Coq Require Import String List.
Import ListNotations.
Open Scope string_scope.
Open Scope list_scope.
Open Scope R_scope.

(** NESO-Particles get_next_multiple (not in /repo): the smallest multiple of [m] that is at least [n] *)
Definition next_multiple (n m : nat) : nat := if Nat.eqb (n mod m) 0 then n else (n + (m - n mod m))%nat.
(** 322-337 *)
Definition kc : list (list R) := [[-1; 0; 0]; [1; 0; 0]; [0; -1; 0]; [0; 1; 0]; [0; 0; -1]; [0; 0; 1]].
Definition kcx : list (list R) := [[0; 1; 0]; [0; 1; 0]; [0; 0; 1]; [0; 0; 1]; [1; 0; 0]; [1; 0; 0]].
Definition kcy : list (list R) := [[0; 0; 1]; [0; 0; 1]; [1; 0; 0]; [1; 0; 0]; [0; 1; 0]; [0; 1; 0]].
Definition tab (t : list (list R)) (f c : nat) : R := nth c (nth f t []) 0.
(** 320, 382-392: the collapsed coordinates of work item [gid] of face [facex] *)
Definition bb_eta (grid_size facex gid : nat) : pt3 :=
  let k_width := 2 / INR (grid_size - 1) in
  let iix := (gid mod grid_size)%nat in
  let iiy := (gid / grid_size)%nat in
  let gx := -1 + INR iix * k_width in
  let gy := -1 + INR iiy * k_width in
  let eta c := tab kc facex c + tab kcx facex c * gx + tab kcy facex c * gy in
  (eta 0%nat, eta 1%nat, eta 2%nat).
(** 394-405. [loc]: what the local memory of this work item holds. *)
Definition bb_sample (d : g3data) (grid_size : nat) (item : nat * nat * buf) : option pt3 :=
  let '(facex, gid, loc) := item in
  do r <- g3_resid d (generic_to_loc_3d (g_shape d) (bb_eta grid_size facex gid)) (0, 0, 0) loc;
  Some (snd (fst r)).
(** 410-413. The minimum and maximum of each direction. *)
Notation bbox := (pt3 * pt3)%type.
Definition bb_reduce (b : bbox) (f : pt3) : bbox :=
  let '((l0, l1, l2), (h0, h1, h2)) := b in
  let '(f0, f1, f2) := f in
  ((fmin l0 f0, fmin l1 f1, fmin l2 f2), (fmax h0 f0, fmax h1 f1, fmax h2 f2)).
(** 358-417. [items]: the work items (face, gid, local memory) in the order in which their atomic updates happen; the six
    atomic updates of an item are on different addresses. *)
Fixpoint bb_run (d : g3data) (grid_size : nat) (items : list (nat * nat * buf)) (b : bbox) : option bbox :=
  match items with
  | nil => Some b
  | i :: r => do f <- bb_sample d grid_size i; bb_run d grid_size r (bb_reduce b f)
  end.
Definition bb_start : bbox := ((DBL_MAX, DBL_MAX, DBL_MAX), (- DBL_MAX, - DBL_MAX, - DBL_MAX)).
(** 425-430, ndim = 3 *)
Definition bb_pad1 (pad_rel pad_abs lo hi : R) : R * R :=
  let width := hi - lo in
  let padding := pad_rel * width + pad_abs in
  (lo - padding, hi + padding).
Definition bb_pad (pad_rel pad_abs : R) (b : bbox) : bbox :=
  let '((l0, l1, l2), (h0, h1, h2)) := b in
  let '(a0, b0) := bb_pad1 pad_rel pad_abs l0 h0 in
  let '(a1, b1) := bb_pad1 pad_rel pad_abs l1 h1 in
  let '(a2, b2) := bb_pad1 pad_rel pad_abs l2 h2 in
  ((a0, a1, a2), (b0, b1, b2)).
(** XMapNewton::get_bounding_box. [items] must be all the work items for the rounded grid size. *)
Definition xmap_bounding_box (d : g3data) (grid_size : nat) (pad_rel pad_abs : R) (items : list (nat * nat * buf)) : option bbox :=
  do b <- bb_run d grid_size items bb_start; Some (bb_pad pad_rel pad_abs b).

(** BoundingBox::get_bounding_box 25-53: grid size (a 64 bit unsigned number) and paddings *)
Definition bb_plan (is_linear : bool) (max_num_modes : Z) (ps : option store) : outcome (Z * R * R) :=
  let '(grid_size, pad_rel, pad_abs) :=
    if is_linear then
      match ps with
      | Some c => (2%Z, get_or (get_real c "get_bounding_box/linear_pad_rel"%string) 0, get_or (get_real c "get_bounding_box/linear_pad_abs"%string) 0)
      | None => (2%Z, 0, 0)
      end
    else
      match ps with
      | Some c => ((((get_or (get_int c "get_bounding_box/nonlinear_grid_size_factor"%string) 4 mod 2 ^ 64) * max_num_modes) mod 2 ^ 64)%Z,
                   get_or (get_real c "get_bounding_box/nonlinear_pad_rel"%string) (5 / 100),
                   get_or (get_real c "get_bounding_box/nonlinear_pad_abs"%string) 0)
      | None => (((4 * max_num_modes) mod 2 ^ 64)%Z, 0, 0)
      end in
  if Z.leb 2 grid_size then
    if Rle_bool 0 pad_rel then
      if Rle_bool 0 pad_abs then Ok (grid_size, pad_rel, pad_abs) else AssertFail
    else AssertFail
  else AssertFail.
(** 7-56. [own_box]: geom->GetBoundingBox(); [local_size]: the work group size of 308-314; [items]: the work items of the
    grid as executed, given the grid size. UB: a non-finite value. *)
Definition get_bounding_box (ndim : nat) (own_box : bbox) (is_linear : bool) (max_num_modes : Z) (ps : option store) (x : xmap)
    (local_size : nat) (items : nat -> list (nat * nat * buf)) : outcome bbox :=
  if Nat.ltb ndim 3 then Ok own_box
  else obind (g3_write x) (fun d => obind (bb_plan is_linear max_num_modes ps) (fun plan =>
    let '(grid_size, pad_rel, pad_abs) := plan in
    let gs := next_multiple (Z.to_nat grid_size) local_size in
    match xmap_bounding_box d gs pad_rel pad_abs (items gs) with Some b => Ok b | None => UB end)).
