(** Specification vocabulary for C39-C42. *)
From Coq Require Import Sorting.Permutation.
From Verif Require Import M_Bytes M_MeshIf S_Grid S_MeshIf S_Halo M_LinePlane M_Composite.
From Coq Require Import List.
Import ListNotations.
Local Open Scope Z_scope.

(** * Trajectories and cells (C39). Indices are those of the fine grid, per dimension. *)
(** the interval between two indices meets the grid / contains [x] clipped to the grid *)
Definition meets (n c0 c1 : Z) : Prop := Z.min c0 c1 < n /\ 0 <= Z.max c0 c1.
Definition between (n c0 c1 x : Z) : Prop := 0 <= x < n /\ Z.min c0 c1 <= x <= Z.max c0 c1.
(** the box of index tuples spanned by a trajectory from index tuple [a] to [b] *)
Definition trajectory_meets (counts a b : list Z) : Prop :=
  length a = length counts /\ length b = length counts /\
  forall d n x y, nth_error counts d = Some n -> nth_error a d = Some x -> nth_error b d = Some y -> meets n x y.
Definition spanned (counts a b t : list Z) : Prop :=
  length t = length counts /\
  forall d n x y z, nth_error counts d = Some n -> nth_error a d = Some x -> nth_error b d = Some y -> nth_error t d = Some z -> between n x y z.

(** * Hits (C40) *)
(** an element of a cell in the list, and where the trajectory hits it *)
Definition candidate (tree : list (Z * coll)) (sel : coll -> list delem) (test : bgeom -> option v3) (cells : list Z) (e : delem) (i : v3) : Prop :=
  exists c cc, In c cells /\ M_Exchange.zget tree c = Some cc /\ In e (sel cc) /\ test (de_geom e) = Some i.
Definition is_hit (e : delem) (i : v3) (h : bhit) : Prop := h = mkBhit (de_group e) (bg_id (de_geom e)) i.
Definition sq_dist (p i : v3) : R := ((vx p - vx i) ^ 2 + (vy p - vy i) ^ 2 + (vz p - vz i) ^ 2)%R.
(** [r] is the nearest of the candidates closer than the largest double *)
Definition nearest (p : v3) (cand : delem -> v3 -> Prop) (r : option bhit) : Prop :=
  match r with
  | Some h => exists e i, cand e i /\ is_hit e i h /\ (sq_dist p i < DBL_MAX)%R /\
                forall e' i', cand e' i' -> (sq_dist p i <= sq_dist p i')%R
  | None => forall e i, cand e i -> (DBL_MAX <= sq_dist p i)%R
  end.

(** * Boundary groups (C41) *)
Definition in_group (groups : list (Z * list Z)) (label c : Z) : Prop := exists comps, In (label, comps) groups /\ In c comps.

(** * Collected cells (C42) *)
(** the element [x] of the container as stored on the device *)
Definition stored (c2g : list (Z * Z)) (x : cgeom) (e : delem) : Prop :=
  M_Exchange.zget c2g (cg_composite x) = Some (de_group e) /\ de_geom e = cg_geom x.
(** [cc] stores the elements [l], each in the list of its kind and in order *)
Definition stores (c2g : list (Z * Z)) (l : list cgeom) (cc : coll) : Prop :=
  Forall2 (stored c2g) (filter (fun x => bg_shape (cg_geom x) =? 4) l) (cc_quads cc) /\
  Forall2 (stored c2g) (filter (fun x => bg_shape (cg_geom x) =? 3) l) (cc_tris cc) /\
  Forall2 (stored c2g) (filter (fun x => bg_shape (cg_geom x) =? 2) l) (cc_segs cc).
(** what a rank holds after having been asked for the cells [asked] *)
Definition holds_cells (c2g : list (Z * Z)) (contents : Z -> list cgeom) (asked : list Z) (st : cstate) : Prop :=
  (forall c, In c (cs_held st) <-> In c asked) /\
  (forall c, In c asked -> contents c <> [] -> exists cc, M_Exchange.zget (cs_tree st) c = Some cc /\ stores c2g (contents c) cc) /\
  (forall c cc, M_Exchange.zget (cs_tree st) c = Some cc -> In c asked /\ contents c <> []).
(** contents that can be stored: kinds of the right dimension, composites with a group *)
Definition contents_ok (ndim : nat) (c2g : list (Z * Z)) (contents : Z -> list cgeom) : Prop :=
  (ndim = 2%nat \/ ndim = 3%nat) /\
  forall c x, In x (contents c) -> shape_ok ndim (cg_geom x) = true /\ exists g, M_Exchange.zget c2g (cg_composite x) = Some g.
(** the states of the ranks after a history of collective requests *)
Inductive collect_history (size : Z) (ndim : nat) (c2g : list (Z * Z)) (contents : Z -> list cgeom) : list (Z -> list Z) -> (Z -> cstate) -> Prop :=
| CHNil : collect_history size ndim c2g contents [] (fun _ => cs_init)
| CHStep hist sts reqs sts' : collect_history size ndim c2g contents hist sts ->
    (forall a, 0 <= a < size -> collect_geometry size ndim c2g contents sts reqs a = Ok (sts' a)) ->
    collect_history size ndim c2g contents (hist ++ [reqs]) sts'.
Definition asked_by (hist : list (Z -> list Z)) (a : Z) : list Z := flat_map (fun r => r a) hist.

(** * End to end: no hit is missed *)
(** the first [n] coordinates, and the index tuple of a point for a per-dimension index map *)
Definition coords (n : nat) (p : v3) : list R := firstn n [vx p; vy p; vz p].
Definition index_of (cart : nat -> R -> Z) (n : nat) (p : v3) : list Z :=
  map (fun dx => cart (fst dx) (snd dx)) (combine (seq 0 n) (coords n p)).
(** [cart] numbers the fine cells: increasing, and a number in range is that of a cell holding the
    point *)
Definition cart_ok (m : mhier) (cart : nat -> R -> Z) : Prop :=
  (forall d x y, (x <= y)%R -> cart d x <= cart d y) /\
  (forall d x o n, nth_error (mh_origin m) d = Some o -> nth_error (fine_counts m) d = Some n -> 0 <= cart d x < n ->
     (o + IZR (cart d x) * mh_cw m <= x <= o + (IZR (cart d x) + 1) * mh_cw m)%R).
(** the boundary elements of all ranks; [x] is hit at [i] by the test, in reach: within its padded
    box and in an owned cell of the grid *)
Definition in_reach (m : mhier) (cart : nat -> R -> Z) (bx : bgeom -> list (R * R)) (has_owner : Z -> bool) (g : bgeom) (i : v3) : Prop :=
  in_interior (coords (mh_ndim m) i) (padded box_padding (bx g)) /\
  exists c, cell_at m c (index_of cart (mh_ndim m) i) /\ has_owner c = true.
