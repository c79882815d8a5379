(** Specification vocabulary for C32-C34. *)
From Coq Require Import Sorting.Sorted Reals.
From Verif Require Import M_Bytes M_Pack2D M_RemoteGeom M_Transport M_Exchange S_Exchange M_MeshIf S_Grid S_MeshIf M_Halo.
From Coq Require Import ZArith List.
Import ListNotations.
Local Open Scope Z_scope.

(** the fine cell with number [g] has Cartesian index [t] *)
Definition cell_at (m : mhier) (g : Z) (t : list Z) : Prop :=
  exists coarse fine, valid_tuple coarse (mh_dims m) /\ valid_tuple fine (repeat (mh_nf m) (mh_ndim m)) /\
    g = mh_linear m (coarse ++ fine) /\ t = subcell (mh_nf m) coarse fine.
(** indices at distance at most [w] out of [n], on a circle or a line *)
Definition near_dim (periodic : bool) (w n x y : Z) : Prop :=
  if periodic then exists k, Z.abs (y - x + k * n) <= w else Z.abs (y - x) <= w.
Definition near (periodic : bool) (w : Z) (counts t u : list Z) : Prop :=
  length t = length counts /\ length u = length counts /\
  forall d n x y, nth_error counts d = Some n -> nth_error t d = Some x -> nth_error u d = Some y -> near_dim periodic w n x y.
(** the width is at most the number of cells in every direction *)
Definition width_ok (m : mhier) (w : Z) : Prop := 0 <= w /\ Forall (fun n => w <= n) (fine_counts m).

(** * What ranks know *)
(** rank [b] knows the element [x] (owner, id, geometry): its own or a copy *)
Definition knows (b : Z) (st : rank_state) (x : remote2d) : Prop :=
  (r2_rank x = b /\ In (r2_id x, r2_geom x) (rk_own st)) \/ In x (rk_tris st ++ rk_quads st).
Definition key_of (x : remote2d) : Z * Z := (r2_rank x, r2_id x).

(** A consistent distributed state: [elems a] are the elements of rank a. Every rank has its own
    elements; every copy it holds is of another rank's element, of the right kind, no element twice. *)
Definition elems_wf (size : Z) (m : mhier) (bx : geom2d -> box) (elems : Z -> list (Z * geom2d)) : Prop :=
  forall a, 0 <= a < size ->
    StronglySorted Z.lt (map fst (elems a)) /\
    forall id g, In (id, g) (elems a) -> g2_id g = id /\ (is_tri g = true \/ is_quad g = true) /\ length (bx g) = mh_ndim m.
Definition state_wf (size : Z) (elems : Z -> list (Z * geom2d)) (a : Z) (st : rank_state) : Prop :=
  rk_own st = elems a /\
  (forall x, In x (rk_tris st ++ rk_quads st) -> 0 <= r2_rank x < size /\ r2_rank x <> a /\ In (r2_id x, r2_geom x) (elems (r2_rank x))) /\
  (forall x, In x (rk_tris st) -> is_tri (r2_geom x) = true) /\ (forall x, In x (rk_quads st) -> is_quad (r2_geom x) = true) /\
  NoDup (map key_of (rk_tris st ++ rk_quads st)).
(** the messages a rank could send can be packed, and [size] of them are counted by an int *)
Definition sendable (size a : Z) (st : rank_state) : Prop :=
  let all := remotes a (rk_own st) ++ rk_tris st ++ rk_quads st in
  Forall (fun x => remote2d_okb x = true) all /\ Z.of_nat (length (pack_geoms2d all)) * size < 2 ^ 31.
(** [x]'s bounding box overlaps the cell [g] *)
Definition overlaps (m : mhier) (bx : geom2d -> box) (g : Z) (x : remote2d) : Prop :=
  exists c, fine_cell m g c /\ (0 < overlap_volume (bx (r2_geom x)) c)%R.
(** the halo cells of a rank: near a cell it claimed, not owned *)
Definition halo_cell (m : mhier) (w : Z) (pbc : bool) (owned unowned : list Z) (g : Z) : Prop :=
  ~ In g owned /\ exists b t u, In b (owned ++ unowned) /\ cell_at m b t /\ cell_at m g u /\ near pbc w (fine_counts m) t u.

(** all ranks are consistent and able to send *)
Definition halo_ready (size : Z) (elems : Z -> list (Z * geom2d)) (sts : Z -> rank_state) : Prop :=
  forall a, 0 <= a < size -> state_wf size elems a (sts a) /\ sendable size a (sts a).
(** [x] is an element of the mesh *)
Definition element (size : Z) (elems : Z -> list (Z * geom2d)) (x : remote2d) : Prop :=
  0 <= r2_rank x < size /\ In (r2_id x, r2_geom x) (elems (r2_rank x)).
(** the owner of each cell knows all elements overlapping it *)
Definition owners_know (size : Z) (m : mhier) (bx : geom2d -> box) (owner : Z -> Z) (elems : Z -> list (Z * geom2d)) (sts : Z -> rank_state) : Prop :=
  forall g x, 0 <= owner g < size -> element size elems x -> overlaps m bx g x -> knows (owner g) (sts (owner g)) x.
(** any number of calls one after the other, with any widths *)
Inductive halo_history (size : Z) (m : mhier) (bx : geom2d -> box) (owner : Z -> Z) (owned unowned : Z -> list Z) : (Z -> rank_state) -> (Z -> rank_state) -> Prop :=
| HHNil sts : halo_history size m bx owner owned unowned sts sts
| HHCall sts sts' sts'' w pbc : halo_history size m bx owner owned unowned sts sts' -> (forall a, 0 <= a < size -> sendable size a (sts' a)) ->
    halo_call size m bx owner owned unowned w pbc sts' sts'' -> halo_history size m bx owner owned unowned sts sts''.
