(** Specification vocabulary for C91. *)
From Coq Require Import Sorting.Sorted Reals.
From Verif Require Import M_Bytes M_Pack2D M_RemoteGeom M_Transport M_Exchange S_Exchange M_MeshIf S_Grid S_MeshIf M_Halo S_Halo M_Halo3D S_Halo3D M_HaloExt3.
From Coq Require Import ZArith List.
Import ListNotations.
Local Open Scope Z_scope.

Definition key_of3 (x : remote3d) : Z * Z := (r3_rank x, r3_id x).
(** rank [b] knows the 3D element [x] (owner, id, geometry): its own or a copy *)
Definition knows3 (b : Z) (st : rank_state3) (x : remote3d) : Prop :=
  (r3_rank x = b /\ In (r3_id x, r3_geom x) (s3_own st)) \/ In x (s3_elems st).
(** the face [f] of the element [x], labelled by the rank that owns the element *)
Definition face_of (x : remote3d) (f : remote2d) : Prop :=
  r2_rank f = r3_rank x /\ In (r2_geom f) (r3_faces x) /\ r2_id f = g2_id (r2_geom f).

(** The mesh: [faces a], [elems a] are the 2D and 3D objects of rank [a], by increasing id. A face
    carries its id and is a triangle or a quadrilateral; an element has the number and kind of faces
    of its shape, all of them objects of the rank, and a bounding box of the right dimension. *)
Definition mesh3_wf (size : Z) (m : mhier) (bx : elem3d -> box) (faces : Z -> list (Z * geom2d)) (elems : Z -> list (Z * elem3d)) : Prop :=
  forall a, 0 <= a < size ->
    (StronglySorted Z.lt (map fst (faces a)) /\ forall id g, In (id, g) (faces a) -> g2_id g = id /\ (is_tri g = true \/ is_quad g = true)) /\
    (StronglySorted Z.lt (map fst (elems a)) /\ forall id e, In (id, e) (elems a) ->
       elem3d_ok e /\ (forall f, In f (snd e) -> In (g2_id f, f) (faces a)) /\ length (bx e) = mh_ndim m).
(** A consistent state: the rank has its own objects; every copy is of another rank's object, none
    twice, and the faces of the copied elements are among the copied faces. *)
Definition state_wf3 (size : Z) (faces : Z -> list (Z * geom2d)) (elems : Z -> list (Z * elem3d)) (a : Z) (st : rank_state3) : Prop :=
  state_wf size faces a (s3_2d st) /\ s3_own st = elems a /\
  (forall x, In x (s3_elems st) -> 0 <= r3_rank x < size /\ r3_rank x <> a /\ In (r3_id x, r3_geom x) (elems (r3_rank x))) /\
  NoDup (map key_of3 (s3_elems st)) /\
  (forall x f, In x (s3_elems st) -> face_of x f -> In f (rk_tris (s3_2d st) ++ rk_quads (s3_2d st))).
(** messages that can be packed and are counted by an int: the faces as in 2D, three integers per
    element and one per face *)
Definition sendable3 (size a : Z) (st : rank_state3) : Prop :=
  sendable size a (s3_2d st) /\
  fold_right Z.add 0 (map (fun x => 3 + Z.of_nat (length (r3_faces x))) (remotes3 a (s3_own st) ++ s3_elems st)) * size < 2 ^ 31.
Definition overlaps3 (m : mhier) (bx : elem3d -> box) (g : Z) (x : remote3d) : Prop :=
  exists c, fine_cell m g c /\ (0 < overlap_volume (bx (r3_geom x)) c)%R.
Definition halo_ready3 (size : Z) (faces : Z -> list (Z * geom2d)) (elems : Z -> list (Z * elem3d)) (sts : Z -> rank_state3) : Prop :=
  forall a, 0 <= a < size -> state_wf3 size faces elems a (sts a) /\ sendable3 size a (sts a).
Definition element3 (size : Z) (elems : Z -> list (Z * elem3d)) (x : remote3d) : Prop :=
  0 <= r3_rank x < size /\ In (r3_id x, r3_geom x) (elems (r3_rank x)).
(** the owner of each cell knows all elements overlapping it *)
Definition owners_know3 (size : Z) (m : mhier) (bx : elem3d -> box) (owner : Z -> Z) (elems : Z -> list (Z * elem3d)) (sts : Z -> rank_state3) : Prop :=
  forall g x, 0 <= owner g < size -> element3 size elems x -> overlaps3 m bx g x -> knows3 (owner g) (sts (owner g)) x.
(** any number of calls one after the other, with any widths *)
Inductive halo_history3 (size : Z) (m : mhier) (bx : elem3d -> box) (owner : Z -> Z) (owned unowned : Z -> list Z) : (Z -> rank_state3) -> (Z -> rank_state3) -> Prop :=
| HHNil3 sts : halo_history3 size m bx owner owned unowned sts sts
| HHCall3 sts sts' sts'' w pbc : halo_history3 size m bx owner owned unowned sts sts' -> (forall a, 0 <= a < size -> sendable3 size a (sts' a)) ->
    halo_call3 size m bx owner owned unowned w pbc sts' sts'' -> halo_history3 size m bx owner owned unowned sts sts''.
