(** Halos on a 3D mesh as built by the constructor of ParticleMeshInterface:
    include/nektar_interface/particle_mesh_interface.hpp 672-780 (exchange_2d_send_wrapper,
    create_halos_3d), 786-809 (collect_neighbour_ranks, 3D branch), 881-921 (constructor, 3D branches)
    and src/nektar_interface/geometry_transport/geometry_transport_3d.cpp 193-209, 280-331, 351-390. *)
From Coq Require Import Sorting.Permutation.
From Verif Require Import M_Bytes M_Pack2D M_RemoteGeom M_Transport M_Exchange M_MeshIf.
From Verif Require Import M_Util.
From Coq Require Import List.
Import ListNotations.
Local Open Scope Z_scope.

(** A Geometry3D: shape and faces, in the element's face order. *)
Notation elem3d := (shape3 * list geom2d)%type.
(** RemoteGeom3D (remote_geom_3d.hpp): owning rank, id, geometry. *)
Record remote3d := mkRemote3D { r3_rank : Z; r3_id : Z; r3_shape : shape3; r3_faces : list geom2d }.

(** what the integer stream says of a face: GetGlobalID and whether GetShapeType is a triangle *)
Definition face2_of (g : geom2d) : face2 := mkFace2 (g2_id g) (g2_shape g =? int_triangle).
Definition as_faces (l : list (Z * elem3d)) : list (Z * (shape3 * list face2)) :=
  map (fun e => (fst e, (fst (snd e), map face2_of (snd (snd e))))) l.

(** geometry_transport_3d.cpp 316-330: geoms_2d.at(geom_id) throws when the id is absent; the shape
    decides between the quad map, the triangle map and ASSERTL0. Result: (quads, triangles). *)
Fixpoint split_geoms (geoms_2d : list (Z * geom2d)) (ids : list Z)
  : outcome (list (Z * geom2d) * list (Z * geom2d)) :=
  match ids with
  | [] => Ok ([], [])
  | i :: r =>
      match zget geoms_2d i with
      | None => AssertFail
      | Some g =>
          if g2_shape g =? int_quadrilateral
          then obind (split_geoms geoms_2d r) (fun y => Ok ((i, g) :: fst y, snd y))
          else if g2_shape g =? int_triangle
          then obind (split_geoms geoms_2d r) (fun y => Ok (fst y, (i, g) :: snd y))
          else AssertFail
      end
  end.
(** rank_quad_map[rank][geom_id] = ... creates the entry of a rank with its first face: a rank
    without faces of the kind has no entry *)
Definition add_entry (r : Z) (l : list (Z * geom2d)) (m : list (Z * list (Z * geom2d))) : list (Z * list (Z * geom2d)) :=
  match l with [] => m | _ => (r, l) :: m end.
(** deconstructed_geoms, rank_triangle_map, rank_quad_map *)
Record decon := mkDecon
  { dc_streams : list (Z * list Z); dc_tris : list (Z * list (Z * geom2d)); dc_quads : list (Z * list (Z * geom2d)) }.
(** geometry_transport_3d.cpp 280-331 (deconstuct_per_rank_geoms_3d). The two loops over send_ranks
    are run together here: the first cannot fail and neither reads what the other writes for
    another rank. send_ranks is increasing, so the maps are in key order. *)
Fixpoint decon_ranks (me : Z) (geoms_2d : list (Z * geom2d)) (rem : list (Z * list (Z * elem3d))) (send_ranks : list Z)
  : outcome decon :=
  match send_ranks with
  | [] => Ok (mkDecon [] [] [])
  | r :: rest =>
      let d := deconstruct_rank me (as_faces (rank_elems rem r)) in
      obind (split_geoms geoms_2d (snd d)) (fun qt =>
      obind (decon_ranks me geoms_2d rem rest) (fun o =>
        Ok (mkDecon ((r, fst d) :: dc_streams o) (add_entry r (snd qt) (dc_tris o)) (add_entry r (fst qt) (dc_quads o)))))
  end.

(** particle_mesh_interface.hpp 710-722: what rank [me] prepares before any communication *)
Record outgoing := mkOutgoing { og_send : list Z; og_dec : decon }.
Definition halo3d_prepare (size me : Z) (owner : Z -> Z) (geoms_2d : list (Z * geom2d)) (geoms_3d : list (Z * elem3d))
  (geom_map : list (Z * list Z)) (unowned : list Z) : outcome outgoing :=
  obind (exchange_get_send_ranks size me owner geoms_3d geom_map unowned) (fun sr =>
  obind (decon_ranks me geoms_2d (snd sr) (fst sr)) (fun d => Ok (mkOutgoing (fst sr) d))).

(** 672-687: the ranks of a 2D exchange are the keys of its map; 410-413: the bytes for each *)
Definition face_send (fm : list (Z * list (Z * geom2d))) : list Z := map fst fm.
Definition face_msg (fm : Z -> list (Z * list (Z * geom2d))) (a b : Z) : list Z :=
  pack_geoms2d (map (fun kv => mkRemote2D a (fst kv) (snd kv)) (rank_elems (fm a) b)).
(** the integers rank [a] sends to rank [b] (deconstructed_geoms.at) *)
Definition stream_msg (out : Z -> outgoing) (a b : Z) : list Z :=
  match zget (dc_streams (og_dec (out a))) b with Some l => l | None => [] end.

(** 737-751: rank_element_map_2d[rank][gid] = geom, triangles first, then quads *)
Definition put_face (m : list (Z * list (Z * geom2d))) (g : remote2d) : list (Z * list (Z * geom2d)) :=
  zassign m (r2_rank g) (zassign (rank_elems m (r2_rank g)) (r2_id g) (r2_geom g)).
Definition face_map (tris quads : list remote2d) : list (Z * list (Z * geom2d)) :=
  fold_left put_face quads (fold_left put_face tris []).
Definition face_at (m : list (Z * list (Z * geom2d))) (r i : Z) : option geom2d := zget (rank_elems m r) i.
(** reconstruct_geom_3d stores the pointers of the map in the new element *)
Definition with_geoms (m : list (Z * list (Z * geom2d))) (e : elem3) : remote3d :=
  mkRemote3D (e3_rank e) (e3_id e) (e3_shape e)
    (flat_map (fun f => match face_at m (e3_rank e) (f2_id f) with Some g => [g] | None => [] end) (e3_faces e)).

Inductive h3result :=
| H3Ok (tris quads : list remote2d) (elems : list remote3d)
| H3Fail                 (* an assertion or an exception *)
| H3UB
| H3Deadlock
| H3Truncated.

(** create_halos_3d 692-780 as seen on rank [me], [out a] being what rank [a] prepared.
    [ta], [qa], [sa]: the (source, size) messages in the order the ANY_SOURCE receives of the three
    exchanges matched them; [to], [qo], [so]: the orders in which the posted receives complete. *)
Definition create_halos_3d (size me : Z) (out : Z -> outgoing)
  (ta qa sa : list (Z * Z)) (to qo so : list nat) : h3result :=
  let tm a := dc_tris (og_dec (out a)) in
  let qm a := dc_quads (og_dec (out a)) in
  match exchange_recv (num_recv_ranks size (fun a => face_send (tm a)) me) ta (fun a => face_msg tm a me) to with
  | XDeadlock => H3Deadlock | XTruncated => H3Truncated | XOk UB => H3UB | XOk AssertFail => H3Fail
  | XOk (Ok tris) =>
      match exchange_recv (num_recv_ranks size (fun a => face_send (qm a)) me) qa (fun a => face_msg qm a me) qo with
      | XDeadlock => H3Deadlock | XTruncated => H3Truncated | XOk UB => H3UB | XOk AssertFail => H3Fail
      | XOk (Ok quads) =>
          (* 755-777 *)
          if negb (Nat.eqb (length sa) (num_recv_ranks size (fun a => og_send (out a)) me)) then H3Deadlock
          else if negb (forallb (fun ss => Z.of_nat (length (stream_msg out (fst ss) me)) <=? snd ss) sa) then H3Truncated
          (* recv_total_size is an int *)
          else if negb (fold_right Z.add 0 (map snd sa) <? 2 ^ 31) then H3UB
          else
            let packed := sendrecv_geoms_3d (map fst sa) (map (fun ss => Z.to_nat (snd ss)) sa) (fun a => stream_msg out a me) so in
            let fm := face_map tris quads in
            match reconstruct_geoms_3d (fun r i => option_map face2_of (face_at fm r i)) packed with
            | Ok l => H3Ok tris quads (map (with_geoms fm) l)
            | AssertFail => H3Fail
            | UB => H3UB
            end
      end
  end.

(** collect_neighbour_ranks 786-809, ndim == 3: std::set of the owners of the copies *)
Definition neighbour_ranks_3d (elems : list remote3d) : list Z :=
  fold_left (fun s g => set_insert (r3_rank g) s) elems [].

(** constructor 881-903, ndim == 3: claims of all 3D elements into one LocalClaim and one MHGeomMap;
    [bx]: the bounding box of an element *)
Definition interface_claims_3d (m : mhier) (bx : elem3d -> box) (geoms_3d : list (Z * elem3d)) : list Z * list (Z * list Z) :=
  let st := claim_elements m (map (fun e => (fst e, bx (snd e))) geoms_3d) (claim_empty, []) in
  (claim_cells (fst st), snd st).
