(** The 2D constructor of ParticleMeshInterface (particle_mesh_interface.hpp 871-921) up to the
    halo exchange: claims of the triangles, then of the quadrilaterals, into one LocalClaim and two
    MHGeomMaps. [bx]: the bounding box of a geometry (Nektar++). *)
From Verif Require Import M_Bytes M_Pack2D M_RemoteGeom M_Transport M_Exchange M_MeshIf.
From Coq Require Import List.
Import ListNotations.

Definition with_box (bx : geom2d -> box) (l : list (Z * geom2d)) : list (Z * box) :=
  map (fun e => (fst e, bx (snd e))) l.
(** 899-901 *)
Definition interface_claims_2d (m : mhier) (bx : geom2d -> box) (tris quads : list (Z * geom2d))
  : list Z * list (Z * list Z) * list (Z * list Z) :=
  let st1 := claim_elements m (with_box bx tris) (claim_empty, []) in
  let st2 := claim_elements m (with_box bx quads) (fst st1, []) in
  (claim_cells (fst st2), snd st1, snd st2).
