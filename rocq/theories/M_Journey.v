(** Which elements the particle to cell mapping knows, and its choice by dimension:
    src/nektar_interface/particle_cell_mapping/{nektar_graph_local_mapper,map_particles_2d,map_particles_3d}.cpp.
    The pieces (initial halo exchange, pipelines, cell translation) are M_Exchange, M_Halo3D, M_Regular, M_Util. *)
From Coq Require Import ZArith.
From Verif Require Import M_Bytes M_Pack2D M_RemoteGeom M_Transport M_Exchange M_Halo3D M_Util M_Regular.
From Coq Require Import List.
Import ListNotations.
Local Open Scope Z_scope.

(** map_particles_3d.cpp 26-50, get_all_elements_3d, assemble_geometry_container_3d: the elements of the graph (in id order),
    then the remote ones held by the mesh interface. [mk rank id geometry] is what the mappers read off one element
    (box, vertices, Newton data). The rank given to local elements is the rank of the communicator
    (map_particles_newton.hpp, map_particles_3d_regular.cpp: comm_pair.rank_parent, 182, 68), of remote ones the stored rank. *)
Definition mapper_elements_3d (mk : Z -> Z -> elem3d -> mgeom) (me : Z) (own : list (Z * elem3d)) (remote : list remote3d) : list mgeom :=
  map (fun kv => mk me (fst kv) (snd kv)) own ++
  map (fun x => mk (r3_rank x) (r3_id x) (r3_shape x, r3_faces x)) remote.
(** map_particles_2d.cpp 16-23 and 28-47, map_particles_2d_regular.cpp: triangles and quads of the graph, remote_triangles,
    remote_quads. Simplification: the graph's elements are merged in id order in the code; only ties in the lookup order
    depend on it. *)
Definition mapper_elements_2d (mk : Z -> Z -> geom2d -> mgeom) (me : Z) (tris quads : list (Z * geom2d)) (rtris rquads : list remote2d) : list mgeom :=
  map (fun kv => mk me (fst kv) (snd kv)) (tris ++ quads) ++
  map (fun x => mk (r2_rank x) (r2_id x) (r2_geom x)) (rtris ++ rquads).

(** NektarGraphLocalMapper: constructor 15-33 (assertion: None) and map 39-47. *)
Definition graph_local_map (ndim : Z) (conf : store) (geoms : list mgeom) (host : particle -> particle)
    (grp : list (list particle)) (map_cell : Z) : option mresult :=
  if ndim =? 2 then Some (map_particles_2d conf geoms grp map_cell)
  else if ndim =? 3 then Some (map_particles_3d conf geoms host grp map_cell)
  else None.
(** particle_group_callback 5-13: the particles get a property of ndim reals for their reference position (contents
    unspecified until the first map). *)
Definition particle_group_callback (ndim : nat) (contents : list R) (q : particle) : particle :=
  {| q_pos := q_pos q; q_cell := q_cell q; q_rank := q_rank q; q_ref := firstn ndim (contents ++ repeat 0%R ndim) |}.

(** The numbers of the shape types (Nektar++ ShapeType.hpp), as GetShapeType returns them. *)
Definition shape_of_3d (e : elem3d) : Z :=
  match fst e with M_RemoteGeom.Tet => eTetrahedron | M_RemoteGeom.Pyr => ePyramid | M_RemoteGeom.Prism => ePrism | M_RemoteGeom.Hex => eHexahedron end.
(** CellIDTranslation's constructor (cell_id_translation.hpp 101-123) on the elements of one rank: the per shape maps of the
    graph merged by get_all_elements_2d / get_all_elements_3d. *)
Definition of_shape {E} (shape : E -> Z) (s : Z) (own : list (Z * E)) : list (Z * (Z * Z)) :=
  map (fun kv => (fst kv, (fst kv, s))) (filter (fun kv => shape (snd kv) =? s) own).
Definition rank_translation_3d (own : list (Z * elem3d)) : option cell_ids :=
  construct_maps (get_all_elements_3d (of_shape shape_of_3d eTetrahedron own) (of_shape shape_of_3d ePyramid own)
                    (of_shape shape_of_3d ePrism own) (of_shape shape_of_3d eHexahedron own)).
Definition rank_translation_2d (tris quads : list (Z * geom2d)) : option cell_ids :=
  construct_maps (get_all_elements_2d (map (fun kv => (fst kv, (fst kv, eTriangle))) tris)
                    (map (fun kv => (fst kv, (fst kv, eQuadrilateral))) quads)).
