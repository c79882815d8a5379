(** Model of ParticleMeshInterface::get_point_in_subdomain (include/nektar_interface/particle_mesh_interface.hpp
    1027-1068) with get_element_2d (src/nektar_interface/geometry_transport/geometry_transport_2d.cpp 32-43),
    get_element_3d (geometry_transport_3d.cpp 40-65) and get_vertex_average
    (src/nektar_interface/composite_interaction/composite_utility.cpp 85-106, any coordim).
    [double] is R. Nektar++ parts given as arguments: the elements (S_Subdomain.element: shape, coordim, map; GetVertex i
    is the image of corner i) and Geometry::ContainsPoint. *)
From Coq Require Import Reals List ZArith.
From Verif Require Export S_Subdomain.
Import ListNotations.
Open Scope R_scope.

(** The local MeshGraph: one std::map per shape, in the order of iteration (ascending ids). *)
Record mgraph := { g_tris : list (Z * element); g_quads : list (Z * element); g_tets : list (Z * element);
  g_pyrs : list (Z * element); g_prisms : list (Z * element); g_hexs : list (Z * element) }.
(** Outcomes: the point written to the caller's array, a failed NESOASSERT, an exception of vector::at. *)
Inductive subres := SPoint (p : list R) | SAssert | SThrow.

(** get_element_2d, geometry_transport_2d.cpp 32-43: the first quadrilateral, else the first triangle, else assertion *)
Definition get_element_2d (g : mgraph) : option element :=
  match g_quads g with
  | (_, e) :: _ => Some e
  | [] => match g_tris g with (_, e) :: _ => Some e | [] => None end
  end.
(** get_element_3d, geometry_transport_3d.cpp 40-65 *)
Definition get_element_3d (g : mgraph) : option element :=
  match g_tets g with
  | (_, e) :: _ => Some e
  | [] => match g_pyrs g with
          | (_, e) :: _ => Some e
          | [] => match g_prisms g with
                  | (_, e) :: _ => Some e
                  | [] => match g_hexs g with (_, e) :: _ => Some e | [] => None end
                  end
          end
  end.
(** GetVertex(i)->GetCoords: the missing components of a 1D or 2D point are 0 *)
Definition vertex (e : element) (i : nat) (a : nat) : R := el_map e (corner (el_shape e) i) a.
(** get_vertex_average, composite_utility.cpp 85-106: None if coordim >= 4 (assertion 90); the sum loop 95-101 starts from
    0 and adds vertex after vertex *)
Definition get_vertex_average (e : element) : option (list R) :=
  if Nat.ltb (el_space e) 4 then
    Some (map (fun dx => fold_left (fun acc vx => acc + vertex e vx dx) (seq 0 (vertices_of (el_shape e))) 0
                         / INR (vertices_of (el_shape e)))
              (seq 0 (el_space e)))
  else None.
(** 1046-1053: coords(3): the point, padded with zeros *)
Definition coords3 (p : list R) : R * R * R := (nth 0 p 0, nth 1 p 0, nth 2 p 0).
(** 1057-1063 v0->GetCoords(coords) overwrites the first coordim entries of coords (the others keep their value) *)
Definition overwrite (e : element) (c : R * R * R) : R * R * R :=
  let w a := if Nat.ltb a (el_space e) then vertex e 0 a else comp c a in
  (w 0%nat, w 1%nat, w 2%nat).
(** 1027-1068; [ndim] is the mesh dimension, [contains] Geometry::ContainsPoint *)
Definition get_point_in_subdomain (contains : element -> R * R * R -> bool) (ndim : nat) (g : mgraph) : subres :=
  if negb (Nat.eqb ndim 2 || Nat.eqb ndim 3) then SAssert else
  match (if Nat.eqb ndim 2 then get_element_2d g else get_element_3d g) with
  | None => SAssert
  | Some e =>
      match get_vertex_average e with
      | None => SAssert
      | Some tmp =>
          if Nat.ltb (List.length tmp) ndim then SThrow else
          let point := firstn ndim tmp in
          let coords := coords3 point in
          if contains e coords then SPoint point
          else
            let coords' := overwrite e coords in
            if contains e coords' then SPoint (map (comp coords') (seq 0 ndim)) else SAssert
      end
  end.
