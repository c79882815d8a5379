(** include/nektar_interface/utility_mesh.hpp: make_hex_geom, a curved hexahedron from three coordinate maps.
    [double] is R. What Nektar++ computes from the pieces (GetGeomFactors, Setup, the validity warning 246-247) is not modelled:
    the result is the control points, the tables and the numbering handed to the constructors of Nektar++. *)
From Coq Require Import Reals List Lra Lia.
Import ListNotations.
Open Scope R_scope.

Definition p3 : Type := (R * R * R)%type.
(** 85-88 *)
Definition coords_vertices : list p3 :=
  [(-1, -1, -1); (1, -1, -1); (1, 1, -1); (-1, 1, -1); (-1, -1, 1); (1, -1, 1); (1, 1, 1); (-1, 1, 1)].
(** 90-96 *)
Definition map_edge_to_vertices : list (list nat) :=
  [[0; 1]; [1; 2]; [2; 3]; [3; 0]; [0; 4]; [1; 5]; [2; 6]; [3; 7]; [4; 5]; [5; 6]; [6; 7]; [7; 4]]%nat.
(** 98-101 *)
Definition map_face_to_edges : list (list nat) :=
  [[0; 1; 2; 3]; [0; 5; 8; 4]; [1; 6; 9; 5]; [2; 7; 10; 6]; [3; 4; 11; 7]; [8; 9; 10; 11]]%nat.
(** 103-105 *)
Definition map_face_to_vertices : list (list nat) :=
  [[0; 1; 2; 3]; [0; 1; 4; 5]; [1; 2; 6; 5]; [2; 3; 7; 6]; [1; 3; 7; 4]; [4; 5; 6; 7]]%nat.
(** Array reads; the tables are constant and every index below is in range. *)
Definition tab (t : list (list nat)) (i j : nat) : nat := nth j (nth i t []) 0%nat.
Definition vtx (i : nat) : p3 := nth i coords_vertices (0, 0, 0).

(** PolyEPoints of Nektar++: [n] evenly spaced points of [-1, 1], one point being 0 *)
Definition polyE (n i : nat) : R := if Nat.eqb n 1 then 0 else -1 + INR i * (2 / INR (n - 1)).
(** 107-115 *)
Definition Znormalised (n i : nat) : R := (polyE n i + 1) / 2.

(** 134-152 *)
Definition qpoint1 (n i : nat) (a b : p3) : p3 :=
  let '(ax, ay, az) := a in let '(bx, by_, bz) := b in
  let dx := bx - ax in let dy := by_ - ay in let dz := bz - az in
  (ax + Znormalised n i * dx, ay + Znormalised n i * dy, az + Znormalised n i * dz).
(** 178-209 *)
Definition qpoint2 (n i j : nat) (a b c : p3) : p3 :=
  let '(ax, ay, az) := a in let '(bx, by_, bz) := b in let '(cx, cy, cz) := c in
  let d0x := bx - ax in let d0y := by_ - ay in let d0z := bz - az in
  let d1x := cx - ax in let d1y := cy - ay in let d1z := cz - az in
  (ax + Znormalised n i * d0x + Znormalised n j * d1x, ay + Znormalised n i * d0y + Znormalised n j * d1y,
   az + Znormalised n i * d0z + Znormalised n j * d1z).

(** PointGeom(3, id, x, y, z); SegGeom(id, 3, vertices, curve); QuadGeom(id, edges, curve). A curve has an id and points. *)
Record pgeom := mkP { p_id : nat; p_xyz : p3 }.
Record sgeom := mkS { s_id : nat; s_verts : list pgeom; s_curve : nat; s_points : list pgeom }.
Record qgeom := mkQ { q_id : nat; q_edges : list sgeom; q_curve : nat; q_points : list pgeom }.
(** the two counters vx_index and cx_index 123-124 *)
Definition counters : Type := (nat * nat)%type.

Section Make.
  Context (n : nat) (xmapx xmapy xmapz : p3 -> R).
  (** the coordinates of a new point: 126-130, 162-166, 224-228 *)
  Definition new_point (ref : p3) (vx : nat) : pgeom := mkP vx (xmapx ref, xmapy ref, xmapz ref).
  (** a list of points pushed one after the other, each taking the next id *)
  Fixpoint push_points (refs : list p3) (vx : nat) : list pgeom * nat :=
    match refs with
    | [] => ([], vx)
    | r :: l => let '(ps, vx') := push_points l (S vx) in (new_point r vx :: ps, vx')
    end.
  (** 125-131 *)
  Definition make_vertices : list pgeom * nat := push_points (map vtx (seq 0 8)) 0.
  (** one turn of the loop 154-175 *)
  Definition make_edge (v : list pgeom) (ex : nat) (k : counters) : sgeom * counters :=
    let '(vx, cx) := k in
    let refs := map (fun mx => qpoint1 n mx (vtx (tab map_edge_to_vertices ex 0)) (vtx (tab map_edge_to_vertices ex 1))) (seq 0 n) in
    let '(ps, vx') := push_points refs vx in
    let verts := map (fun j => nth (tab map_edge_to_vertices ex j) v (mkP 0 (0, 0, 0))) [0; 1]%nat in
    (mkS ex verts cx ps, (vx', S cx)).
  (** one turn of the loop 211-238: the fourth vertex of the table is the second direction (223), mx is the outer loop *)
  Definition make_face (e : list sgeom) (fx : nat) (k : counters) : qgeom * counters :=
    let '(vx, cx) := k in
    let refs := flat_map (fun mx => map (fun my => qpoint2 n mx my (vtx (tab map_face_to_vertices fx 0))
                  (vtx (tab map_face_to_vertices fx 1)) (vtx (tab map_face_to_vertices fx 3))) (seq 0 n)) (seq 0 n) in
    let '(ps, vx') := push_points refs vx in
    let edges := map (fun j => nth (tab map_face_to_edges fx j) e (mkS 0 [] 0 [])) [0; 1; 2; 3]%nat in
    (mkQ fx edges cx ps, (vx', S cx)).
  Fixpoint many {A : Type} (mk : nat -> counters -> A * counters) (l : list nat) (k : counters) : list A * counters :=
    match l with
    | [] => ([], k)
    | i :: l => let '(a, k1) := mk i k in let '(r, k2) := many mk l k1 in (a :: r, k2)
    end.
  Record hexgeom := mkHex { h_verts : list pgeom; h_edges : list sgeom; h_faces : list qgeom }.
  (** make_hex_geom 33-249 *)
  Definition make_hex_geom : hexgeom :=
    let '(v, vx) := make_vertices in
    let '(e, k1) := many (make_edge v) (seq 0 12) (vx, 0%nat) in
    let '(q, _) := many (make_face e) (seq 0 6) k1 in
    mkHex v e q.
End Make.
