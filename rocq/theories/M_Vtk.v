(** include/nektar_interface/utility_mesh_plotting.hpp (VTKGeometryWriter, write_vtk_cells_owned, write_vtk_cells_halo) and
    tools/MeshPlotting. The file is the list of its words; a line of the header is one word. Simplified: a number is kept as
    such (the code prints six significant digits); vertex, edge and element objects are records, an element also has the
    address [g_ptr] the property map is keyed on; PointGeom's GetVid and GetGlobalID are the same number. *)
From Verif Require Export M_Util M_Exchange.
From Coq Require Import Reals ZArith String List DecimalString.
Import ListNotations.
Open Scope string_scope. Open Scope list_scope. Open Scope Z_scope.

Record vert := mkV { v_gid : Z; v_dim : Z; v_x : R; v_y : R; v_z : R }.
Record edge := mkE { e_gid : Z; e_verts : list vert }.
Record vgeo := mkG { g_ptr : nat; g_dim : Z; g_edges : list edge; g_verts : list vert; g_shape : Z }.
(** the members geoms, geom_props and rank 27-28, 39 *)
Record vwriter := mkVW { vw_rank : Z; vw_geoms : list vgeo; vw_props : list (nat * R) }.
(** 41-42 *)
Definition vw_new (rank : Z) : vwriter := mkVW rank [] [].
Fixpoint nfind (m : list (nat * R)) (k : nat) : option R :=
  match m with [] => None | (k', v) :: r => if Nat.eqb k k' then Some v else nfind r k end.
(** push_back 52-56: the newest entry of an address is the one found *)
Definition push_back (g : vgeo) (prop : R) (w : vwriter) : vwriter :=
  mkVW (vw_rank w) (vw_geoms w ++ [g]) ((g_ptr g, prop) :: vw_props w).
(** push_back without a property 64-66 *)
Definition push_back0 (g : vgeo) (w : vwriter) : vwriter := push_back g 0%R w.
(** get_property 30-36 *)
Definition get_property (w : vwriter) (g : vgeo) : R := match nfind (vw_props w) (g_ptr g) with Some x => x | None => 0%R end.

Inductive tok := TW (s : string) | TI (i : Z) | TR (x : R).
(** VAssert: NESOASSERT; VThrow: std::out_of_range *)
Inductive vout := VOk (file : list tok) | VAssert | VThrow.
Fixpoint all_some {A} (l : list (option A)) : option (list A) :=
  match l with [] => Some [] | x :: r => match x, all_some r with Some a, Some s => Some (a :: s) | _, _ => None end end.

(** 127-134: the enumerators of Nektar++ in the order ePoint 1 ... eHexahedron 8 *)
Definition map_shape_to_vtk : list (Z * Z) := [(1, 1); (2, 3); (3, 5); (4, 9); (5, 10); (8, 12); (7, 13); (6, 14)].

(** 74-93: the maps vertices and edges, keyed on the global ids *)
Definition all_edges (w : vwriter) : list edge := flat_map g_edges (vw_geoms w).
Definition vertices (w : vwriter) : list (Z * vert) :=
  zassign_all (flat_map (fun e => map (fun v => (v_gid v, v)) (e_verts e)) (all_edges w)) [].
Definition edges (w : vwriter) : list (Z * edge) := zassign_all (map (fun e => (e_gid e, e)) (all_edges w)) [].
(** 105-109, 122: ids given in the order of the map *)
Definition gid_to_vid (w : vwriter) : list (Z * Z) :=
  zassign_all (combine (map fst (vertices w)) (map Z.of_nat (seq 0 (List.length (vertices w))))) [].
(** 111-120 *)
Definition point_toks (v : vert) : list tok :=
  if v_dim v =? 1 then [TR (v_x v); TR 0; TR 0] else if v_dim v =? 2 then [TR (v_x v); TR (v_y v); TR 0] else [TR (v_x v); TR (v_y v); TR (v_z v)].
(** 141-149; None: `at` throws *)
Definition edge_ints (w : vwriter) (e : edge) : option (list Z) :=
  match e_verts e with
  | v0 :: v1 :: _ => match zget (gid_to_vid w) (v_gid v0), zget (gid_to_vid w) (v_gid v1) with Some a, Some b => Some [2; a; b] | _, _ => None end
  | _ => None
  end.
(** 155-163: operator[] gives 0 for an unknown id (it also inserts it, which no later read sees) *)
Definition poly_ints (w : vwriter) (g : vgeo) : list Z :=
  Z.of_nat (List.length (g_verts g)) :: map (fun v => match zget (gid_to_vid w) (v_gid v) with Some a => a | None => 0 end) (g_verts g).
Definition flat (g : vgeo) : bool := g_dim g =? 2.
(** write 73-196 *)
Definition vtk_write (w : vwriter) : vout :=
  if negb (forallb (fun e => Nat.eqb (List.length (e_verts e)) 2) (all_edges w)) then VAssert else
  match all_some (map (fun ke => edge_ints w (snd ke)) (edges w)),
        all_some (map (fun g => zget map_shape_to_vtk (g_shape g)) (filter flat (vw_geoms w))) with
  | Some ei, Some types =>
      let cell_ints := List.concat ei ++ flat_map (poly_ints w) (filter flat (vw_geoms w)) in
      let cell_type_ints := map (fun _ => 3) (edges w) ++ types in
      let properties := map (fun _ => 0%R) (edges w) ++ map (get_property w) (vw_geoms w) in
      let num_objs := Z.of_nat (List.length cell_type_ints) in
      VOk ([TW "# vtk DataFile Version 2.0"; TW "NESO Unstructured Grid"; TW "ASCII"; TW "DATASET"; TW "UNSTRUCTURED_GRID"] ++
           [TW "POINTS"; TI (Z.of_nat (List.length (vertices w))); TW "float"] ++ flat_map (fun kv => point_toks (snd kv)) (vertices w) ++
           [TW "CELLS"; TI num_objs; TI (Z.of_nat (List.length cell_ints))] ++ map TI cell_ints ++
           [TW "CELL_TYPES"; TI num_objs] ++ map TI cell_type_ints ++
           [TW "CELL_DATA"; TI num_objs; TW "SCALARS"; TW "rank"; TW "float"; TI 1; TW "LOOKUP_TABLE"; TW "CellColors"] ++
           map (fun _ => TI (vw_rank w)) cell_type_ints ++
           [TW "SCALARS"; TW "generic_property"; TW "float"; TI 1; TW "LOOKUP_TABLE"; TW "CellColors"] ++
           map TR (firstn (Z.to_nat num_objs) properties))
  | _, _ => VThrow
  end.

(** filename += "." + std::to_string(rank) + ".vtk" (214, 250, 283) for a rank >= 0 *)
Definition rank_file (name : string) (rank : nat) : string := name ++ "." ++ NilZero.string_of_uint (Nat.to_uint rank) ++ ".vtk".
(** write_vtk_cells_owned 208-233: the elements in the order of their ids, without properties *)
Definition write_owned (ndim : Z) (rank : nat) (elems2 elems3 : list (Z * vgeo)) : string -> string * vout :=
  fun name => (rank_file name rank,
    vtk_write (fold_left (fun w kg => push_back0 (snd kg) w) (if ndim =? 2 then elems2 else if ndim =? 3 then elems3 else []) (vw_new (Z.of_nat rank)))).
(** write_vtk_cells_halo 244-268: the copies held, each with the rank that owns the original *)
Definition write_halo (ndim : Z) (rank : nat) (tris quads geoms3 : list (vgeo * Z)) : string -> string * vout :=
  fun name => (rank_file name rank,
    vtk_write (fold_left (fun w gr => push_back (fst gr) (IZR (snd gr)) w) (if ndim =? 2 then tris ++ quads else if ndim =? 3 then geoms3 else []) (vw_new (Z.of_nat rank)))).
(** tools/MeshPlotting: the names rank [rank] writes to, in order: MeshPlottingInner.cpp 12-27, 29-44 and the loop of
    MeshPlotting.cpp 54-57 *)
Definition plot_files (width : Z) (rank : nat) : list string :=
  [rank_file "mesh_owned" rank; rank_file "mesh_halo_default" rank; rank_file "mesh_mh" rank; "mesh_mh_fine.vtk"; "mesh_mh_coarse.vtk"] ++
  map (fun sx => rank_file ("mesh_halo_width_" ++ NilZero.string_of_uint (Nat.to_uint sx)) rank) (seq 0 (Z.to_nat (width + 1))).
