(** Boundary interaction: src/nektar_interface/composite_interaction/composite_intersection.cpp,
    composite_collections.cpp and composite_transport.cpp. *)
From Verif Require Import M_Bytes M_Transport M_Exchange M_Util M_MeshIf M_LinePlane.
From Coq Require Import List.
Import ListNotations.
Local Open Scope Z_scope.

(** A linear boundary element: GetGlobalID(), GetShapeType() (eSegment = 2, eTriangle = 3,
    eQuadrilateral = 4) and vertices. *)
Record bgeom := mkBgeom { bg_id : Z; bg_shape : Z; bg_verts : list v3 }.
(** RemoteGeom whose rank field stores the composite (composite_transport.cpp 136-156) *)
Record cgeom := mkCgeom { cg_composite : Z; cg_geom : bgeom }.
Definition cg_id (x : cgeom) : Z := bg_id (cg_geom x).

(** * Boundary groups *)
(** CompositeCollections constructor, composite_collections.cpp 262-280: boundary_groups is a
    std::map (label -> composites). Result: composite_indices and map_composite_to_group. *)
Fixpoint groups_insert (label : Z) (comps : list Z) (st : list Z * list (Z * Z)) : outcome (list Z * list (Z * Z)) :=
  match comps with
  | [] => Ok st
  | c :: r =>
      if existsb (Z.eqb c) (fst st) then AssertFail
      else groups_insert label r (fst st ++ [c], zassign (snd st) c label)
  end.
Fixpoint groups_setup (groups : list (Z * list Z)) (st : list Z * list (Z * Z)) : outcome (list Z * list (Z * Z)) :=
  match groups with
  | [] => Ok st
  | g :: r => obind (groups_insert (fst g) (snd g) st) (groups_setup r)
  end.

(** * What is put in the mesh hierarchy container *)
(** CompositeTransport constructor, composite_transport.cpp 113-169, on one rank. [composites]:
    graph->GetComposites() (index -> geometries); [has_owner c]: get_owner(c) is not the mask. *)
Definition shape_ok (ndim : nat) (g : bgeom) : bool :=
  match ndim with 3%nat => (bg_shape g =? 3) || (bg_shape g =? 4) | 2%nat => bg_shape g =? 2 | _ => false end.
Fixpoint geometry_composites (ndim : nat) (composites : list (Z * list bgeom)) (indices : list Z) : outcome (list cgeom) :=
  match indices with
  | [] => Ok []
  | ix :: r =>
      match zget composites ix with
      | None => geometry_composites ndim composites r
      | Some geoms =>
          if forallb (shape_ok ndim) geoms
          then obind (geometry_composites ndim composites r) (fun l => Ok (map (mkCgeom ix) geoms ++ l))
          else AssertFail
      end
  end.
Definition box_padding : R := 0.02.
Definition cpush (mp : list (Z * list cgeom)) (c : Z) (x : cgeom) : list (Z * list cgeom) :=
  zassign mp c (match zget mp c with Some l => l ++ [x] | None => [x] end).
Definition cell_geom_map (m : mhier) (bx : bgeom -> box) (has_owner : Z -> bool) (l : list cgeom) : list (Z * list cgeom) :=
  fold_left (fun mp x => fold_left (fun mp cv => if has_owner (fst cv) then cpush mp (fst cv) x else mp)
    (bounding_box_map m (bx (cg_geom x)) box_padding) mp) l [].
(** MeshHierarchyContainer (NESO-Particles): the contents of a cell are the contributions of all
    ranks. Simplification: in rank order. *)
Definition container (size : Z) (maps : Z -> list (Z * list cgeom)) (c : Z) : list cgeom :=
  flat_map (fun a => match zget (maps a) c with Some l => l | None => [] end) (ranks size).

(** * Collecting cells *)
(** The device data of one element: group, id, geometry (composite_collections.cpp 82-123, 187-201) *)
Record delem := mkDelem { de_group : Z; de_geom : bgeom }.
Record coll := mkColl { cc_quads : list delem; cc_tris : list delem; cc_segs : list delem }.
(** get_geometry, composite_transport.cpp 14-62 *)
Definition get_geometry (ndim : nat) (geoms : list cgeom) : outcome (list cgeom * list cgeom * list cgeom) :=
  match geoms with
  | [] => Ok ([], [], [])
  | _ =>
      match ndim with
      | 3%nat =>
          if forallb (fun x => (bg_shape (cg_geom x) =? 3) || (bg_shape (cg_geom x) =? 4)) geoms
          then Ok (filter (fun x => negb (bg_shape (cg_geom x) =? 3)) geoms, filter (fun x => bg_shape (cg_geom x) =? 3) geoms, [])
          else AssertFail
      | 2%nat => if forallb (fun x => bg_shape (cg_geom x) =? 2) geoms then Ok ([], [], geoms) else AssertFail
      | _ => AssertFail
      end
  end.
(** map_composite_to_group.at: throws if absent *)
Fixpoint with_groups (c2g : list (Z * Z)) (l : list cgeom) : outcome (list delem) :=
  match l with
  | [] => Ok []
  | x :: r => match zget c2g (cg_composite x) with
              | None => AssertFail
              | Some g => obind (with_groups c2g r) (fun l => Ok (mkDelem g (cg_geom x) :: l))
              end
  end.
(** The state of one rank: held_cells, the cells present in the local part of the container,
    collected_cells, map_cells_collections *)
Record cstate := mkCstate { cs_held : list Z; cs_local : list Z; cs_collected : list Z; cs_tree : list (Z * coll) }.
Definition cs_init : cstate := mkCstate [] [] [] [].
(** collect_cell, composite_collections.cpp 5-250. The container's get of a cell never gathered
    fails. *)
Definition collect_cell (ndim : nat) (c2g : list (Z * Z)) (contents : Z -> list cgeom) (st : cstate) (cell : Z) : outcome cstate :=
  if existsb (Z.eqb cell) (cs_collected st) then Ok st
  else if negb (existsb (Z.eqb cell) (cs_local st)) then AssertFail
  else
    let collected := set_insert cell (cs_collected st) in
    obind (get_geometry ndim (contents cell)) (fun qts =>
    obind (with_groups c2g (fst (fst qts))) (fun q =>
    obind (with_groups c2g (snd (fst qts))) (fun t =>
    obind (with_groups c2g (snd qts)) (fun s =>
      Ok (mkCstate (cs_held st) (cs_local st) collected
            (match q, t, s with
             | [], [], [] => cs_tree st
             | _, _, _ => zassign (cs_tree st) cell (mkColl q t s)
             end)))))).
(** CompositeTransport::collect_geometry, composite_transport.cpp 64-96: the cells asked for (an
    ordered set) that are not held; [enter]: the global maximum of their number is not zero *)
Definition new_cells (st : cstate) (req : list Z) : list Z := filter (fun c => negb (existsb (Z.eqb c) (cs_held st))) req.
Definition transport_collect (enter : bool) (st : cstate) (req : list Z) : cstate :=
  let cells := new_cells st req in
  mkCstate (fold_left (fun s c => set_insert c s) cells (cs_held st))
    (if enter then fold_left (fun s c => set_insert c s) cells (cs_local st) else cs_local st) (cs_collected st) (cs_tree st).
(** MPI_Allreduce(MAX) of the sizes, then [if (max)] *)
Definition gather_entered (size : Z) (sts : Z -> cstate) (reqs : Z -> list Z) : bool :=
  negb (fold_left Z.max (map (fun a => Z.of_nat (length (new_cells (sts a) (reqs a)))) (ranks size)) (-1) =? 0).
Fixpoint collect_cells (ndim : nat) (c2g : list (Z * Z)) (contents : Z -> list cgeom) (st : cstate) (cells : list Z) : outcome cstate :=
  match cells with
  | [] => Ok st
  | c :: r => obind (collect_cell ndim c2g contents st c) (fun st' => collect_cells ndim c2g contents st' r)
  end.
(** CompositeCollections::collect_geometry 297-302 on rank [a]; the set passed is not modified *)
Definition collect_geometry (size : Z) (ndim : nat) (c2g : list (Z * Z)) (contents : Z -> list cgeom)
  (sts : Z -> cstate) (reqs : Z -> list Z) (a : Z) : outcome cstate :=
  collect_cells ndim c2g contents (transport_collect (gather_entered size sts reqs) (sts a) (reqs a)) (reqs a).

(** * The cells of the trajectories *)
(** find_cells, composite_intersection.cpp 69-116: one endpoint, atomic min and max. [carts]:
    map_to_cart_tuple_no_trunc of the positions (NESO-Particles). Simplification: the conversion of
    the cart index to int is taken to be exact. *)
Definition INT_MAX : Z := 2 ^ 31 - 1.
Definition INT_MIN : Z := - 2 ^ 31.
Definition upd_min (acc cart : list Z) : list Z := map (fun p => Z.min (fst p) (Z.max 0 (snd p))) (combine acc cart).
Definition upd_max (counts acc cart : list Z) : list Z :=
  map (fun p => Z.max (fst (fst p)) (Z.min (snd p - 1) (snd (fst p)))) (combine (combine acc cart) counts).
Definition cell_minmax (counts : list Z) (carts : list (list Z)) : list Z * list Z :=
  fold_left (fun st c => (upd_min (fst st) c, upd_max counts (snd st) c)) carts
    (map (fun _ => INT_MAX) counts, map (fun _ => INT_MIN) counts).
(** 129-145, 168-184 *)
Definition box_valid (b : list Z * list Z) : bool := forallb (fun p => negb (snd p <? fst p)) (combine (fst b) (snd b)).
Definition box_cells (b : list Z * list Z) : Z := fold_right Z.mul 1 (map (fun p => snd p - fst p + 1) (combine (fst b) (snd b))).
Definition max_box_size (boxes : list (list Z * list Z)) : Z :=
  fold_left (fun a b => if box_valid b then Z.max a (box_cells b) else a) boxes 0.
(** 165-215: the linear indices written by one NESO cell *)
Definition box_writes (m : mhier) (b : list Z * list Z) : list Z :=
  if box_valid b then map (fun t => mh_linear m (mesh_tuple_to_mh_tuple m t)) (cell_tuples (fst b) (snd b)) else [].
(** find_cells 30-226: [particles]: for each NESO cell, the cart tuples of both endpoints of its
    particles in the order of the atomics; [old_size]: the size of dh_mh_cells before; [arrival]:
    the order in which the writes got their indices. UB: a write beyond the end of the buffer. *)
Definition find_cells_writes (m : mhier) (particles : list (list (list Z))) : list Z :=
  flat_map (fun carts => box_writes m (cell_minmax (map (fun d => d * mh_nf m) (mh_dims m)) carts)) particles.
Definition find_cells (m : mhier) (particles : list (list (list Z))) (old_size : Z) (arrival : list Z) : outcome (list Z) :=
  let boxes := map (cell_minmax (map (fun d => d * mh_nf m) (mh_dims m))) particles in
  let required := max_box_size boxes * Z.of_nat (length particles) in
  let size := if old_size <? required then required else old_size in
  if size <? Z.of_nat (length arrival) then UB
  else Ok (fold_left (fun s c => set_insert c s) arrival []).

(** * The kernels *)
(** 275-294, 428-447: the scanned range of one dimension *)
Definition scan_start (n c0 c1 : Z) : Z := let lo := Z.min c0 c1 in if (0 <=? lo) && (lo <? n) then lo else 0.
Definition scan_end (n c0 c1 : Z) : Z := let hi := Z.max c0 c1 in if (0 <=? hi) && (hi <? n) then hi + 1 else n.
Definition scan_cells (m : mhier) (prev cur : list Z) : list Z :=
  let counts := map (fun d => d * mh_nf m) (mh_dims m) in
  let cc := combine counts (combine prev cur) in
  map (fun t => mh_linear m (mesh_tuple_to_mh_tuple m t))
    (cell_tuples (map (fun x => scan_start (fst x) (fst (snd x)) (snd (snd x))) cc)
                 (map (fun x => scan_end (fst x) (fst (snd x)) (snd (snd x)) - 1) cc)).

(** One hit: squared distance and what is written *)
Record bhit := mkBhit { bh_group : Z; bh_id : Z; bh_point : v3 }.
(** running state: intersection_distance and the hit found by this kernel *)
Definition kstate := (R * option bhit)%type.
Definition hit_dist2 (p i : v3) : R :=
  let r0 := (vx p - vx i)%R in let r1 := (vy p - vy i)%R in let r2 := (vz p - vz i)%R in (r0 * r0 + r1 * r1 + r2 * r2)%R.
(** 337-349, 546-560, 731-744 *)
Definition consider (p : v3) (test : bgeom -> option v3) (st : kstate) (e : delem) : kstate :=
  match test (de_geom e) with
  | None => st
  | Some i => let d2 := hit_dist2 p i in
              if Rlt_bool d2 (fst st) then (d2, Some (mkBhit (de_group e) (bg_id (de_geom e)) i)) else st
  end.
(** the loop over the cells and the elements of one kind in a cell *)
Definition scan (tree : list (Z * coll)) (sel : coll -> list delem) (p : v3) (test : bgeom -> option v3) (cells : list Z) (st : kstate) : kstate :=
  fold_left (fun st c => match zget tree c with Some cc => fold_left (consider p test) (sel cc) st | None => st end) cells st.
(** find_intersections_2d 229-367, for one particle. Vertices and points in the plane z = 0. [lli]:
    line_line_intersection (Particles::line_segment_intersection_2d). Written: d_int/d_real. *)
Definition find_intersections_2d (tree : list (Z * coll)) (lli : v3 -> v3 -> bgeom -> option v3) (prev_cell cell : list Z) (m : mhier) (p q : v3) : option bhit :=
  match tree with
  | [] => None
  | _ => snd (scan tree cc_segs p (lli p q) (scan_cells m prev_cell cell) (DBL_MAX, None))
  end.
(** 495-563: one quadrilateral. [newton g i g0 g1]: Newton from the grid point (g0, g1) converges
    to a point of the (slightly enlarged) reference element with residual at most the tolerance *)
Definition test_quad (newton : bgeom -> v3 -> Z -> Z -> bool) (grid : Z) (p q : v3) (g : bgeom) : option v3 :=
  match lpi_make false (bg_verts g) with
  | None => None
  | Some l =>
      let r := plane_hit l p q in
      if fst r && point_near l (snd r) &&
         existsb (fun g1 => existsb (fun g0 => newton g (snd r) g0 g1) (zrange 0 grid)) (zrange 0 grid)
      then Some (snd r) else None
  end.
(** 694-745: one triangle *)
Definition test_tri (newton : bgeom -> v3 -> bool) (p q : v3) (g : bgeom) : option v3 :=
  match lpi_make false (bg_verts g) with
  | None => None
  | Some l =>
      let r := plane_hit l p q in
      if fst r && point_near l (snd r) && newton g (snd r) then Some (snd r) else None
  end.
(** find_intersections_3d 370-766, for one particle: the quadrilaterals, then the triangles
    starting from the distance of the hit already written *)
Definition find_intersections_3d (tree : list (Z * coll)) (nq : bgeom -> v3 -> Z -> Z -> bool) (nt : bgeom -> v3 -> bool) (grid : Z)
  (prev_cell cell : list Z) (m : mhier) (p q : v3) : option bhit :=
  match tree with
  | [] => None
  | _ =>
      let cells := scan_cells m prev_cell cell in
      let quad := snd (scan tree cc_quads p (test_quad nq grid p q) cells (DBL_MAX, None)) in
      let d0 := match quad with Some h => hit_dist2 (bh_point h) p | None => DBL_MAX end in
      match snd (scan tree cc_tris p (test_tri nt p q) cells (d0, None)) with
      | Some h => Some h
      | None => quad
      end
  end.

(** * The sub-groups *)
(** get_intersections 879-898: the particles (indices) of each label. [result i]: what the
    kernels wrote for particle i. *)
Definition sub_groups (groups : list (Z * list Z)) (result : nat -> option bhit) (n : nat) : list (Z * list nat) :=
  let hitting := filter (fun i => match result i with Some _ => true | None => false end) (seq 0 n) in
  map (fun g => (fst g, filter (fun i => match result i with Some h => bh_group h =? fst g | None => false end) hitting)) groups.
