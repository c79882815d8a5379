(** Model of the mesh hierarchy construction and of the cell claims of
    include/nektar_interface/particle_mesh_interface.hpp. Exact reals. *)
From Verif Require Export M_Grid.
From Verif Require Import M_Util.

(** What the code reads of a MeshHierarchy. The class is NESO-Particles' (not in /repo); its
    members dims, origin, cell_width_coarse, ncells_dim_fine, cell_width_fine (= coarse width /
    ncells_dim_fine) and inverse_cell_width_fine are taken as documented there. *)
Record mhier := mkMH { mh_dims : list Z; mh_origin : list R; mh_nf : Z; mh_cwc : R }.
Definition mh_ndim (m : mhier) : nat := length (mh_dims m).
Definition mh_cw (m : mhier) : R := mh_cwc m / IZR (mh_nf m).
Definition mh_icw (m : mhier) : R := 1 / mh_cw m.
(** MeshHierarchy::tuple_to_linear_global (NESO-Particles): coarse part first, then the fine part
    of the tuple; both linearised with the first index fastest. *)
Fixpoint lin (counts t : list Z) : Z :=
  match counts, t with c :: cs, x :: ts => (x + c * lin cs ts)%Z | _, _ => 0%Z end.
Definition mh_linear (m : mhier) (tuple : list Z) : Z :=
  let n := mh_ndim m in
  let fine := repeat (mh_nf m) n in
  (lin (mh_dims m) (firstn n tuple) * zprod fine + lin fine (skipn n tuple))%Z.

(** mesh_tuple_to_mh_tuple 92-102: std::div truncates *)
Definition mesh_tuple_to_mh_tuple (m : mhier) (index_mesh : list Z) : list Z :=
  map (fun i => Z.quot i (mh_nf m)) index_mesh ++ map (fun i => Z.rem i (mh_nf m)) index_mesh.

(** overlap_1d 113-131 *)
Definition overlap_1d (lhs rhs : R) (cell : Z) (w : R) : R :=
  let cell_start := IZR cell * w in
  let cell_end := cell_start + w in
  if Rle_bool rhs cell_start then 0
  else if Rle_bool cell_end lhs then 0
  else let area := fmin cell_end rhs - fmax cell_start lhs in
       if Rlt_bool 0 area then area else 0.

(** bounding_box_map 155-167: padding *)
Definition max_side (b : box) : R := fold_left (fun a lu => fmax (snd lu - fst lu) a) b 0.
Definition padded (pad : R) (b : box) : box :=
  if Rlt_bool 0 pad then
    let off := pad * max_side b in map (fun lu => (fst lu - off, snd lu + off)) b
  else b.
(** 176-194, one dimension: first and one-past-last fine cell. [n] is ncells_dim_fine * dims[d].
    Simplification: the double to int conversions are assumed in range. *)
Definition cell_start_of (icw : R) (n : Z) (lhs : R) : Z :=
  let c := Ztrunc (lhs * icw) in
  let c := if Z.ltb c 0 then 0%Z else c in
  if Z.leb n c then n else c.
Definition cell_end_of (icw : R) (n : Z) (rhs : R) : Z :=
  let c := Ztrunc (rhs * icw + 1) in
  let c := if Z.ltb c 0 then 0%Z else c in
  if Z.ltb n c then n else c.
Fixpoint shift_box (b : box) (o : list R) : box :=
  match b, o with (l, u) :: b', x :: o' => (l - x, u - x) :: shift_box b' o' | _, _ => [] end.
(** one overlap per dimension, 210-226 *)
Fixpoint areas (b : box) (t : list Z) (w : R) : list R :=
  match b, t with (l, u) :: b', c :: t' => overlap_1d l u c w :: areas b' t' w | _, _ => [] end.
(** 228: area_x * area_y * area_z with 1 for absent dimensions *)
Definition volume_of (b : box) (t : list Z) (w : R) : R := fold_right Rmult 1 (areas b t w).
(** bounding_box_map 144-239. For ndim < 3 the outer loops run once (cell_ends 1). The pairs pushed,
    in loop order (last dimension outermost). *)
Definition bounding_box_map (m : mhier) (b : box) (pad : R) : list (Z * R) :=
  let sb := shift_box (padded pad b) (mh_origin m) in
  let counts := map (fun d => (mh_nf m * d)%Z) (mh_dims m) in
  let starts := map (fun p => cell_start_of (mh_icw m) (snd p) (fst (fst p))) (combine sb counts) in
  let lasts := map (fun p => (cell_end_of (mh_icw m) (snd p) (snd (fst p)) - 1)%Z) (combine sb counts) in
  concat (map (fun t =>
    let volume := volume_of sb t (mh_cw m) in
    if Rlt_bool 0 volume then [(mh_linear m (mesh_tuple_to_mh_tuple m t), volume)] else [])
    (cell_tuples starts lasts)).

(** LocalClaim 52-80: claim_cells (a std::set) and claim_weights (a std::map). *)
Record local_claim := mkClaim { claim_cells : list Z; claim_weights : list (Z * (Z * R)) }.
Definition claim_empty : local_claim := mkClaim [] [].
Fixpoint zinsert (z : Z) (s : list Z) : list Z :=
  match s with
  | [] => [z]
  | y :: r => if Z.ltb z y then z :: s else if Z.eqb z y then s else y :: zinsert z r
  end.
Fixpoint zlookup {V} (m : list (Z * V)) (k : Z) : option V :=
  match m with [] => None | (k', v) :: r => if Z.eqb k k' then Some v else zlookup r k end.
(** std::map::operator[] read of a ClaimWeight: default constructed (0, 0.0) and inserted *)
Definition get_claim (m : list (Z * (Z * R))) (k : Z) : Z * R :=
  match zlookup m k with Some v => v | None => (0%Z, 0) end.
(** claim 69-79 *)
Definition claim (c : local_claim) (index weight : Z) (weightf : R) : local_claim :=
  if Z.ltb 0 weight then
    let cells := zinsert index (claim_cells c) in
    let cur := get_claim (claim_weights c) index in
    let w0 := zassign (claim_weights c) index cur in
    if Z.ltb (fst cur) weight then mkClaim cells (zassign w0 index (weight, weightf))
    else mkClaim cells w0
  else c.
(** bounding_box_claim 267-275: the claim made for one (cell, volume) *)
Definition claim_weight (m : mhier) (volume : R) : Z * R :=
  let inverse_cell_volume := 1 / mh_cw m ^ mh_ndim m in
  let ratio := volume * inverse_cell_volume in
  let weight := Ztrunc (1000000 * ratio) in
  ((if Rlt_bool 0 volume && Z.eqb weight 0 then weight + 1 else weight)%Z, ratio).
(** MHGeomMap: std::map<INT, std::deque<int>>; operator[] then push_back (276) *)
Definition geom_map_push (gm : list (Z * list Z)) (cell id : Z) : list (Z * list Z) :=
  zassign gm cell (match zlookup gm cell with Some l => l ++ [id] | None => [id] end).
(** bounding_box_claim 254-278 *)
Definition bounding_box_claim (m : mhier) (id : Z) (b : box) (st : local_claim * list (Z * list Z))
  : local_claim * list (Z * list Z) :=
  fold_left (fun st cv =>
      let wr := claim_weight m (snd cv) in
      (claim (fst st) (fst cv) (fst wr) (snd wr), geom_map_push (snd st) (fst cv) id))
    (bounding_box_map m b 0) st.
(** claim_cells 616-623: elements in key order *)
Definition claim_elements (m : mhier) (elems : list (Z * box)) (st : local_claim * list (Z * list Z)) :=
  fold_left (fun st e => bounding_box_claim m (fst e) (snd e) st) elems st.

(** compute_bounding_box 495-528 on all ranks: local boxes (reset + expand), Allreduce MIN/MAX.
    [elems] are the element boxes of each rank. *)
Fixpoint allreduce_box (l : list box) (acc : box) : box :=
  match l with [] => acc | b :: r => allreduce_box r (expand_bounding_box b acc) end.
Definition global_bounding_box (ndim : nat) (elems : list (list box)) : box :=
  allreduce_box (map (mhbb_bounding_box ndim) elems) (reset_bounding_box ndim).

(** create_mesh_hierarchy 533-595. [None] = failed assertion. Simplification: int and int64
    overflow not modelled. *)
Definition DBL_LOWEST : R := - DBL_MAX.
Record mesh_setup := mkSetup { su_mh : mhier; su_order : Z }.
Definition create_mesh_hierarchy (gbb : box) (global_num_elements : Z) (offset : Z) : option mesh_setup :=
  let ext := box_extents gbb in
  let min_extent := fold_left fmin ext DBL_MAX in
  let max_extent := fold_left fmax ext DBL_LOWEST in
  check (Rlt_bool 0 min_extent)
  (let ratio := max_extent / min_extent in
   let size := if Rle_bool 2 ratio then min_extent else max_extent in
   let dims := map (fun e => Zceil (e / size)) ext in
   let count := zprod dims in
   let matching := Zceil ((ln (IZR global_num_elements) - ln (IZR count)) * (1 / INR (length gbb))) in
   let order := Z.max 0 (matching + offset) in
   Some (mkSetup (mkMH dims (map fst gbb) (2 ^ order)%Z size) order)).
