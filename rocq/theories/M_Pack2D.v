(** Model of PackedGeom2D / PackedGeoms2D: the message format used to send
    triangles and quadrilaterals between ranks. *)
From Verif Require Import M_Bytes.

(** What the codec reads from Nektar++ objects:
    Curve (m_curveID, m_ptype, m_points), SegGeom (global id, coordim, vertices,
    curve), Geometry2D (shape type, global id, edges, curve). *)
Record curve := mkCurve { cv_id : Z; cv_ptype : Z; cv_points : list point }.
Record edge := mkEdge
  { ed_id : Z; ed_coordim : Z; ed_verts : list point; ed_curve : option curve }.
Record geom2d := mkGeom2D
  { g2_shape : Z; g2_id : Z; g2_edges : list edge; g2_curve : option curve }.

(** RemoteGeom2D: rank, local id, geometry (remote_geom_2d.hpp). *)
Record remote2d := mkRemote2D { r2_rank : Z; r2_id : Z; r2_geom : geom2d }.

(** packed_geom_2d.hpp 59-82 (lambda_pack_curve). *)
Definition pack_curve (c : option curve) : list Z :=
  match c with
  | None => enc_gspec (mkGspec 0 0 (-1))
  | Some cv =>
      enc_gspec (mkGspec (cv_id cv) (cv_ptype cv) (Z.of_nat (length (cv_points cv))))
      ++ concat (map enc_point (cv_points cv))
  end.

(** packed_geom_2d.hpp 87-109 (body of the edge loop). *)
Definition pack_edge (e : edge) : list Z :=
  enc_gspec (mkGspec (ed_id e) (ed_coordim e) (Z.of_nat (length (ed_verts e))))
  ++ concat (map enc_point (ed_verts e))
  ++ pack_curve (ed_curve e).

(** packed_geom_2d.hpp 46-114 (pack_general) and 224-230 (constructor). *)
Definition pack_geom2d (rank local_id : Z) (g : geom2d) : list Z :=
  enc_int (g2_shape g) ++ enc_int rank ++ enc_int local_id ++ enc_int (g2_id g)
  ++ enc_int (Z.of_nat (length (g2_edges g)))
  ++ concat (map pack_edge (g2_edges g))
  ++ pack_curve (g2_curve g).

Section Unpack.
  (** [mem]: the bytes that exist from buf_in on; [input_length]: what the
      caller claims (the check of [pop] is against this). *)
  Variable mem : list Z.
  Variable input_length : Z.

  (** packed_geom_2d.hpp 30-37 (pop). *)
  Definition pop (n : nat) : reader (list Z) :=
    fun off =>
      if (Z.of_nat (off + n) <=? input_length) || (input_length =? -1)
      then mem_read mem n off
      else AssertFail.

  Definition pop_int : reader Z := rbind (pop 4) (fun l => rret (dec_int l)).
  Definition pop_gspec : reader gspec := rbind (pop 12) (fun l => rret (dec_gspec l)).
  Definition pop_point : reader point := rbind (pop 32) (fun l => rret (dec_point l)).

  (** packed_geom_2d.hpp 133-155 (lambda_unpack_curve), with the pop of [gs]
      that precedes each call. *)
  Definition unpack_curve : reader (option curve) :=
    gs <- pop_gspec ;;
    (if gs_n gs <? 0 then rret None
     else pts <- rrep (Z.to_nat (gs_n gs)) pop_point ;;
          rret (Some (mkCurve (gs_a gs) (gs_b gs) pts))).

  (** packed_geom_2d.hpp 164-187: one edge.  Nektar's SegGeom constructor
      keeps the first two of the vertices it is given (kNverts = 2). *)
  Definition unpack_edge : reader edge :=
    gs <- pop_gspec ;;
    _ <- rassert (2 <=? gs_n gs) ;;
    pts <- rrep (Z.to_nat (gs_n gs)) pop_point ;;
    cv <- unpack_curve ;;
    rret (mkEdge (gs_a gs) (gs_b gs) (firstn 2 pts) cv).

  (** packed_geom_2d.hpp 117-192 (unpack_general) and 249-258 (unpack);
      Nektar's GetGeomFactors/Setup are not modelled. *)
  Definition unpack_geom2d : reader remote2d :=
    shape <- pop_int ;;
    rank <- pop_int ;;
    local_id <- pop_int ;;
    id <- pop_int ;;
    num_edges <- pop_int ;;
    _ <- rassert (0 <=? rank) ;;
    _ <- rassert ((num_edges =? 4) || (num_edges =? 3)) ;;
    edges <- rrep (Z.to_nat num_edges) unpack_edge ;;
    cv <- unpack_curve ;;
    rret (mkRemote2D rank local_id (mkGeom2D shape id edges cv)).
End Unpack.

(** packed_geoms_2d.hpp 41-53 and 60-74 (constructors): count, then each packed
    geometry appended.  Both constructors build the message from a sequence of
    (rank, local id, geometry). *)
Definition pack_geoms2d (l : list remote2d) : list Z :=
  enc_int (Z.of_nat (length l))
  ++ concat (map (fun r => pack_geom2d (r2_rank r) (r2_id r) (r2_geom r)) l).

(** packed_geoms_2d.hpp 22-29 (get_packed_count).  [input_length >= sizeof(int)]
    compares an int with a size_t, i.e. modulo 2^64. *)
Definition get_packed_count (mem : list Z) (input_length : Z) : outcome Z :=
  if input_length mod 2 ^ 64 >=? 4 then
    obind (mem_read mem 4 O) (fun x =>
      let c := dec_int (fst x) in
      if (0 <=? c) && (c <=? input_length) then Ok c else AssertFail)
  else AssertFail.

(** packed_geoms_2d.hpp 93-99: loop with [offset] counted from behind the
    count; each geometry is unpacked from [buf_in + 4 + offset] with the FULL
    [input_length]. *)
Fixpoint unpack_loop (mem : list Z) (input_length : Z) (n : nat) (offset : nat)
  : outcome (list remote2d * nat) :=
  match n with
  | O => Ok ([], offset)
  | S n' =>
      obind (unpack_geom2d (skipn (4 + offset) mem) input_length O)
        (fun x => obind (unpack_loop mem input_length n' (offset + snd x))
          (fun y => Ok (fst x :: fst y, snd y)))
  end.

(** packed_geoms_2d.hpp 90-101 (unpack); the result also shows the final
    [offset]. *)
Definition unpack_geoms2d (mem : list Z) (input_length : Z)
  : outcome (list remote2d * nat) :=
  obind (get_packed_count mem input_length) (fun c =>
    obind (unpack_loop mem input_length (Z.to_nat c) O) (fun y =>
      if Z.of_nat (snd y) <=? input_length then Ok y else AssertFail)).

(** Well-formed geometries: what Nektar++ hands to the codec. *)
Definition int32b (z : Z) : bool := (- 2 ^ 31 <=? z) && (z <? 2 ^ 31).
Definition bits64b (z : Z) : bool := (0 <=? z) && (z <? 2 ^ 64).
Definition point_okb (p : point) : bool :=
  int32b (p_coordim p) && int32b (p_vid p) && bits64b (p_x p) && bits64b (p_y p) && bits64b (p_z p).
Definition curve_okb (c : option curve) : bool :=
  match c with
  | None => true
  | Some cv => int32b (cv_id cv) && int32b (cv_ptype cv)
               && int32b (Z.of_nat (length (cv_points cv)))
               && forallb point_okb (cv_points cv)
  end.
Definition edge_okb (e : edge) : bool :=
  int32b (ed_id e) && int32b (ed_coordim e) && (Nat.eqb (length (ed_verts e)) 2)
  && forallb point_okb (ed_verts e) && curve_okb (ed_curve e).
Definition geom2d_okb (g : geom2d) : bool :=
  int32b (g2_shape g) && int32b (g2_id g)
  && (Nat.eqb (length (g2_edges g)) 3 || Nat.eqb (length (g2_edges g)) 4)
  && forallb edge_okb (g2_edges g) && curve_okb (g2_curve g).
Definition remote2d_okb (r : remote2d) : bool :=
  int32b (r2_rank r) && (0 <=? r2_rank r) && int32b (r2_id r) && geom2d_okb (r2_geom r).
