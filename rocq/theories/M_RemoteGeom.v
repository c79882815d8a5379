(** Model of RemoteGeom<T>: the serialisation of segments, 2D faces and
    polyhedra (include/nektar_interface/geometry_transport/remote_geom.hpp). *)
From Verif Require Import M_Bytes M_Pack2D.

(** Nektar++ LibUtilities::ShapeType (ShapeType.hpp): eSegment=2, eTriangle=3,
    eQuadrilateral=4, eTetrahedron=5, ePyramid=6, ePrism=7, eHexahedron=8.
    shape_mapping.hpp 13-28 casts between the enum and int. *)
Inductive shape3 := Tet | Pyr | Prism | Hex.
Definition int_segment : Z := 2.
Definition int_triangle : Z := 3.
Definition int_quadrilateral : Z := 4.
Definition shape3_int (s : shape3) : Z :=
  match s with Tet => 5 | Pyr => 6 | Prism => 7 | Hex => 8 end.

Record face := mkFace
  { fc_tri : bool; fc_id : Z; fc_edges : list edge; fc_curve : option curve }.
Inductive rgeom :=
| GSeg (e : edge)
| GFace (f : face)
| GPoly (s : shape3) (id : Z) (faces : list face).
Record remote := mkRemote { rm_rank : Z; rm_id : Z; rm_geom : rgeom }.

Definition face_int (f : face) : Z := if fc_tri f then int_triangle else int_quadrilateral.
Definition rgeom_int (g : rgeom) : Z :=
  match g with
  | GSeg _ => int_segment
  | GFace f => face_int f
  | GPoly s _ _ => shape3_int s
  end.

Definition no_curve : gspec := mkGspec 0 0 (-1).

(** Sequencing a fallible per-item writer over a list. *)
Fixpoint ofold {A} (f : A -> outcome (list Z)) (l : list A) : outcome (list Z) :=
  match l with
  | [] => Ok []
  | a :: r => obind (f a) (fun x => obind (ofold f r) (fun y => Ok (x ++ y)))
  end.
Fixpoint osum {A} (f : A -> outcome nat) (l : list A) : outcome nat :=
  match l with
  | [] => Ok O
  | a :: r => obind (f a) (fun x => obind (osum f r) (fun y => Ok (x + y)%nat))
  end.

(** ASSERTL0(curve == nullptr, ...). *)
Definition assert_straight {B} (c : option curve) (k : outcome B) : outcome B :=
  match c with None => k | Some _ => AssertFail end.

(** remote_geom.hpp 95-114: lambda_push_edge of get_num_bytes. *)
Definition nb_edge (e : edge) : outcome nat :=
  assert_straight (ed_curve e) (Ok (4 + 4 + 4 + 32 * length (ed_verts e) + 12)%nat).
(** remote_geom.hpp 116-135. *)
Definition nb_face (f : face) : outcome nat :=
  obind (osum nb_edge (fc_edges f)) (fun n =>
    assert_straight (fc_curve f) (Ok (4 + 4 + n + 12)%nat)).
(** remote_geom.hpp 137-148. *)
Definition nb_poly (faces : list face) : outcome nat :=
  obind (osum (fun f => obind (nb_face f) (fun n => Ok (4 + n)%nat)) faces)
    (fun n => Ok (4 + 4 + n)%nat).
(** remote_geom.hpp 78-160: get_num_bytes. *)
Definition get_num_bytes (r : remote) : outcome nat :=
  obind (match rm_geom r with
         | GSeg e => nb_edge e
         | GFace f => nb_face f
         | GPoly _ _ fs => nb_poly fs
         end) (fun n => Ok (4 + 4 + 4 + n)%nat).

(** remote_geom.hpp 189-208: lambda_push_edge of serialise. *)
Definition ser_edge (e : edge) : outcome (list Z) :=
  assert_straight (ed_curve e)
    (Ok (enc_int (ed_id e) ++ enc_int (ed_coordim e)
         ++ enc_int (Z.of_nat (length (ed_verts e)))
         ++ concat (map enc_point (ed_verts e)) ++ enc_gspec no_curve)).
(** remote_geom.hpp 210-231. *)
Definition ser_face (f : face) : outcome (list Z) :=
  obind (ofold ser_edge (fc_edges f)) (fun es =>
    assert_straight (fc_curve f)
      (Ok (enc_int (fc_id f) ++ enc_int (Z.of_nat (length (fc_edges f))) ++ es
           ++ enc_gspec no_curve))).
(** remote_geom.hpp 233-244. *)
Definition ser_poly (id : Z) (faces : list face) : outcome (list Z) :=
  obind (ofold (fun f => obind (ser_face f) (fun b => Ok (enc_int (face_int f) ++ b))) faces)
    (fun fs => Ok (enc_int id ++ enc_int (Z.of_nat (length faces)) ++ fs)).

Definition ser_all (r : remote) : outcome (list Z) :=
  obind (match rm_geom r with
         | GSeg e => ser_edge e
         | GFace f => ser_face f
         | GPoly _ id fs => ser_poly id fs
         end)
    (fun b => Ok (enc_int (rm_rank r) ++ enc_int (rm_id r)
                  ++ enc_int (rgeom_int (rm_geom r)) ++ b)).

(** remote_geom.hpp 169-257: serialise into a buffer of [num_bytes] bytes.
    The bytes are written without checks (writing more than the buffer holds is
    undefined behaviour) and the count is asserted at the end. *)
Definition serialise (r : remote) (num_bytes : nat) : outcome (list Z) :=
  obind (ser_all r) (fun b =>
    if Nat.ltb num_bytes (length b) then UB
    else if Nat.eqb (length b) num_bytes then Ok b else AssertFail).

Section Deser.
  Variable mem : list Z.
  (** remote_geom.hpp 38-43: pop has no bounds check. *)
  Definition upop_int : reader Z := rbind (mem_read mem 4) (fun l => rret (dec_int l)).
  Definition upop_gspec : reader gspec := rbind (mem_read mem 12) (fun l => rret (dec_gspec l)).
  Definition upop_point : reader point := rbind (mem_read mem 32) (fun l => rret (dec_point l)).

  (** A Nektar++ constructor given [v.data()] reads [n] entries; fewer is UB. *)
  Definition take_exact {A} (n : nat) (l : list A) : reader (list A) :=
    fun off => if Nat.leb n (length l) then Ok (firstn n l, off) else UB.

  (** remote_geom.hpp 280-301: lambda_pop_edge (SegGeom reads 2 vertices). *)
  Definition deser_edge : reader edge :=
    gid <- upop_int ;;
    coordim <- upop_int ;;
    num_verts <- upop_int ;;
    verts <- rrep (Z.to_nat num_verts) upop_point ;;
    gs <- upop_gspec ;;
    _ <- rassert (gs_n gs =? -1) ;;
    v2 <- take_exact 2 verts ;;
    rret (mkEdge gid coordim v2 None).

  (** remote_geom.hpp 303-328: lambda_pop_face; every shape type which is not
      eTriangle builds a QuadGeom. *)
  Definition deser_face (shape : Z) : reader face :=
    gid <- upop_int ;;
    num_edges <- upop_int ;;
    edges <- rrep (Z.to_nat num_edges) deser_edge ;;
    gs <- upop_gspec ;;
    _ <- rassert (gs_n gs =? -1) ;;
    es <- take_exact (if shape =? int_triangle then 3%nat else 4%nat) edges ;;
    rret (mkFace (shape =? int_triangle) gid es None).

  (** dynamic_pointer_cast yields nullptr for a face of the other kind, and the
      Nektar++ constructor dereferences it. *)
  Definition require_kind (tri : bool) (fs : list face) : reader unit :=
    fun off => if forallb (fun f => Bool.eqb (fc_tri f) tri) fs then Ok (tt, off) else UB.

  (** remote_geom.hpp 330-371: lambda_pop_polyhedron; shape types other than
      tetrahedron, pyramid, prism build a HexGeom. *)
  Definition deser_poly (shape : Z) : reader rgeom :=
    gid <- upop_int ;;
    num_faces <- upop_int ;;
    faces <- rrep (Z.to_nat num_faces)
               (rbind upop_int deser_face) ;;
    (if shape =? shape3_int Tet then
       fs <- take_exact 4 faces ;; _ <- require_kind true fs ;; rret (GPoly Tet gid fs)
     else if shape =? shape3_int Pyr then
       fs <- take_exact 5 faces ;; rret (GPoly Pyr gid fs)
     else if shape =? shape3_int Prism then
       fs <- take_exact 5 faces ;; rret (GPoly Prism gid fs)
     else
       fs <- take_exact 6 faces ;; _ <- require_kind false fs ;; rret (GPoly Hex gid fs)).

  (** remote_geom.hpp 267-387: deserialise. *)
  Definition deserialise_reader : reader remote :=
    rank <- upop_int ;;
    id <- upop_int ;;
    shape <- upop_int ;;
    g <- (if shape =? int_segment then rbind deser_edge (fun e => rret (GSeg e))
          else if (shape =? int_triangle) || (shape =? int_quadrilateral)
          then rbind (deser_face shape) (fun f => rret (GFace f))
          else deser_poly shape) ;;
    rret (mkRemote rank id g).
End Deser.

Definition deserialise (mem : list Z) (num_bytes : nat) : outcome remote :=
  obind (deserialise_reader mem O) (fun x =>
    if Nat.eqb (snd x) num_bytes then Ok (fst x) else AssertFail).

(** ** Specification vocabulary *)

(** What a Nektar++ straight-sided geometry looks like. *)
Definition straight_edge_okb (e : edge) : bool :=
  int32b (ed_id e) && int32b (ed_coordim e) && Nat.eqb (length (ed_verts e)) 2
  && forallb point_okb (ed_verts e)
  && match ed_curve e with None => true | Some _ => false end.
Definition straight_face_okb (f : face) : bool :=
  int32b (fc_id f) && Nat.eqb (length (fc_edges f)) (if fc_tri f then 3 else 4)%nat
  && forallb straight_edge_okb (fc_edges f)
  && match fc_curve f with None => true | Some _ => false end.
Definition shape3_faces_okb (s : shape3) (fs : list face) : bool :=
  match s with
  | Tet => Nat.eqb (length fs) 4 && forallb (fun f => fc_tri f) fs
  | Pyr => Nat.eqb (length fs) 5
  | Prism => Nat.eqb (length fs) 5
  | Hex => Nat.eqb (length fs) 6 && forallb (fun f => negb (fc_tri f)) fs
  end.
Definition remote_okb (r : remote) : bool :=
  int32b (rm_rank r) && int32b (rm_id r) &&
  match rm_geom r with
  | GSeg e => straight_edge_okb e
  | GFace f => straight_face_okb f
  | GPoly s id fs => int32b id && shape3_faces_okb s fs && forallb straight_face_okb fs
  end.

(** Some edge or face of the geometry carries a curve. *)
Definition edge_curved (e : edge) : Prop := ed_curve e <> None.
Definition face_curved (f : face) : Prop :=
  fc_curve f <> None \/ exists e, In e (fc_edges f) /\ edge_curved e.
Definition geom_curved (g : rgeom) : Prop :=
  match g with
  | GSeg e => edge_curved e
  | GFace f => face_curved f
  | GPoly _ _ fs => exists f, In f fs /\ face_curved f
  end.
