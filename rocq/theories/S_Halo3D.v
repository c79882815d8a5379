(** Specification vocabulary for C87. *)
From Coq Require Import Sorting.Permutation Sorting.Sorted ZArith List.
From Verif Require Import M_Bytes M_Pack2D M_RemoteGeom M_Transport M_Exchange S_Exchange M_Halo3D.
Import ListNotations.
Local Open Scope Z_scope.

(** What one rank knows: its faces and elements (id, geometry) in id order, the cells it claimed
    and the ids of the elements registered with each cell. *)
Record rank3 := mkRank3
  { k3_faces : list (Z * geom2d); k3_elems : list (Z * elem3d); k3_claims : list Z; k3_map : list (Z * list Z) }.
(** the elements of a rank registered with a claimed cell that rank [b] owns *)
Definition wanted3 (owner : Z -> Z) (d : rank3) (b : Z) : list (Z * elem3d) :=
  filter (fun e => existsb (fun c => (owner c =? b) && existsb (Z.eqb (fst e)) (geom_ids (k3_map d) c)) (k3_claims d))
         (k3_elems d).
(** number and kind of the faces each shape has *)
Definition face_count (s : shape3) : nat := match s with Tet => 4 | Pyr => 5 | Prism => 5 | Hex => 6 end.
Definition face_kind_ok (s : shape3) (g : geom2d) : Prop :=
  match s with
  | Tet => g2_shape g = int_triangle
  | Hex => g2_shape g = int_quadrilateral
  | Pyr | Prism => g2_shape g = int_triangle \/ g2_shape g = int_quadrilateral
  end.
Definition elem3d_ok (e : elem3d) : Prop :=
  length (snd e) = face_count (fst e) /\ Forall (face_kind_ok (fst e)) (snd e).
(** consistent data of a rank: claimed cells have an owner, registered ids are ids of elements, ids
    increase, elements have the faces of their shape and the faces of elements are faces of the rank *)
Definition rank3_ok (size : Z) (owner : Z -> Z) (d : rank3) : Prop :=
  (forall c, In c (k3_claims d) -> 0 <= owner c < size) /\
  (forall c id, In id (geom_ids (k3_map d) c) -> In id (map fst (k3_elems d))) /\
  StronglySorted Z.lt (map fst (k3_elems d)) /\
  StronglySorted Z.lt (map fst (k3_faces d)) /\
  (forall id e, In (id, e) (k3_elems d) -> elem3d_ok e /\ forall f, In f (snd e) -> In (g2_id f, f) (k3_faces d)).
(** the faces of one kind of the elements rank [b] wants, each once *)
Definition wanted_faces (shape : Z) (owner : Z -> Z) (d : rank3) (b : Z) : list (Z * geom2d) :=
  filter (fun kf => (g2_shape (snd kf) =? shape) &&
            existsb (fun e => existsb (fun f => g2_id f =? fst kf) (snd (snd e))) (wanted3 owner d b)) (k3_faces d).
Definition remotes3 (a : Z) (l : list (Z * elem3d)) : list remote3d :=
  map (fun kv => mkRemote3D a (fst kv) (fst (snd kv)) (snd (snd kv))) l.
(** the integers describing the elements: three per element and one per face *)
Definition stream_ints (l : list (Z * elem3d)) : Z :=
  fold_right Z.add 0 (map (fun kv => 3 + Z.of_nat (length (snd (snd kv)))) l).
(** what is sent is counted by an int *)
Definition counted (size : Z) (owner : Z -> Z) (a : Z) (d : rank3) : Prop :=
  forall b, packable size a (wanted_faces int_triangle owner d b) /\
            packable size a (wanted_faces int_quadrilateral owner d b) /\
            stream_ints (wanted3 owner d b) * size < 2 ^ 31.
