(** Specification vocabulary for the exchanges of 3D elements. *)
From Verif Require Import M_Bytes M_Pack2D M_RemoteGeom M_Transport.

(** Kind and number of faces of each shape: hexahedra have six quads, tets four
    triangles, prisms and pyramids five faces of either kind. *)
Definition need_of (s : shape3) : option bool :=
  match s with Hex => Some false | Tet => Some true | _ => None end.
Definition nfaces (s : shape3) : nat :=
  match s with Hex => 6 | Tet => 4 | Pyr => 5 | Prism => 5 end.
Definition dec_elem (e : elem3) : list Z :=
  deconstruct_base (e3_rank e) (e3_id e) (e3_shape e) (e3_faces e).

(** Well-formed element: right number and kind of faces. *)
Definition elem3_okb (e : elem3) : bool :=
  Nat.eqb (length (e3_faces e)) (nfaces (e3_shape e)) &&
  match need_of (e3_shape e) with
  | Some b => forallb (fun f => Bool.eqb (f2_tri f) b) (e3_faces e)
  | None => true
  end.

(** An element of a per-rank map, as owned by [rank]. *)
Definition elem_of (rank : Z) (kv : Z * (shape3 * list face2)) : elem3 :=
  mkElem3 rank (fst kv) (fst (snd kv)) (snd (snd kv)).

(** Face lookup in the maps sent to a rank. *)
Definition assocz (l : list (Z * face2)) (i : Z) : option face2 :=
  option_map snd (find (fun kv => fst kv =? i) l).
Definition sent_face (p : per_rank) (i : Z) : option face2 :=
  match assocz (pr_quads p) i with Some f => Some f | None => assocz (pr_tris p) i end.

