(** Specification vocabulary for C35. *)
From Coq Require Import Sorting.Permutation Sorting.Sorted.
From Verif Require Import M_Bytes M_Pack2D M_RemoteGeom M_Transport M_Exchange.
Local Open Scope Z_scope.

(** What one rank knows: its elements (id, geometry) in id order, the cells it claimed and the
    ids of the elements registered with each cell. *)
Record rank_data := mkRankData
  { rd_elems : list (Z * geom2d); rd_claims : list Z; rd_map : list (Z * list Z) }.
Definition registered (d : rank_data) (c id : Z) : Prop := In id (geom_ids (rd_map d) c).
(** the elements of a rank registered with a claimed cell that rank [b] owns *)
Definition wanted (owner : Z -> Z) (d : rank_data) (b : Z) : list (Z * geom2d) :=
  filter (fun e => existsb (fun c => (owner c =? b) && existsb (Z.eqb (fst e)) (geom_ids (rd_map d) c)) (rd_claims d))
         (rd_elems d).
(** consistent data of a rank: claimed cells have an owner, registered ids are ids of elements,
    ids are strictly increasing *)
Definition rank_ok (size : Z) (owner : Z -> Z) (d : rank_data) : Prop :=
  (forall c, In c (rd_claims d) -> 0 <= owner c < size) /\
  (forall c id, registered d c id -> In id (map fst (rd_elems d))) /\
  StronglySorted Z.lt (map fst (rd_elems d)).
Definition remotes (a : Z) (l : list (Z * geom2d)) : list remote2d :=
  map (fun kv => mkRemote2D a (fst kv) (snd kv)) l.
(** all elements sent to one rank can be packed, and [size] messages of that many bytes are counted
    by an int (the receiver allots one slot of the largest size per sender) *)
Definition packable (size a : Z) (l : list (Z * geom2d)) : Prop :=
  Forall (fun x => remote2d_okb x = true) (remotes a l) /\
  Z.of_nat (length (pack_geoms2d (remotes a l))) * size < 2 ^ 31.
