(** Exchange of 2D geometries between ranks:
    include/nektar_interface/particle_mesh_interface.hpp 294-490, 629-650, 786-809. *)
From Coq Require Import Sorting.Permutation.
From Verif Require Import M_Bytes M_Pack2D M_RemoteGeom M_Transport.
From Verif Require Import M_Util.
Local Open Scope Z_scope.

Fixpoint zget {V} (m : list (Z * V)) (k : Z) : option V :=
  match m with [] => None | (k', v) :: r => if k =? k' then Some v else zget r k end.

(** get_unowned_cells 629-650: claim_cells (an ordered set) split by the owner, through stacks *)
Definition owned_cells (owner : Z -> Z) (me : Z) (claim_cells : list Z) : list Z :=
  rev (filter (fun c => owner c =? me) claim_cells).
Definition unowned_cells (owner : Z -> Z) (me : Z) (claim_cells : list Z) : list Z :=
  rev (filter (fun c => negb (owner c =? me)) claim_cells).

(** exchange_get_send_ranks 294-320. [geom_map]: MHGeomMap (cell -> element ids; absent = empty);
    rank_element_map: rank -> (id -> geometry). element_map[geom_id] of an absent id gives a null
    pointer, which the packing dereferences: UB. *)
Section Exchange.
  Context {G : Type}.
  Notation emap := (list (Z * G)).
  Definition geom_ids (geom_map : list (Z * list Z)) (cell : Z) : list Z :=
    match zget geom_map cell with Some l => l | None => [] end.
  Definition rank_elems (rem : list (Z * emap)) (r : Z) : emap :=
    match zget rem r with Some m => m | None => [] end.
  Fixpoint put_elems (element_map : emap) (r : Z) (ids : list Z) (rem : list (Z * emap)) : outcome (list (Z * emap)) :=
    match ids with
    | [] => Ok rem
    | id :: ids' =>
        match zget element_map id with
        | None => UB
        | Some g => put_elems element_map r ids' (zassign rem r (zassign (rank_elems rem r) id g))
        end
    end.
  Fixpoint get_send_ranks (size me : Z) (owner : Z -> Z) (element_map : emap) (geom_map : list (Z * list Z))
    (cells : list Z) (st : list Z * list (Z * emap)) : outcome (list Z * list (Z * emap)) :=
    match cells with
    | [] => Ok st
    | c :: cs =>
        let r := owner c in
        if negb (0 <=? r) then AssertFail
        else if negb (r <? size) then AssertFail
        else if r =? me then AssertFail
        else
          obind (put_elems element_map r (geom_ids geom_map c) (snd st)) (fun rem =>
            get_send_ranks size me owner element_map geom_map cs (set_insert r (fst st), rem))
    end.
  Definition exchange_get_send_ranks (size me : Z) (owner : Z -> Z) (element_map : emap) (geom_map : list (Z * list Z))
    (unowned : list Z) : outcome (list Z * list (Z * emap)) :=
    get_send_ranks size me owner element_map geom_map unowned ([], []).
End Exchange.

(** exchange_packed_2d 395-470 seen from all ranks. [send a]: the ranks rank [a] sends to, in order;
    [msg a b]: the packed bytes (410-413: PackedGeoms2D of rank_element_map[b]). *)
(** exchange_finalise_send_counts: the value read (M_Rma shows it under every schedule) *)
Definition num_recv_ranks (size : Z) (send : Z -> list Z) (me : Z) : nat :=
  length (filter (fun a => existsb (Z.eqb me) (send a)) (ranks size)).
(** exchange_get_recv_ranks 360-390: the size messages addressed to [me], source and size *)
Definition size_messages (size : Z) (send : Z -> list Z) (msg : Z -> Z -> list Z) (me : Z) : list (Z * Z) :=
  flat_map (fun a => map (fun b => (a, Z.of_nat (length (msg a b)))) (filter (Z.eqb me) (send a))) (ranks size).
Inductive xresult := XOk (o : outcome (list remote2d)) | XDeadlock | XTruncated.
(** 426-470: one slot of max_recv_size bytes per source, filled in any order [order], unpacked in slot order.
    [arrival]: the (source, size) pairs in the order the ANY_SOURCE receives matched them. *)
Fixpoint unpack_slots (buf : list Z) (stride : nat) (i : nat) (sizes : list Z) : outcome (list remote2d) :=
  match sizes with
  | [] => Ok []
  | n :: r => obind (unpack_geoms2d (skipn (i * stride) buf) n) (fun x =>
              obind (unpack_slots buf stride (S i) r) (fun l => Ok (fst x ++ l)))
  end.
Definition max_size (sizes : list Z) : Z := fold_right Z.max 0 sizes.
Definition exchange_recv (num_recv : nat) (arrival : list (Z * Z)) (data : Z -> list Z) (order : list nat) : xresult :=
  if negb (Nat.eqb (length arrival) num_recv) then XDeadlock   (* a receive without a message, or a message never received *)
  (* 430: max_recv_size * num_recv_ranks is a product of two ints; overflow is UB *)
  else if negb (max_size (map snd arrival) * Z.of_nat num_recv <? 2 ^ 31) then XOk UB
  else
    let stride := Z.to_nat (max_size (map snd arrival)) in
    (* an MPI_Irecv of [size] bytes only accepts a message of at most that length *)
    if negb (forallb (fun ss => Z.of_nat (length (data (fst ss))) <=? snd ss) arrival) then XTruncated
    else
      let buf := fold_left (fun buf i =>
          match nth_error arrival i with
          | Some (s, _) => write_at (i * stride) (data s) buf
          | None => buf
          end) order (repeat 0 (stride * num_recv)) in
      XOk (unpack_slots buf stride 0 (map snd arrival)).

(** collect_neighbour_ranks 786-809 (2D): std::set of the owners of the copies *)
Definition neighbour_ranks (tris quads : list remote2d) : list Z :=
  fold_left (fun s g => set_insert (r2_rank g) s) quads
    (fold_left (fun s g => set_insert (r2_rank g) s) tris []).
