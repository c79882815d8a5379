(** Model of the geometry exchanges: the 2D ring gather, the 3D element
    streams and the point-to-point exchange of streams. *)
From Verif Require Import M_Bytes M_Pack2D M_RemoteGeom.

(** * Ring gather of 2D geometries *)

Definition ranks (size : Z) : list Z := map Z.of_nat (seq 0 (Z.to_nat size)).

(** geometry_transport_2d.hpp 61 (lambda_pos_mod); C++ % is Z.rem. *)
Definition pos_mod (i n : Z) : Z := Z.rem (Z.rem i n + n) n.

(** geometry_transport_2d.hpp 66-67. *)
Definition rank_send (size r : Z) : Z := pos_mod (r + 1) size.
Definition rank_recv (size r : Z) : Z := pos_mod (r - 1) size.

(** geometry_transport_2d.hpp 37, packed_geoms_2d.hpp 41-53: the message of rank
    [r] built from its map (id, geometry), in key order. *)
Definition local_remotes (geom_map : Z -> list (Z * geom2d)) (r : Z) : list remote2d :=
  map (fun kv => mkRemote2D r (fst kv) (snd kv)) (geom_map r).
Definition local_message (geom_map : Z -> list (Z * geom2d)) (r : Z) : list Z :=
  pack_geoms2d (local_remotes geom_map r).

(** geometry_transport_2d.hpp 39-43: Allreduce(MAX) of the buffer sizes. *)
Definition max_buf_size (geom_map : Z -> list (Z * geom2d)) (size : Z) : Z :=
  fold_right Z.max 0 (map (fun r => Z.of_nat (length (local_message geom_map r))) (ranks size)).

(** geometry_transport_2d.hpp 47: buf.resize(max_buf_size) appends zeros. *)
Definition padded_message (geom_map : Z -> list (Z * geom2d)) (size r : Z) : list Z :=
  let m := local_message geom_map r in
  m ++ repeat 0 (Z.to_nat (max_buf_size geom_map size) - length m).

(** geometry_transport_2d.hpp 69-71: MPI_Sendrecv.  Rank [s] sends its buffer to
    [rank_send s] with tag [s]; rank [r] receives from source [rank_recv r] with
    tag [rank_recv r].  The receive completes exactly when one message with that
    destination, source and tag is sent in this step; [None] is a rank that
    waits for ever (or a rank that was sent nothing because its peer waits). *)
Definition recv_msg (size : Z) (send : Z -> option (list Z)) (r : Z) : option (list Z) :=
  match filter (fun s => (rank_send size s =? r)       (* destination *)
                      && (s =? rank_recv size r)       (* source *)
                      && (s =? rank_recv size r))      (* tag = sender's rank *)
               (ranks size) with
  | [s] => send s
  | _ => None
  end.

(** State of a rank: the buffer it will send next and what it has collected.
    geometry_transport_2d.hpp 64-79 (one iteration: receive, unpack, swap). Both sides give the count [maxlen]:
    a buffer of any other size would be read past its end or cut short ([UB]). *)
Definition ring_state := Z -> option (list Z * outcome (list remote2d)).

Definition ring_step (size maxlen : Z) (st : ring_state) : ring_state :=
  fun r =>
    match st r, recv_msg size (fun s => option_map fst (st s)) r with
    | Some (_, acc), Some buf =>
        Some (buf, if Z.of_nat (length buf) =? maxlen
                   then obind acc (fun l =>
                        obind (unpack_geoms2d buf maxlen) (fun x => Ok (l ++ fst x)))
                   else UB)
    | _, _ => None
    end.

Fixpoint ring_steps (n : nat) (size maxlen : Z) (st : ring_state) : ring_state :=
  match n with
  | O => st
  | S n' => ring_step size maxlen (ring_steps n' size maxlen st)
  end.

(** geometry_transport_2d.hpp 30-81 (get_all_remote_geoms_2d) run on all ranks of
    a communicator: [size - 1] shifts; the result on each rank. *)
Definition get_all_remote_geoms_2d (size : Z) (geom_map : Z -> list (Z * geom2d))
  (r : Z) : option (outcome (list remote2d)) :=
  option_map snd
    (ring_steps (Z.to_nat (size - 1)) size (max_buf_size geom_map size)
       (fun q => Some (padded_message geom_map size q, Ok [])) r).

(** * Streams of 3D elements *)

(** What the code reads of a face: its global id and whether it is a triangle. *)
Record face2 := mkFace2 { f2_id : Z; f2_tri : bool }.
Record elem3 := mkElem3
  { e3_rank : Z; e3_id : Z; e3_shape : shape3; e3_faces : list face2 }.

(** geometry_transport_3d.cpp 220-234 (deconstruct_geoms_base_3d). *)
Definition deconstruct_base (rank id : Z) (s : shape3) (faces : list face2) : list Z :=
  rank :: id :: shape3_int s :: map f2_id faces.

(** Reading *ptr++ past the end of packed_geoms is undefined behaviour. *)
Definition next_int (l : list Z) : outcome (Z * list Z) :=
  match l with [] => UB | z :: r => Ok (z, r) end.

(** geometry_transport_3d.cpp 115-123, 132-138, 147-153, 162-170: the face loop.
    [need]: the required kind (hexahedra need quads, tets triangles). *)
Fixpoint read_faces (fm : Z -> option face2) (need : option bool) (n : nat) (l : list Z)
  : outcome (list face2 * list Z) :=
  match n with
  | O => Ok ([], l)
  | S n' =>
      obind (next_int l) (fun x =>
        match fm (fst x) with
        | None => AssertFail
        | Some f =>
            if negb (f2_id f =? fst x) then AssertFail
            else if match need with Some b => negb (Bool.eqb (f2_tri f) b) | None => false end
            then AssertFail
            else obind (read_faces fm need n' (snd x)) (fun y => Ok (f :: fst y, snd y))
        end)
  end.

(** geometry_transport_3d.cpp 97-181 (reconstruct_geom_3d); the default branch
    returns nullptr which the caller asserts against. *)
Definition reconstruct_geom (fm : Z -> Z -> option face2) (l : list Z)
  : outcome (elem3 * list Z) :=
  obind (next_int l) (fun x0 => let rank := fst x0 in
  obind (next_int (snd x0)) (fun x1 => let id := fst x1 in
  obind (next_int (snd x1)) (fun x2 => let sh := fst x2 in
    let rest := snd x2 in
    if sh =? shape3_int Hex then
      obind (read_faces (fm rank) (Some false) 6 rest) (fun y =>
        Ok (mkElem3 rank id Hex (fst y), snd y))
    else if sh =? shape3_int Prism then
      obind (read_faces (fm rank) None 5 rest) (fun y =>
        Ok (mkElem3 rank id Prism (fst y), snd y))
    else if sh =? shape3_int Pyr then
      obind (read_faces (fm rank) None 5 rest) (fun y =>
        Ok (mkElem3 rank id Pyr (fst y), snd y))
    else if sh =? shape3_int Tet then
      obind (read_faces (fm rank) (Some true) 4 rest) (fun y =>
        Ok (mkElem3 rank id Tet (fst y), snd y))
    else AssertFail))).

(** geometry_transport_3d.cpp 193-209 (reconstruct_geoms_3d): while there are
    integers left.  [fuel] bounds the iterations; each consumes at least three
    integers so [length l] is enough (the out-of-fuel case is UB and excluded by
    the theorems). *)
Fixpoint reconstruct_loop (fuel : nat) (fm : Z -> Z -> option face2) (l : list Z)
  : outcome (list elem3) :=
  match l with
  | [] => Ok []
  | _ =>
      match fuel with
      | O => UB
      | S fuel' =>
          obind (reconstruct_geom fm l) (fun x =>
            obind (reconstruct_loop fuel' fm (snd x)) (fun r => Ok (fst x :: r)))
      end
  end.
Definition reconstruct_geoms_3d (fm : Z -> Z -> option face2) (packed : list Z)
  : outcome (list elem3) :=
  reconstruct_loop (length packed) fm packed.

(** ** Deconstruction per destination rank *)

(** std::set<int>::insert: sorted, without duplicates. *)
Fixpoint set_insert (z : Z) (s : list Z) : list Z :=
  match s with
  | [] => [z]
  | y :: r => if z <? y then z :: s else if z =? y then s else y :: set_insert z r
  end.

(** geometry_transport_3d.cpp 246-257 (deconstruct_geoms_3d). *)
Definition deconstruct_geoms_3d (rank : Z) (id : Z) (g : shape3 * list face2)
  (acc : list Z * list Z) : list Z * list Z :=
  (fst acc ++ deconstruct_base rank id (fst g) (snd g),
   fold_left (fun s f => set_insert (f2_id f) s) (snd g) (snd acc)).

(** geometry_transport_3d.cpp 302-305: all elements for one destination. *)
Definition deconstruct_rank (original_rank : Z) (elems : list (Z * (shape3 * list face2)))
  : list Z * list Z :=
  fold_left (fun acc kv => deconstruct_geoms_3d original_rank (fst kv) (snd kv) acc)
    elems ([], []).

(** geometry_transport_3d.cpp 316-330: look up the faces (map::at throws when
    absent, modelled as AssertFail) and split them by shape.  Result: quad map and
    triangle map for this destination, keyed by face id. *)
Fixpoint split_faces (geoms_2d : Z -> option face2) (ids : list Z)
  : outcome (list (Z * face2) * list (Z * face2)) :=
  match ids with
  | [] => Ok ([], [])
  | i :: r =>
      match geoms_2d i with
      | None => AssertFail
      | Some f =>
          obind (split_faces geoms_2d r) (fun y =>
            if f2_tri f then Ok (fst y, (i, f) :: snd y) else Ok ((i, f) :: fst y, snd y))
      end
  end.

Record per_rank := mkPerRank
  { pr_stream : list Z; pr_size : Z; pr_quads : list (Z * face2); pr_tris : list (Z * face2) }.

(** geometry_transport_3d.cpp 280-331 (deconstuct_per_rank_geoms_3d): outputs for
    each rank of send_ranks, in order. *)
Fixpoint deconstruct_per_rank (original_rank : Z) (geoms_2d : Z -> option face2)
  (rank_element_map : Z -> list (Z * (shape3 * list face2))) (send_ranks : list Z)
  : outcome (list per_rank) :=
  match send_ranks with
  | [] => Ok []
  | r :: rest =>
      let d := deconstruct_rank original_rank (rank_element_map r) in
      obind (split_faces geoms_2d (snd d)) (fun qt =>
      obind (deconstruct_per_rank original_rank geoms_2d rank_element_map rest) (fun l =>
        Ok (mkPerRank (fst d) (Z.of_nat (length (fst d))) (fst qt) (snd qt) :: l)))
  end.

(** * Point-to-point exchange of integer streams *)

(** geometry_transport_3d.cpp 359-367: running offsets of the receives. *)
Fixpoint recv_offsets (total : nat) (sizes : list nat) : list nat :=
  match sizes with
  | [] => []
  | n :: r => total :: recv_offsets (total + n) r
  end.
Definition recv_total (sizes : list nat) : nat := fold_left Nat.add sizes 0%nat.

(** A completed MPI_Irecv writes its message at the posted offset. *)
Definition write_at (off : nat) (m buf : list Z) : list Z :=
  firstn off buf ++ m ++ skipn (off + length m) buf.

(** geometry_transport_3d.cpp 351-390 (sendrecv_geoms_3d) as seen on rank [me]:
    [data s] are the integers rank [s] addressed to [me]; [order] is the order in
    which the posted receives complete (MPI_Waitall allows any). *)
Definition sendrecv_geoms_3d (recv_ranks : list Z) (recv_sizes : list nat)
  (data : Z -> list Z) (order : list nat) : list Z :=
  let posted := combine (recv_offsets 0 recv_sizes) recv_ranks in
  fold_left (fun buf i =>
      match nth_error posted i with
      | Some (off, s) => write_at off (data s) buf
      | None => buf
      end)
    order (repeat 0 (recv_total recv_sizes)).
