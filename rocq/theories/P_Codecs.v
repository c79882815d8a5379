(** Property theorems C01-C04 (geometry message formats). *)
From Verif Require Import M_Bytes M_Pack2D M_RemoteGeom L_Bytes L_Pack2D L_RemoteGeom.

(** C01: packing then unpacking a 2D geometry is the identity, whatever bytes
    follow it and whatever (large enough, or unknown = -1) length is claimed,
    and exactly the packed bytes are consumed. *)
Theorem C01_pack_unpack_geom2d : forall (r : remote2d) (tail : list Z) (len : Z),
  remote2d_okb r = true ->
  let bytes := pack_geom2d (r2_rank r) (r2_id r) (r2_geom r) in
  Z.of_nat (length bytes) <= len \/ len = -1 ->
  unpack_geom2d (bytes ++ tail) len O = Ok (r, length bytes).
Proof. exact pack_unpack_2d. Qed.
Print Assumptions C01_pack_unpack_geom2d.

Example C01_nonvacuous : remote2d_okb wit_tri = true /\ remote2d_okb wit_quad = true.
Proof. split; vm_compute; reflexivity. Qed.

(** C02: a message of any list of geometries unpacks to that list in order and
    all bytes behind the 4 byte count are consumed. *)
Theorem C02_pack_unpack_geoms2d : forall (l : list remote2d) (tail : list Z) (len : Z),
  Forall (fun r => remote2d_okb r = true) l ->
  Z.of_nat (length l) < 2 ^ 31 ->
  Z.of_nat (length (pack_geoms2d l)) <= len < 2 ^ 31 ->
  unpack_geoms2d (pack_geoms2d l ++ tail) len = Ok (l, (length (pack_geoms2d l) - 4)%nat).
Proof. exact pack_unpack_geoms2d. Qed.
Print Assumptions C02_pack_unpack_geoms2d.

Example C02_nonvacuous : Forall (fun r => remote2d_okb r = true) [wit_tri; wit_quad; wit_tri].
Proof. repeat constructor. Qed.

(** C03, single geometry: with the true buffer length every read is inside. *)
Theorem C03_unpack_one_in_bounds_partial : forall (mem : list Z) (off : nat),
  unpack_geom2d mem (Z.of_nat (length mem)) off <> UB.
Proof. exact unpack_geom2d_no_ub. Qed.
Print Assumptions C03_unpack_one_in_bounds_partial.

Example C03_rejects_truncated :
  let b := removelast (pack_geom2d 3 17 (r2_geom wit_tri)) in
  unpack_geom2d b (Z.of_nat (length b)) O = AssertFail.
Proof. vm_compute. reflexivity. Qed.

(** C03, collections: FALSE of the code.  There is a (truncated) message for
    which unpacking with the true length reads past the end of the buffer:
    packed_geoms_2d.hpp 94-95 passes the whole [input_length] to a reader that
    starts 4+offset bytes into the buffer. *)
Theorem C03_unpack_collection_in_bounds_refuted :
  ~ (forall mem : list Z, unpack_geoms2d mem (Z.of_nat (length mem)) <> UB).
Proof. intros H. destruct unpack_geoms2d_overread as [m Hm]. exact (H m Hm). Qed.
Print Assumptions C03_unpack_collection_in_bounds_refuted.

(** C04: the advertised size is the number of bytes written, for EVERY
    geometry whose size can be computed. *)
Theorem C04_num_bytes_is_serialised_length : forall (r : remote) (n : nat),
  get_num_bytes r = Ok n ->
  exists bs, serialise r n = Ok bs /\ length bs = n.
Proof. exact serialise_with_advertised_size. Qed.
Print Assumptions C04_num_bytes_is_serialised_length.

(** C04: round trip for every straight-sided geometry of all seven shapes. *)
Theorem C04_remote_geom_round_trip : forall (r : remote) (tail : list Z),
  remote_okb r = true ->
  exists n bs, get_num_bytes r = Ok n /\ serialise r n = Ok bs /\ length bs = n /\
    deserialise (bs ++ tail) n = Ok r.
Proof. exact remote_round_trip. Qed.
Print Assumptions C04_remote_geom_round_trip.

Example C04_nonvacuous : remote_okb wit_prism = true /\ remote_okb wit_hex = true.
Proof. split; vm_compute; reflexivity. Qed.

(** C04: a curved geometry is rejected, never silently straightened. *)
Theorem C04_curved_rejected : forall (r : remote) (n : nat),
  geom_curved (rm_geom r) ->
  get_num_bytes r = AssertFail /\ serialise r n = AssertFail.
Proof. exact curved_rejected. Qed.
Print Assumptions C04_curved_rejected.

Example C04_curved_nonvacuous : geom_curved (rm_geom wit_curved).
Proof. right. exists (wit_curved_edge 1). split; [right; left; reflexivity | discriminate]. Qed.

(** C03 for RemoteGeom: FALSE of the code, deserialise has no bounds checks
    before its final assertion (remote_geom.hpp 38-43, 386). *)
Theorem C03_remote_geom_deserialise_in_bounds_refuted :
  ~ (forall mem : list Z, deserialise mem (length mem) <> UB).
Proof. intros H. destruct deserialise_truncated_ub as [m Hm]. exact (H m Hm). Qed.
Print Assumptions C03_remote_geom_deserialise_in_bounds_refuted.
