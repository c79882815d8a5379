(** Halo extension on a 3D mesh: src/nektar_interface/geometry_transport/halo_extension.cpp 290-327
    (halo_exchange_send_sizes), 375-393 (halo_get_rank_to_geoms_3d), 420-643 (extend_halos_fixed_offset with ndim == 3);
    include/nektar_interface/geometry_transport/halo_extension.hpp; geometry_transport_3d.cpp 11-32 (get_all_elements_3d).
    The cells, the requests and the exchange of 2D objects are those of M_Halo. *)
From Coq Require Import Sorting.Permutation.
From Verif Require Import M_Bytes M_Pack2D M_RemoteGeom M_Transport M_Exchange M_MeshIf M_Halo M_Halo3D.
From Verif Require Import M_Util.
From Coq Require Import ZArith List.
Import ListNotations.
Local Open Scope Z_scope.

(** ** the elements of the graph *)
(** get_all_elements_3d, geometry_transport_3d.cpp 11-32: geoms[e.first] = e.second over the four maps *)
Definition all_elements_3d (tets pyrs prisms hexes : list (Z * elem3d)) : list (Z * elem3d) :=
  fold_left (fun mp kv => zassign mp (fst kv) (snd kv)) (tets ++ pyrs ++ prisms ++ hexes) [].

(** ** what a rank holds *)
Record rank_state3 := mkRankState3 { s3_2d : rank_state; s3_own : list (Z * elem3d); s3_elems : list remote3d }.
Definition r3_geom (x : remote3d) : elem3d := (r3_shape x, r3_faces x).
Definition mk3 (r i : Z) (e : elem3d) : remote3d := mkRemote3D r i (fst e) (snd e).
Notation gmap3 := (list (Z * list (Z * elem3d))).
Definition gput3 (mp : gmap3) (r id : Z) (g : elem3d) : gmap3 := zassign mp r (zassign (rank_elems mp r) id g).
Definition kget3 (mp : gmap3) (k : Z * Z) : option elem3d := zget (rank_elems mp (fst k)) (snd k).
(** halo_get_rank_to_geoms_3d 375-393 *)
Definition rank_to_geoms3 (me : Z) (st : rank_state3) : gmap3 :=
  fold_left (fun mp x => gput3 mp (r3_rank x) (r3_id x) (r3_geom x)) (s3_elems st) [(me, s3_own st)].
(** halo_get_cells_to_geoms_map, hpp 287-307. The key of a map of 3D elements is their GetGlobalID. *)
Definition cells_to_geoms3 (m : mhier) (bx : elem3d -> box) (known : gmap3) (cells : list Z) : list (Z * list key2) :=
  fold_left (fun acc rg => fold_left (fun acc kv => fold_left (fun acc cv =>
      if existsb (Z.eqb (fst cv)) cells then mpush acc (fst cv) (fst rg, fst kv) else acc)
      (bounding_box_map m (bx (snd kv)) 0%R) acc) (snd rg) acc) known [].

(** ** the replies *)
(** 504-527, for one remote rank: the set of elements and the set of their faces. *)
Definition reply_set3 (known3 : gmap3) (c2g : list (Z * list key2)) (cells : list Z) : outcome (list key2 * list key2) :=
  fold_left (fun acc c => fold_left (fun acc k => obind acc (fun s =>
      match kget3 known3 k with
      | None => AssertFail
      | Some e => Ok (kset_insert k (fst s), fold_left (fun f g => kset_insert (fst k, g2_id g) f) (snd e) (snd s))
      end)) (mget c2g c) acc) cells (Ok ([], [])).
(** 559-569, for one remote rank *)
Fixpoint reply_geoms3 (known : gmap3) (keys : list key2) : outcome (list remote3d) :=
  match keys with
  | [] => Ok []
  | k :: r => match kget3 known k with
              | None => AssertFail
              | Some g => obind (reply_geoms3 known r) (fun l => Ok (mk3 (fst k) (snd k) g :: l))
              end
  end.
(** 592-606: the integers describing the elements for one remote rank *)
Definition stream3 (l : list remote3d) : list Z :=
  concat (map (fun x => deconstruct_base (r3_rank x) (r3_id x) (r3_shape x) (map face2_of (r3_faces x))) l).
Record reply3 := mkReply3 { p3_tris : list (Z * list remote2d); p3_quads : list (Z * list remote2d); p3_ints : list (Z * list Z) }.
Fixpoint halo_replies3 (known2 : gmap) (known3 : gmap3) (c2g : list (Z * list key2)) (send_cells : list (Z * list Z)) (send_ranks : list Z)
  : outcome reply3 :=
  match send_ranks with
  | [] => Ok (mkReply3 [] [] [])
  | a :: r =>
      obind (reply_set3 known3 c2g (mget send_cells a)) (fun s =>
      obind (reply_geoms known2 (snd s)) (fun l2 =>
      obind (reply_geoms3 known3 (fst s)) (fun l3 =>
      obind (halo_replies3 known2 known3 c2g send_cells r) (fun y =>
        Ok (mkReply3 (zassign (p3_tris y) a (filter (fun x => is_tri (r2_geom x)) l2))
              (zassign (p3_quads y) a (filter (fun x => negb (is_tri (r2_geom x)) && is_quad (r2_geom x)) l2))
              (zassign (p3_ints y) a (stream3 l3)))))))
  end.
Definition halo_serve3 (size : Z) (m : mhier) (bx : elem3d -> box) (req : Z -> list (Z * list Z)) (me : Z) (st : rank_state3)
  (arrival : list (Z * Z)) : hresult reply3 :=
  match halo_send_cells size req me arrival with
  | HOk (Ok (sr, sc)) =>
      let known3 := rank_to_geoms3 me st in
      HOk (halo_replies3 (rank_to_geoms me (s3_2d st)) known3 (cells_to_geoms3 m bx known3 (halo_send_cells_set sr sc)) sc sr)
  | HOk AssertFail => HOk AssertFail
  | HOk UB => HOk UB
  | HDeadlock => HDeadlock
  | HTruncated => HTruncated
  end.

(** ** the requesting rank *)
(** 622-641: new elements only; "ID missmatch" holds as the new geometry gets this id (reconstruct_geom_3d) *)
Definition halo_unpack3 (known : gmap3) (received out : list remote3d) : gmap3 * list remote3d :=
  fold_left (fun st x =>
      let known := fst st in
      match kget3 known (r3_rank x, r3_id x) with
      | Some _ => st
      | None => (gput3 known (r3_rank x) (r3_id x) (r3_geom x), snd st ++ [x])
      end) received (known, out).
(** 571-641. [tdata b], [qdata b], [sdata b]: what rank [b] sends here; the three lists: completion orders. *)
Definition halo_finish3 (me : Z) (st : rank_state3) (recv_ranks : list Z) (tdata qdata sdata : Z -> list Z) (torder qorder sorder : list nat)
  : hresult rank_state3 :=
  match halo_receive recv_ranks tdata torder, halo_receive recv_ranks qdata qorder with
  | XOk (Ok rt), XOk (Ok rq) =>
      let k1 := halo_unpack (rank_to_geoms me (s3_2d st)) rt (rk_tris (s3_2d st)) in
      let k2 := halo_unpack (fst k1) rq (rk_quads (s3_2d st)) in
      (* recv_total_size of sendrecv_geoms_3d is an int *)
      if negb (fold_right Z.add 0 (map (fun b => Z.of_nat (length (sdata b))) recv_ranks) <? 2 ^ 31) then HOk UB else
      let packed := sendrecv_geoms_3d recv_ranks (map (fun b => length (sdata b)) recv_ranks) sdata sorder in
      match reconstruct_geoms_3d (fun r i => option_map face2_of (face_at (fst k2) r i)) packed with
      | Ok l => HOk (Ok (mkRankState3 (mkRankState (rk_own (s3_2d st)) (snd k1) (snd k2)) (s3_own st)
                  (snd (halo_unpack3 (rank_to_geoms3 me st) (map (with_geoms (fst k2)) l) (s3_elems st)))))
      | AssertFail => HOk AssertFail
      | UB => HOk UB
      end
  | XOk (Ok _), XOk o => HOk (match o with Ok _ => UB | AssertFail => AssertFail | UB => UB end)
  | XOk o, _ => HOk (match o with Ok _ => UB | AssertFail => AssertFail | UB => UB end)
  | XDeadlock, _ => HDeadlock
  | XTruncated, _ => HTruncated
  end.

(** ** the collective call *)
(** extend_halos_fixed_offset 420-643 with ndim == 3, run by all ranks *)
Inductive halo_call3 (size : Z) (m : mhier) (bx : elem3d -> box) (owner : Z -> Z) (owned unowned : Z -> list Z)
  (offset : Z) (pbc : bool) (sts sts' : Z -> rank_state3) : Prop :=
| HaloReturn3 : offset < 0 -> (forall a, 0 <= a < size -> sts' a = sts a) ->
    halo_call3 size m bx owner owned unowned offset pbc sts sts'
| HaloExchange3 (req : Z -> list (Z * list Z)) (arrival : Z -> list (Z * Z)) (rep : Z -> reply3) (torder qorder sorder : Z -> list nat) :
    0 <= offset -> offset_ok m offset = true ->
    (forall a, 0 <= a < size -> exists cells, halo_cells m offset pbc (owned a) (unowned a) = Ok cells /\
       req a = halo_rank_cells size a owner cells) ->
    (forall b, 0 <= b < size -> Permutation (arrival b) (halo_metadata size req b)) ->
    (forall b, 0 <= b < size -> halo_serve3 size m bx req b (sts b) (arrival b) = HOk (Ok (rep b))) ->
    (forall a, 0 <= a < size -> Permutation (torder a) (seq 0 (length (req a))) /\
       Permutation (qorder a) (seq 0 (length (req a))) /\ Permutation (sorder a) (seq 0 (length (req a)))) ->
    (forall a, 0 <= a < size -> halo_finish3 a (sts a) (map fst (req a))
       (fun b => pack_geoms2d (mget (p3_tris (rep b)) a)) (fun b => pack_geoms2d (mget (p3_quads (rep b)) a))
       (fun b => mget (p3_ints (rep b)) a) (torder a) (qorder a) (sorder a)
       = HOk (Ok (sts' a))) ->
    halo_call3 size m bx owner owned unowned offset pbc sts sts'.
