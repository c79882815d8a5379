(** Halo extension in 2D: src/nektar_interface/geometry_transport/halo_extension.cpp and
    include/nektar_interface/geometry_transport/halo_extension.hpp. *)
From Verif Require Import M_Bytes M_Pack2D M_RemoteGeom M_Transport M_Exchange M_MeshIf.
From Verif Require Import M_Util.
From Coq Require Import Sorting.Permutation ZArith List.
Import ListNotations.
Local Open Scope Z_scope.

(** * The cells *)
(** MeshHierarchy::linear_to_tuple_global (NESO-Particles): the inverse of tuple_to_linear_global *)
Fixpoint unlin (counts : list Z) (g : Z) : list Z :=
  match counts with [] => [] | c :: cs => g mod c :: unlin cs (g / c) end.
Definition mh_unlinear (m : mhier) (g : Z) : list Z :=
  let fine := repeat (mh_nf m) (mh_ndim m) in
  unlin (mh_dims m) (g / zprod fine) ++ unlin fine (g mod zprod fine).
Definition mh_ncells_global (m : mhier) : Z := zprod (mh_dims m) * zprod (repeat (mh_nf m) (mh_ndim m)).
(** 57-65: Cartesian tuple of a cell *)
Fixpoint cart_tuple (nf : Z) (c f : list Z) : list Z :=
  match c, f with x :: cs, y :: fs => x * nf + y :: cart_tuple nf cs fs | _, _ => [] end.
Definition cell_tuple (m : mhier) (g : Z) : list Z :=
  let t := mh_unlinear m g in cart_tuple (mh_nf m) (firstn (mh_ndim m) t) (skipn (mh_ndim m) t).
(** 74-92: one offset, per dimension; (validity, wrapped indices). C++ % is Z.rem. *)
Fixpoint offset_dims (pbc : bool) (counts t o : list Z) : bool * list Z :=
  match counts, t, o with
  | n :: ns, x :: xs, d :: ds =>
      let u := x + d in
      let r := offset_dims pbc ns xs ds in
      ((if pbc then true else (0 <=? u) && (u <? n)) && fst r, Z.rem (u + n) n :: snd r)
  | _, _, _ => (true, [])
  end.
(** halo_get_mesh_hierarchy_cells 23-108. remote_cells is a std::set. *)
Definition halo_offsets (ndim : nat) (width : Z) : list (list Z) :=
  cell_tuples (repeat (- width) ndim) (repeat width ndim).
Definition halo_visit (m : mhier) (pbc : bool) (owned : list Z) (t : list Z) (acc : outcome (list Z)) (o : list Z) : outcome (list Z) :=
  obind acc (fun s =>
    let r := offset_dims pbc (map (fun d => d * mh_nf m) (mh_dims m)) t o in
    let lin := mh_linear m (mesh_tuple_to_mh_tuple m (snd r)) in
    if negb (lin <? mh_ncells_global m) then AssertFail
    else if negb (-1 <? lin) then AssertFail
    else if negb (existsb (Z.eqb lin) owned) && fst r then Ok (set_insert lin s) else Ok s).
Definition halo_cells (m : mhier) (width : Z) (pbc : bool) (owned unowned : list Z) : outcome (list Z) :=
  fold_left (fun acc g => fold_left (halo_visit m pbc owned (cell_tuple m g)) (halo_offsets (mh_ndim m) width) acc)
    (owned ++ unowned) (Ok []).
(** extend_halos_fixed_offset 434-440 *)
Definition offset_ok (m : mhier) (offset : Z) : bool :=
  match mh_dims m with
  | [] => true
  | d :: ds => offset <=? fold_left Z.min (d :: ds) d * mh_nf m
  end.

(** * The requests *)
(** std::map<K, std::vector<V>>: m[k].push_back(v) *)
Definition mpush {V} (mp : list (Z * list V)) (k : Z) (v : V) : list (Z * list V) :=
  zassign mp k (match zget mp k with Some l => l ++ [v] | None => [v] end).
Definition mget {V} (mp : list (Z * list V)) (k : Z) : list V := match zget mp k with Some l => l | None => [] end.
(** halo_get_map_rank_to_cells 123-146 *)
Definition halo_rank_cells (size me : Z) (owner : Z -> Z) (cells : list Z) : list (Z * list Z) :=
  fold_left (fun mp c => let r := owner c in
      if (0 <=? r) && (r <? size) && negb (r =? me) then mpush mp r c else mp) cells [].
(** halo_get_num_send_ranks 159-184: the value read (as in M_Rma: one round) and
    halo_get_send_cells 207-266 on rank [me]. [req a]: the map of rank [a]; [arrival]: sources and
    counts in the order in which the ANY_SOURCE receives matched the metadata messages. *)
Definition halo_metadata (size : Z) (req : Z -> list (Z * list Z)) (me : Z) : list (Z * Z) :=
  flat_map (fun a => map (fun kv => (a, Z.of_nat (length (snd kv)))) (filter (fun kv => fst kv =? me) (req a))) (ranks size).
Definition halo_num_send_ranks (size : Z) (req : Z -> list (Z * list Z)) (me : Z) : nat :=
  length (filter (fun a => existsb (Z.eqb me) (map fst (req a))) (ranks size)).
Inductive hresult A := HOk (o : outcome A) | HDeadlock | HTruncated.
Arguments HOk {A}. Arguments HDeadlock {A}. Arguments HTruncated {A}.
Definition halo_send_cells (size : Z) (req : Z -> list (Z * list Z)) (me : Z) (arrival : list (Z * Z))
  : hresult (list Z * list (Z * list Z)) :=
  if negb (Nat.eqb (length arrival) (halo_num_send_ranks size req me)) then HDeadlock
  else if existsb (fun x => negb ((-1 <? fst x) && (fst x <? size) && negb (fst x =? me))) arrival then HOk AssertFail
  else if existsb (fun x => snd x <? Z.of_nat (length (mget (req (fst x)) me))) arrival then HTruncated
  else HOk (Ok (map fst arrival, fold_left (fun mp x => zassign mp (fst x) (mget (req (fst x)) me)) arrival [])).
(** halo_get_send_cells_set 278-288 *)
Definition halo_send_cells_set (send_ranks : list Z) (send_cells : list (Z * list Z)) : list Z :=
  fold_left (fun s r => fold_left (fun s c => set_insert c s) (mget send_cells r) s) send_ranks [].

(** * The replies *)
Definition key2 : Type := (Z * Z)%type.
Definition key_ltb (a b : key2) : bool := (fst a <? fst b) || ((fst a =? fst b) && (snd a <? snd b)).
Definition key_eqb (a b : key2) : bool := (fst a =? fst b) && (snd a =? snd b).
(** std::set<std::pair<int,int>>::insert *)
Fixpoint kset_insert (z : key2) (s : list key2) : list key2 :=
  match s with
  | [] => [z]
  | y :: r => if key_ltb z y then z :: s else if key_eqb z y then s else y :: kset_insert z r
  end.
(** What the mesh interface of a rank holds: all its own 2D elements (id -> geometry) and the copies *)
Record rank_state := mkRankState { rk_own : list (Z * geom2d); rk_tris : list remote2d; rk_quads : list remote2d }.
Notation gmap := (list (Z * list (Z * geom2d))).
Definition gput (mp : gmap) (r id : Z) (g : geom2d) : gmap := zassign mp r (zassign (rank_elems mp r) id g).
(** halo_get_rank_to_geoms_2d 338-363 *)
Definition rank_to_geoms (me : Z) (st : rank_state) : gmap :=
  fold_left (fun mp x => gput mp (r2_rank x) (r2_id x) (r2_geom x)) (rk_tris st ++ rk_quads st) [(me, rk_own st)].
(** halo_get_cells_to_geoms_map, hpp 287-307. [g2_id g] is geom->GetGlobalID(). *)
Definition cells_to_geoms (m : mhier) (bx : geom2d -> box) (known : gmap) (cells : list Z) : list (Z * list key2) :=
  fold_left (fun acc rg => fold_left (fun acc kv => fold_left (fun acc cv =>
      if existsb (Z.eqb (fst cv)) cells then mpush acc (fst cv) (fst rg, g2_id (snd kv)) else acc)
      (bounding_box_map m (bx (snd kv)) 0%R) acc) (snd rg) acc) known [].
(** 505-513, for one remote rank *)
Definition reply_set (c2g : list (Z * list key2)) (cells : list Z) : list key2 :=
  fold_left (fun s c => fold_left (fun s k => kset_insert k s) (mget c2g c) s) cells [].
(** 540-556, for one remote rank; .at() of an absent key throws (AssertFail). Shape types of
    Nektar++'s enumeration: eTriangle = 3, eQuadrilateral = 4. *)
Definition is_tri (g : geom2d) : bool := g2_shape g =? 3.
Definition is_quad (g : geom2d) : bool := g2_shape g =? 4.
Fixpoint reply_geoms (known : gmap) (keys : list key2) : outcome (list remote2d) :=
  match keys with
  | [] => Ok []
  | k :: r =>
      match zget known (fst k) with
      | None => AssertFail
      | Some m => match zget m (snd k) with
                  | None => AssertFail
                  | Some g => obind (reply_geoms known r) (fun l => Ok (mkRemote2D (fst k) (snd k) g :: l))
                  end
      end
  end.
(** what rank [me] replies to each requesting rank: triangles and quadrilaterals *)
Fixpoint halo_replies (known : gmap) (c2g : list (Z * list key2)) (send_cells : list (Z * list Z)) (send_ranks : list Z)
  : outcome (list (Z * list remote2d) * list (Z * list remote2d)) :=
  match send_ranks with
  | [] => Ok ([], [])
  | a :: r =>
      obind (reply_geoms known (reply_set c2g (mget send_cells a))) (fun l =>
      obind (halo_replies known c2g send_cells r) (fun y =>
        Ok (zassign (fst y) a (filter (fun x => is_tri (r2_geom x)) l),
            zassign (snd y) a (filter (fun x => negb (is_tri (r2_geom x)) && is_quad (r2_geom x)) l))))
  end.
Definition halo_serve (size : Z) (m : mhier) (bx : geom2d -> box) (req : Z -> list (Z * list Z)) (me : Z) (st : rank_state)
  (arrival : list (Z * Z)) : hresult (list (Z * list remote2d) * list (Z * list remote2d)) :=
  match halo_send_cells size req me arrival with
  | HOk (Ok (sr, sc)) =>
      let known := rank_to_geoms me st in
      HOk (halo_replies known (cells_to_geoms m bx known (halo_send_cells_set sr sc)) sc sr)
  | HOk AssertFail => HOk AssertFail
  | HOk UB => HOk UB
  | HDeadlock => HDeadlock
  | HTruncated => HTruncated
  end.

(** halo_exchange_geoms_2d, hpp 144-224, as seen on the requesting rank: one slot per recv rank
    (sizes received from each named source), unpacked in that order. [data b]: the bytes rank b sends here. *)
Definition halo_receive (recv_ranks : list Z) (data : Z -> list Z) (order : list nat) : xresult :=
  exchange_recv (length recv_ranks) (map (fun b => (b, Z.of_nat (length (data b)))) recv_ranks) data order.
(** halo_unpack_2D_geoms, hpp 320-340 *)
Definition halo_unpack (known : gmap) (received out : list remote2d) : gmap * list remote2d :=
  fold_left (fun st x =>
      let known := fst st in
      match zget (rank_elems known (r2_rank x)) (r2_id x) with
      | Some _ => st
      | None => (gput known (r2_rank x) (r2_id x) (r2_geom x), snd st ++ [x])
      end) received (known, out).
(** 577-588 *)
Definition halo_finish (me : Z) (st : rank_state) (recv_ranks : list Z) (tdata qdata : Z -> list Z) (torder qorder : list nat)
  : hresult rank_state :=
  match halo_receive recv_ranks tdata torder, halo_receive recv_ranks qdata qorder with
  | XOk (Ok rt), XOk (Ok rq) =>
      let k1 := halo_unpack (rank_to_geoms me st) rt (rk_tris st) in
      let k2 := halo_unpack (fst k1) rq (rk_quads st) in
      HOk (Ok (mkRankState (rk_own st) (snd k1) (snd k2)))
  | XOk (Ok _), XOk o => HOk (match o with Ok _ => UB | AssertFail => AssertFail | UB => UB end)
  | XOk o, _ => HOk (match o with Ok _ => UB | AssertFail => AssertFail | UB => UB end)
  | XDeadlock, _ => HDeadlock
  | XTruncated, _ => HTruncated
  end.

(** * The collective call *)
(** extend_halos_fixed_offset 420-588 (2D) run by all ranks: [owned a], [unowned a] are owned_mh_cells
    and unowned_mh_cells of rank [a]; any arrival order of the metadata, any completion order of the payloads. *)
Inductive halo_call (size : Z) (m : mhier) (bx : geom2d -> box) (owner : Z -> Z) (owned unowned : Z -> list Z)
  (offset : Z) (pbc : bool) (sts sts' : Z -> rank_state) : Prop :=
| HaloReturn : offset < 0 -> (forall a, 0 <= a < size -> sts' a = sts a) ->   (* 424-426 *)
    halo_call size m bx owner owned unowned offset pbc sts sts'
| HaloExchange (req : Z -> list (Z * list Z)) (arrival : Z -> list (Z * Z))
    (rep : Z -> list (Z * list remote2d) * list (Z * list remote2d)) (torder qorder : Z -> list nat) :
    0 <= offset -> offset_ok m offset = true ->
    (forall a, 0 <= a < size -> exists cells, halo_cells m offset pbc (owned a) (unowned a) = Ok cells /\
       req a = halo_rank_cells size a owner cells) ->
    (forall b, 0 <= b < size -> Permutation (arrival b) (halo_metadata size req b)) ->
    (forall b, 0 <= b < size -> halo_serve size m bx req b (sts b) (arrival b) = HOk (Ok (rep b))) ->
    (forall a, 0 <= a < size -> Permutation (torder a) (seq 0 (length (req a))) /\
       Permutation (qorder a) (seq 0 (length (req a)))) ->
    (forall a, 0 <= a < size -> halo_finish a (sts a) (map fst (req a))
       (fun b => pack_geoms2d (mget (fst (rep b)) a)) (fun b => pack_geoms2d (mget (snd (rep b)) a)) (torder a) (qorder a)
       = HOk (Ok (sts' a))) ->
    halo_call size m bx owner owned unowned offset pbc sts sts'.
