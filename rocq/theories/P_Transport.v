(** Property theorems C05-C08 (geometry exchanges). *)
From Coq Require Import Permutation.
From Verif Require Import M_Bytes M_Pack2D M_RemoteGeom M_Transport S_Transport.
From Verif Require Import L_Bytes L_Pack2D L_Transport.

(** C05: reconstruction inverts deconstruction for every list of elements whose
    faces are in the (per owning rank) face map. *)
Theorem C05_reconstruct_deconstruct : forall (fm : Z -> Z -> option face2) (l : list elem3),
  Forall (fun e => elem3_okb e = true) l ->
  (forall e f, In e l -> In f (e3_faces e) -> fm (e3_rank e) (f2_id f) = Some f) ->
  reconstruct_geoms_3d fm
    (concat (map (fun e => deconstruct_base (e3_rank e) (e3_id e) (e3_shape e) (e3_faces e)) l)) = Ok l.
Proof. exact reconstruct_complete. Qed.
Print Assumptions C05_reconstruct_deconstruct.

(** C05: whatever stream is accepted, the elements produced are well formed,
    describe exactly that stream, and every face is the one the map holds for its
    id (no missing or wrong face). *)
Theorem C05_reconstruct_sound : forall fm packed l,
  reconstruct_geoms_3d fm packed = Ok l ->
  packed = concat (map (fun e => deconstruct_base (e3_rank e) (e3_id e) (e3_shape e) (e3_faces e)) l) /\
  Forall (fun e => elem3_okb e = true) l /\
  (forall e f, In e l -> In f (e3_faces e) -> fm (e3_rank e) (f2_id f) = Some f).
Proof. exact reconstruct_sound. Qed.
Print Assumptions C05_reconstruct_sound.

(** C05: a stream of elements one of whose faces the map does not hold is rejected by an assertion; no stream of well formed
    elements is read past its end. *)
Theorem C05_missing_face_always_rejected : forall fm l, Forall (fun e => elem3_okb e = true) l ->
  let stream := concat (map (fun e => deconstruct_base (e3_rank e) (e3_id e) (e3_shape e) (e3_faces e)) l) in
  reconstruct_geoms_3d fm stream <> UB /\
  ((exists e f, In e l /\ In f (e3_faces e) /\ fm (e3_rank e) (f2_id f) = None) -> reconstruct_geoms_3d fm stream = AssertFail).
Proof.
  intros fm l H stream. destruct (reconstruct_loop_total fm l (length stream) H (dec_len l)) as [E|[(l' & E) N]];
    unfold reconstruct_geoms_3d; fold stream in E; change (concat (map dec_elem l)) with stream in E; rewrite E; (split; [discriminate|auto]).
  intros (e & f & H1 & H2 & H3). exfalso. exact (N e f H1 H2 H3).
Qed.
Print Assumptions C05_missing_face_always_rejected.
Definition ex_tet : elem3 :=
  mkElem3 1 7 Tet [mkFace2 1 true; mkFace2 2 true; mkFace2 3 true; mkFace2 4 true].
Definition ex_pyr : elem3 :=
  mkElem3 1 9 Pyr [mkFace2 11 false; mkFace2 2 true; mkFace2 3 true; mkFace2 4 true; mkFace2 5 true].
Definition ex_fm (r i : Z) : option face2 := Some (mkFace2 i (i <? 10)).
Example C05_nonvacuous :
  Forall (fun e => elem3_okb e = true) [ex_tet; ex_pyr] /\
  (forall e f, In e [ex_tet; ex_pyr] -> In f (e3_faces e) -> ex_fm (e3_rank e) (f2_id f) = Some f).
Proof.
  split; [repeat constructor|].
  intros e f [<-|[<-|[]]] Hf; cbn in Hf;
    repeat (destruct Hf as [<-|Hf]; [reflexivity|]); destruct Hf.
Qed.
Example C05_missing_face_rejected :
  reconstruct_geoms_3d (fun _ i => if i =? 3 then None else Some (mkFace2 i true))
    (deconstruct_base 1 7 Tet (e3_faces ex_tet)) = AssertFail.
Proof. vm_compute. reflexivity. Qed.

(** C06: for every destination rank the stream describes its elements in order,
    the advertised size is the stream's length, and the faces sent (quads and
    triangles separately, no face twice) are exactly the faces of its elements. *)
Theorem C06_faces_sent_are_faces_needed : forall orig g2 rem send_ranks,
  (forall r kv f, In r send_ranks -> In kv (rem r) -> In f (snd (snd kv)) -> g2 (f2_id f) = Some f) ->
  exists out, deconstruct_per_rank orig g2 rem send_ranks = Ok out /\
    Forall2 (fun r p =>
      pr_stream p = concat (map (fun kv => dec_elem (elem_of orig kv)) (rem r)) /\
      pr_size p = Z.of_nat (length (pr_stream p)) /\
      (forall i f, sent_face p i = Some f <->
         (exists kv, In kv (rem r) /\ In f (snd (snd kv)) /\ f2_id f = i)) /\
      NoDup (map fst (pr_quads p) ++ map fst (pr_tris p)) /\
      Forall (fun kf => f2_tri (snd kf) = false) (pr_quads p) /\
      Forall (fun kf => f2_tri (snd kf) = true) (pr_tris p)) send_ranks out.
Proof. exact deconstruct_per_rank_spec. Qed.
Print Assumptions C06_faces_sent_are_faces_needed.

Example C06_nonvacuous :
  exists out, deconstruct_per_rank 1 (fun i => Some (mkFace2 i (i <? 10)))
    (fun _ => [(7, (Tet, e3_faces ex_tet)); (9, (Pyr, e3_faces ex_pyr))]) [0; 4] = Ok out
    /\ map pr_quads out = [[(11, mkFace2 11 false)]; [(11, mkFace2 11 false)]]
    /\ map (fun p => map fst (pr_tris p)) out = [[1; 2; 3; 4; 5]; [1; 2; 3; 4; 5]].
Proof. eexists. vm_compute. repeat split; reflexivity. Qed.

(** C05+C06: what a destination receives suffices to rebuild its elements. *)
Theorem C06_receiver_reconstructs : forall orig g2 rem r,
  Forall (fun kv => elem3_okb (elem_of orig kv) = true) (rem r) ->
  (forall kv f, In kv (rem r) -> In f (snd (snd kv)) -> g2 (f2_id f) = Some f) ->
  exists p, deconstruct_per_rank orig g2 rem [r] = Ok [p] /\
    reconstruct_geoms_3d (fun q i => if q =? orig then sent_face p i else None) (pr_stream p)
    = Ok (map (elem_of orig) (rem r)).
Proof. exact receiver_reconstructs. Qed.
Print Assumptions C06_receiver_reconstructs.

(** C07: on a communicator of any size the ring gather ends on every rank with
    exactly the geometries of all the other ranks, each once (a permutation of
    the concatenation over the ranks different from the own), and no rank is left
    waiting. *)
Theorem C07_ring_gather : forall (size : Z) (gm : Z -> list (Z * geom2d)),
  (forall r, 0 <= r < size -> Forall (fun x => remote2d_okb x = true) (local_remotes gm r)) ->
  max_buf_size gm size < 2 ^ 31 ->
  forall r, 0 <= r < size ->
  exists l, get_all_remote_geoms_2d size gm r = Some (Ok l) /\
    Permutation l
      (concat (map (fun q => map (fun kv => mkRemote2D q (fst kv) (snd kv)) (gm q))
                   (filter (fun q => negb (q =? r)) (ranks size)))).
Proof. exact ring_gather. Qed.
Print Assumptions C07_ring_gather.

Definition ex_gm (r : Z) : list (Z * geom2d) :=
  if r =? 1 then [] else [(17 + r, r2_geom wit_tri); (40 + r, r2_geom wit_quad)].
Example C07_nonvacuous :
  (forall r, 0 <= r < 3 -> Forall (fun x => remote2d_okb x = true) (local_remotes ex_gm r)) /\
  max_buf_size ex_gm 3 < 2 ^ 31.
Proof.
  split; [|vm_compute; reflexivity].
  intros r Hr. assert (r = 0 \/ r = 1 \/ r = 2) as [->|[->| ->]] by lia;
    apply Forall_forall, forallb_forall; vm_compute; reflexivity.
Qed.

(** C08: in any order of completion of the receives, the receive buffer ends up as
    the concatenation of what each source addressed to this rank. *)
Theorem C08_exchange_delivers : forall recv_ranks recv_sizes data order,
  recv_sizes = map (fun s => length (data s)) recv_ranks ->
  Permutation order (seq 0 (length recv_ranks)) ->
  sendrecv_geoms_3d recv_ranks recv_sizes data order = concat (map data recv_ranks).
Proof. exact sendrecv_concat. Qed.
Print Assumptions C08_exchange_delivers.

Example C08_nonvacuous :
  sendrecv_geoms_3d [4; 1; 9] [2%nat; 0%nat; 3%nat]
    (fun s => if s =? 4 then [10; 11] else if s =? 9 then [20; 21; 22] else []) [2; 0; 1]%nat
  = [10; 11; 20; 21; 22].
Proof. vm_compute. reflexivity. Qed.
