(** Property theorems C35 (the initial geometry exchange of the mesh interface). *)
From Coq Require Import Sorting.Permutation Sorting.Sorted ZArith Reals Lra Lia Bool.
From Verif Require Import M_Bytes M_Pack2D M_RemoteGeom M_Transport M_Exchange S_Exchange M_MeshIf M_ExchangeMesh M_Rma.
From Verif Require Import S_Grid S_MeshIf L_Pack2D L_MeshIf L_MeshIf2 L_Exchange L_ExchangeMesh L_Transport L_Rma L_ExchangeEnd.
From Coq Require Import List.
Import ListNotations.
Local Open Scope Z_scope.

(** C35: the counting rounds. Under every interleaving of the ranks and for any number of
    rounds in a row, the count rank [r] reads in round [k] is the number of ranks that send to it
    in round [k] ... *)
Theorem C35_counts_agree : forall n sends,
  (forall k a t, In t (sends k a) -> (t < n)%nat) -> (forall k a, NoDup (sends k a)) ->
  forall g, greach n sends g -> forall r k v, (r < n)%nat ->
  nth_error (rs_reads (gs_rank g r)) k = Some v ->
  v = length (filter (fun a => existsb (Nat.eqb r) (sends k a)) (seq 0 n)).
Proof. exact rma_counts. Qed.
Print Assumptions C35_counts_agree.
(** ... and no reachable state is stuck. *)
Theorem C35_counting_never_stuck : forall n sends, (forall k a t, In t (sends k a) -> (t < n)%nat) -> (0 < n)%nat ->
  forall g, greach n sends g -> exists r g', (r < n)%nat /\ gstep n sends r g g'.
Proof. intros n sends Hs Hn g Hg. exact (progress n sends Hs g Hn Hg). Qed.
Print Assumptions C35_counting_never_stuck.
(** a schedule of one rank that counts itself twice round: the reads are there to be counted *)
Definition ex_reads (g : gstate) := rs_reads (gs_rank g 0).
Example C35_counts_nonvacuous : exists g, greach 1 (fun _ _ => [0%nat]) g /\ ex_reads g = [1%nat].
Proof.
  assert (H0 := GInit 1 (fun _ _ => [0%nat])).
  assert (Hq : forall q, (q < 1)%nat -> q = O) by (intros; lia).
  match type of H0 with greach ?n ?s ?g => pose proof (GStep n s g _ O H0 (le_n 1) (SZero n s O g eq_refl)) as H1 end.
  match type of H1 with greach ?n ?s ?g => pose proof (GStep n s g _ O H1 (le_n 1) (SEnter n s O g eq_refl)) as H2 end.
  match type of H2 with greach ?n ?s ?g => assert (W : forall q, (q < 1)%nat -> reached (gs_rank g q) 0 2) by (intros q HH; replace q with O by lia; right; simpl; lia); pose proof (GStep n s g _ O H2 (le_n 1) (SWait n s O g eq_refl W)) as H3; clear W end.
  match type of H3 with greach ?n ?s ?g => pose proof (GStep n s g _ O H3 (le_n 1) (SAcc n s O g O [] eq_refl eq_refl)) as H4 end.
  match type of H4 with greach ?n ?s ?g => pose proof (GStep n s g _ O H4 (le_n 1) (SBarrier n s O g eq_refl eq_refl)) as H5 end.
  match type of H5 with greach ?n ?s ?g => assert (W : forall q, (q < 1)%nat -> reached (gs_rank g q) 0 4) by (intros q HH; replace q with O by lia; right; simpl; lia); pose proof (GStep n s g _ O H5 (le_n 1) (SLeave n s O g eq_refl W)) as H6; clear W end.
  match type of H6 with greach ?n ?s ?g => pose proof (GStep n s g _ O H6 (le_n 1) (SRead n s O g eq_refl)) as H7 end.
  eexists. split; [exact H7|]. reflexivity.
Qed.

(** C35: rank [a] sends to rank [b] exactly when b is another rank owning a cell that [a] claimed;
    ranks are listed once in increasing order and the elements for [b] are those registered with such cells *)
Theorem C35_who_sends_what : forall size owner d a, rank_ok size owner d -> 0 <= a < size ->
  exists send rem,
    exchange_get_send_ranks size a owner (rd_elems d) (rd_map d) (unowned_cells owner a (rd_claims d)) = Ok (send, rem) /\
    StronglySorted Z.lt send /\
    (forall b, In b send <-> b <> a /\ exists c, In c (rd_claims d) /\ owner c = b) /\
    (forall b, b <> a -> rank_elems rem b = wanted owner d b).
Proof. exact send_ranks_spec. Qed.
Print Assumptions C35_who_sends_what.
(** every claimed cell is in exactly one of the two lists, according to its owner *)
Theorem C35_cells_split : forall owner me claims c,
  (In c (owned_cells owner me claims) <-> In c claims /\ owner c = me) /\
  (In c (unowned_cells owner me claims) <-> In c claims /\ owner c <> me).
Proof.
  intros owner me claims c. unfold owned_cells, unowned_cells. rewrite <- !in_rev, !filter_In, negb_true_iff, Z.eqb_eq, Z.eqb_neq. tauto.
Qed.
Print Assumptions C35_cells_split.

(** C35: whatever the order in which the size messages arrive and the payloads complete, every
    rank ends up with exactly the elements wanted from each other rank; nothing is truncated and
    no receive is left waiting. *)
Theorem C35_exchange_delivers : forall size owner data,
  (forall a, 0 <= a < size -> rank_ok size owner (data a)) ->
  (forall a b, 0 <= a < size -> packable size a (wanted owner (data a) b)) ->
  forall send rem, (forall a, 0 <= a < size ->
    exchange_get_send_ranks size a owner (rd_elems (data a)) (rd_map (data a)) (unowned_cells owner a (rd_claims (data a))) = Ok (send a, rem a)) ->
  forall me arrival order, 0 <= me < size ->
    let msg a b := pack_geoms2d (remotes a (rank_elems (rem a) b)) in
    Permutation arrival (size_messages size send msg me) ->
    Permutation order (seq 0 (num_recv_ranks size send me)) ->
    exists l, exchange_recv (num_recv_ranks size send me) arrival (fun a => msg a me) order = XOk (Ok l) /\
      Permutation l (concat (map (fun a => remotes a (wanted owner (data a) me)) (filter (fun a => negb (a =? me)) (ranks size)))).
Proof. exact exchange_delivers. Qed.
Print Assumptions C35_exchange_delivers.
(** The bound on the bytes is needed: messages that are each counted by an int (and can each be
    packed, sent and received) overflow the product of the largest size and the number of senders.
    "Every exchange in which each message is shorter than 2^31 bytes delivers" is false. *)
Theorem C35_buffer_size_refuted :
  ~ (forall num arrival (data : Z -> list Z) order,
       num = length arrival -> Permutation order (seq 0 num) ->
       Forall (fun ss => snd ss = Z.of_nat (length (data (fst ss))) /\ snd ss < 2 ^ 31) arrival ->
       exists l, exchange_recv num arrival data order = XOk l /\ l <> UB).
Proof.
  intros H.
  assert (exists data : Z -> list Z, forall s, 2 ^ 30 = Z.of_nat (length (data s))) as (data & L).
  { assert (Hp : 0 <= 2 ^ 30) by (apply Z.pow_nonneg; lia). revert Hp. generalize (2 ^ 30). intros n Hp.
    exists (fun _ => repeat 0 (Z.to_nat n)). intros _. rewrite repeat_length. lia. }
  destruct (H 2%nat [(0, 2 ^ 30); (1, 2 ^ 30)] data [0; 1]%nat) as (l & E & Hl).
  - reflexivity.
  - apply Permutation_refl.
  - repeat constructor; cbn [fst snd]; auto; apply L.
  - apply Hl. unfold exchange_recv in E. change (negb (Nat.eqb (length [(0, 2 ^ 30); (1, 2 ^ 30)]) 2)) with false in E. cbv iota in E.
    change (negb (max_size (map snd [(0, 2 ^ 30); (1, 2 ^ 30)]) * Z.of_nat 2 <? 2 ^ 31)) with true in E. cbv iota in E. congruence.
Qed.
Print Assumptions C35_buffer_size_refuted.

Definition ex_data (a : Z) : rank_data :=
  if a =? 0 then mkRankData [(17, r2_geom wit_tri); (20, r2_geom wit_tri)] [4; 6; 9] [(4, [17]); (6, [17; 20]); (9, [20])]
  else mkRankData [(17, r2_geom wit_quad)] [6] [(6, [17])].
Definition ex_owner (c : Z) : Z := if c =? 4 then 1 else if c =? 6 then 2 else 0.
Example C35_exchange_nonvacuous :
  (forall a, 0 <= a < 3 -> rank_ok 3 ex_owner (ex_data a)) /\
  (forall a b, 0 <= a < 3 -> packable 3 a (wanted ex_owner (ex_data a) b)) /\
  map fst (wanted ex_owner (ex_data 0) 2) = [17; 20] /\ map fst (wanted ex_owner (ex_data 0) 1) = [17].
Proof.
  assert (Hr : forall a, 0 <= a < 3 -> a = 0 \/ a = 1 \/ a = 2) by (intros; lia).
  split; [|split; [|split; reflexivity]].
  - intros a Ha. destruct (Hr a Ha) as [->|[->| ->]]; (split; [|split]); cbn.
    1,4,7: intros c Hc; repeat (destruct Hc as [<-|Hc]; [cbn; lia|]); destruct Hc.
    1,3,5: intros c id; unfold registered, geom_ids; cbn;
      repeat match goal with |- context [if ?b then _ else _] => destruct b end; cbn; tauto.
    all: repeat constructor.
  - assert (Hsub : forall (p : Z * geom2d -> bool) a x, 0 <= a < 3 ->
       remote2d_okb (mkRemote2D a 17 x) = true -> remote2d_okb (mkRemote2D a 20 x) = true -> Z.of_nat (length (pack_geom2d a 17 x)) < 1000 -> Z.of_nat (length (pack_geom2d a 20 x)) < 1000 ->
       packable 3 a (filter p [(17, x); (20, x)]) /\ packable 3 a (filter p [(17, x)])).
    { intros p a x _ H1 H2 H3 H4. unfold packable, remotes, pack_geoms2d.
      assert (E4 : forall n, length (enc_int n) = 4%nat) by reflexivity.
      cbn [filter]. destruct (p (17, x)), (p (20, x)); cbn [map concat fst snd r2_rank r2_id r2_geom]; rewrite ?app_nil_r;
        repeat split; repeat constructor; auto; rewrite ?app_length, ?Nat2Z.inj_add, ?E4; cbn [Z.of_nat]; lia. }
    intros a b Ha. unfold wanted.
    destruct (Hr a Ha) as [->|[->| ->]]; cbn [ex_data Z.eqb rd_elems rd_claims rd_map];
      eapply Hsub; try lia; reflexivity.
Qed.
(** both orders of arrival on rank 2 *)
Example C35_exchange_runs :
  let send a := if a =? 0 then [1; 2] else if a =? 1 then [2] else [] in
  let msg a b := pack_geoms2d (remotes a (wanted ex_owner (ex_data a) b)) in
  let sz a := (a, Z.of_nat (length (msg a 2))) in
  size_messages 3 send msg 2 = [sz 0; sz 1] /\
  (exists l, exchange_recv 2 [sz 1; sz 0] (fun a => msg a 2) [1; 0]%nat = XOk (Ok l) /\
     map (fun r => (r2_rank r, r2_id r)) l = [(1, 17); (0, 17); (0, 20)]).
Proof. split; [reflexivity|]. eexists. split; [vm_compute; reflexivity|reflexivity]. Qed.

(** C35: the neighbours are the owners of the copies held, each once *)
Theorem C35_neighbour_ranks : forall tris quads, StronglySorted Z.lt (neighbour_ranks tris quads) /\
  forall r, In r (neighbour_ranks tris quads) <-> exists g, In g (tris ++ quads) /\ r2_rank g = r.
Proof. exact neighbour_spec. Qed.
Print Assumptions C35_neighbour_ranks.

(** C35 with C29/C30, end to end in 2D: after the constructor, the triangles (and the
    quadrilaterals) rank [me] holds copies of are exactly those of the other ranks whose bounding
    box overlaps a cell of the mesh hierarchy that [me] owns, each once. *)
Section EndToEnd.
  Context (size : Z) (owner : Z -> Z) (m : mhier) (bx : geom2d -> box) (tris quads : Z -> list (Z * geom2d)).
  Definition mesh_ok : Prop := mh_ok m /\
    (forall a e, In e (tris a ++ quads a) -> length (bx (snd e)) = mh_ndim m) /\
    (forall a, 0 <= a < size -> StronglySorted Z.lt (map fst (tris a)) /\ StronglySorted Z.lt (map fst (quads a))) /\
    (forall a e g c, 0 <= a < size -> In e (tris a ++ quads a) -> fine_cell m g c -> (0 < overlap_volume (bx (snd e)) c)%R -> 0 <= owner g < size).
  (** the three outputs of the claims of rank [a] *)
  Definition cl a := fst (fst (interface_claims_2d m bx (tris a) (quads a))).
  Definition gmt a := snd (fst (interface_claims_2d m bx (tris a) (quads a))).
  Definition gmq a := snd (interface_claims_2d m bx (tris a) (quads a)).
  (** "[me] holds exactly the overlapping elements" *)
  Definition holds_exactly (elems : Z -> list (Z * geom2d)) (me : Z) (l : list remote2d) : Prop :=
    NoDup l /\ forall x, In x l <-> 0 <= r2_rank x < size /\ r2_rank x <> me /\ In (r2_id x, r2_geom x) (elems (r2_rank x)) /\
      exists g c, owner g = me /\ fine_cell m g c /\ (0 < overlap_volume (bx (r2_geom x)) c)%R.
  Definition exchange_ok (elems : Z -> list (Z * geom2d)) (gm : Z -> list (Z * list Z)) : Prop :=
    (forall a b, 0 <= a < size -> packable size a (wanted owner (mkRankData (elems a) (cl a) (gm a)) b)) ->
    forall send rem me arrival order,
    (forall a, 0 <= a < size -> exchange_get_send_ranks size a owner (elems a) (gm a) (unowned_cells owner a (cl a)) = Ok (send a, rem a)) ->
    0 <= me < size ->
    let msg a b := pack_geoms2d (remotes a (rank_elems (rem a) b)) in
    Permutation arrival (size_messages size send msg me) -> Permutation order (seq 0 (num_recv_ranks size send me)) ->
    exists l, exchange_recv (num_recv_ranks size send me) arrival (fun a => msg a me) order = XOk (Ok l) /\ holds_exactly elems me l.
End EndToEnd.
Theorem C35_overlapping_elements_arrive : forall size owner m bx tris quads, mesh_ok size owner m bx tris quads ->
  exchange_ok size owner m bx tris quads tris (gmt m bx tris quads) /\
  exchange_ok size owner m bx tris quads quads (gmq m bx tris quads).
Proof.
  intros size owner m bx tris quads (Hm & Hb & Hs & Ho).
  split; intros Hp send rem me arrival order Hse Hme msg HA HO.
  - apply (end_to_end size owner m bx (fun a => tris a ++ quads a) tris (cl m bx tris quads) (gmt m bx tris quads)) with (send := send) (rem := rem); auto.
    + intros; apply in_app_iff; auto.
    + intros a Ha. apply Hs; auto.
    + intros a g. apply claims_spec; auto. apply Hb.
    + intros a g. apply tri_map_spec; auto. apply Hb.
  - apply (end_to_end size owner m bx (fun a => tris a ++ quads a) quads (cl m bx tris quads) (gmq m bx tris quads)) with (send := send) (rem := rem); auto.
    + intros; apply in_app_iff; auto.
    + intros a Ha. apply Hs; auto.
    + intros a g. apply claims_spec; auto. apply Hb.
    + intros a g. apply quad_map_spec; auto. apply Hb.
Qed.
Print Assumptions C35_overlapping_elements_arrive.
(** and the sends they rest on always succeed *)
Theorem C35_sends_succeed : forall size owner m bx tris quads, mesh_ok size owner m bx tris quads ->
  forall a, 0 <= a < size ->
  (exists sr rem, exchange_get_send_ranks size a owner (tris a) (gmt m bx tris quads a) (unowned_cells owner a (cl m bx tris quads a)) = Ok (sr, rem)) /\
  (exists sr rem, exchange_get_send_ranks size a owner (quads a) (gmq m bx tris quads a) (unowned_cells owner a (cl m bx tris quads a)) = Ok (sr, rem)).
Proof.
  intros size owner m bx tris quads (Hm & Hb & Hs & Ho) a Ha. split.
  - destruct (send_ranks_spec size owner (mkRankData (tris a) (cl m bx tris quads a) (gmt m bx tris quads a)) a) as (sr & rem & E & _); eauto.
    apply (data_ok size owner m bx (fun a => tris a ++ quads a) tris (cl m bx tris quads) (gmt m bx tris quads)); auto.
    + intros b Hb'. apply Hs; auto.
    + intros b g. apply claims_spec; auto. apply Hb.
    + intros b g. apply tri_map_spec; auto. apply Hb.
  - destruct (send_ranks_spec size owner (mkRankData (quads a) (cl m bx tris quads a) (gmq m bx tris quads a)) a) as (sr & rem & E & _); eauto.
    apply (data_ok size owner m bx (fun a => tris a ++ quads a) quads (cl m bx tris quads) (gmq m bx tris quads)); auto.
    + intros b Hb'. apply Hs; auto.
    + intros b g. apply claims_spec; auto. apply Hb.
    + intros b g. apply quad_map_spec; auto. apply Hb.
Qed.
Print Assumptions C35_sends_succeed.
Example C35_mesh_nonvacuous : let m := mkMH [2; 1] [0%R; 0%R] 2 1%R in
  let tris a := if a =? 0 then [(7, r2_geom wit_tri)] else [] in
  mesh_ok 2 (fun _ => 1) m (fun _ => [(0.25%R, 0.75%R); (0%R, 0.5%R)]) tris (fun _ => []) /\
  exists g c, fine_cell m g c /\ (0 < overlap_volume [(0.25%R, 0.75%R); (0%R, 0.5%R)] c)%R.
Proof.
  intros m tris.
  assert (Hm : mh_ok m) by (unfold mh_ok, m; simpl; repeat split; auto; try lia; try lra; repeat constructor; lia).
  split; [split; [exact Hm|split; [|split]]|].
  - intros a e _. reflexivity.
  - intros a _. split; [unfold tris; destruct (a =? 0); repeat constructor|constructor].
  - intros; lia.
  - exists 1, (grid_cell [0%R; 0%R] (mh_cw m) [1; 0]). split.
    + exists [0; 0]%Z, [1; 0]%Z. split; [repeat constructor; simpl; lia|]. split; [repeat constructor; simpl; lia|].
      split; reflexivity.
    + unfold m, mh_cw. simpl. unfold Rmax, Rmin. repeat destruct (Rle_dec _ _); lra.
Qed.
