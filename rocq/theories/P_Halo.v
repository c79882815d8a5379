(** Property theorems C32-C34 (halo extension in 2D). *)
From Coq Require Import Sorting.Permutation Sorting.Sorted ZArith Reals Lra Lia Bool.
From Verif Require Import M_Bytes M_Pack2D M_RemoteGeom M_Transport M_Exchange S_Exchange M_MeshIf M_Halo.
From Verif Require Import S_Grid S_MeshIf S_Halo L_Pack2D L_HaloCells L_Halo L_Halo2 L_Halo3 L_ListX P_Exchange.
From Coq Require Import List.
Import ListNotations.
Local Open Scope Z_scope.

(** C32: the cells a rank asks for are exactly those within [w] cells, periodically or not, of a
    cell it claimed, that it does not own; each once. The assertions on cell numbers hold. *)
Theorem C32_halo_cells : forall m w pbc owned unowned, mh_ok m -> width_ok m w ->
  (forall g, In g (owned ++ unowned) -> exists t, cell_at m g t) ->
  exists s, halo_cells m w pbc owned unowned = Ok s /\ StronglySorted Z.lt s /\
    forall g, In g s <-> halo_cell m w pbc owned unowned g.
Proof. exact halo_cells_spec. Qed.
Print Assumptions C32_halo_cells.
(** C32: the check on the width accepts exactly the widths up to the number of cells in every dimension *)
Theorem C32_width_check : forall m w, mh_ok m -> (offset_ok m w = true <-> Forall (fun n => w <= n) (fine_counts m)).
Proof. exact offset_ok_iff. Qed.
Print Assumptions C32_width_check.
(** a 4x2 grid: the neighbours of its first cell, on the plane and on the torus *)
Definition ex_m : mhier := mkMH [2; 1] [0%R; 0%R] 2 1%R.
Lemma ex_m_ok : mh_ok ex_m.
Proof. unfold mh_ok, ex_m; simpl; repeat split; auto; try lia; try lra; repeat constructor; lia. Qed.
Lemma ex_cell c0 f0 f1 : 0 <= c0 < 2 -> 0 <= f0 < 2 -> 0 <= f1 < 2 -> cell_at ex_m (mh_linear ex_m [c0; 0; f0; f1]) [c0 * 2 + f0; 0 * 2 + f1].
Proof.
  intros. exists [c0; 0], [f0; f1]. split; [repeat constructor; simpl; lia|]. split; [repeat constructor; simpl; lia|]. split; reflexivity.
Qed.
Example C32_nonvacuous : mh_ok ex_m /\ width_ok ex_m 1 /\ cell_at ex_m 0 [0; 0] /\ cell_at ex_m 5 [3; 0] /\
  halo_cells ex_m 1 false [0] [] = Ok [1; 2; 3] /\ halo_cells ex_m 1 true [0] [] = Ok [1; 2; 3; 5; 7].
Proof.
  split; [exact ex_m_ok|]. split; [split; [lia|repeat constructor; simpl; lia]|].
  split; [exact (ex_cell 0 0 0 ltac:(lia) ltac:(lia) ltac:(lia))|]. split; [exact (ex_cell 1 1 0 ltac:(lia) ltac:(lia) ltac:(lia))|]. split; reflexivity.
Qed.

(** C33: every halo cell is requested from its owner and from nobody else; cells without an owner
    and own cells are not requested. *)
Theorem C33_requested_from_owner : forall size me owner cells, let req := halo_rank_cells size me owner cells in
  StronglySorted Z.lt (map fst req) /\
  (forall b, In b (map fst req) <-> 0 <= b < size /\ b <> me /\ exists c, In c cells /\ owner c = b) /\
  (forall b c, In c (mget req b) <-> In c cells /\ owner c = b /\ 0 <= b < size /\ b <> me).
Proof. exact rank_cells_spec. Qed.
Print Assumptions C33_requested_from_owner.
(** C33: whatever the order in which the metadata arrives, each rank learns exactly which ranks
    asked it, and exactly the cells each of them asked for. *)
Theorem C33_owner_learns_requests : forall size req me arrival, 0 <= me < size ->
  (forall a, 0 <= a < size -> NoDup (map fst (req a))) ->
  (forall a, 0 <= a < size -> In me (map fst (req a)) -> a <> me) -> Permutation arrival (halo_metadata size req me) ->
  exists sr sc, halo_send_cells size req me arrival = HOk (Ok (sr, sc)) /\ NoDup sr /\
    (forall a, In a sr <-> 0 <= a < size /\ In me (map fst (req a))) /\
    (forall a, In a sr -> mget sc a = mget (req a) me).
Proof. exact send_cells_spec. Qed.
Print Assumptions C33_owner_learns_requests.
Example C33_requests_nonvacuous :
  let owner c := c mod 3 in
  let req a := if a =? 0 then halo_rank_cells 3 0 owner [1; 2; 4; 6] else if a =? 2 then halo_rank_cells 3 2 owner [7; 3] else [] in
  req 0 = [(1, [1; 4]); (2, [2])] /\ halo_metadata 3 req 1 = [(0, 2); (2, 1)] /\
  halo_send_cells 3 req 1 [(2, 1); (0, 2)] = HOk (Ok ([2; 0], [(0, [1; 4]); (2, [7])])).
Proof. repeat split; reflexivity. Qed.

(** C33: the collective call always completes: for every arrival order of the requests and every
    completion order of the replies no rank waits for a message that is not sent, no message is
    truncated, no look-up fails, and every rank finishes. *)
Theorem C33_call_completes : forall size m bx owner owned unowned elems,
  mh_ok m -> elems_wf size m bx elems ->
  (forall a g, 0 <= a < size -> In g (owned a ++ unowned a) -> exists t, cell_at m g t) ->
  forall w pbc sts, halo_ready size elems sts -> 0 <= w -> offset_ok m w = true ->
    exists req, (forall a, 0 <= a < size -> exists cells, halo_cells m w pbc (owned a) (unowned a) = Ok cells /\ req a = halo_rank_cells size a owner cells) /\
    forall arrival, (forall b, 0 <= b < size -> Permutation (arrival b) (halo_metadata size req b)) ->
    exists rep, (forall b, 0 <= b < size -> halo_serve size m bx req b (sts b) (arrival b) = HOk (Ok (rep b))) /\
    forall torder qorder, (forall a, 0 <= a < size -> Permutation (torder a) (seq 0 (length (req a))) /\ Permutation (qorder a) (seq 0 (length (req a)))) ->
    exists sts', (forall a, 0 <= a < size -> halo_finish a (sts a) (map fst (req a))
       (fun b => pack_geoms2d (mget (fst (rep b)) a)) (fun b => pack_geoms2d (mget (snd (rep b)) a)) (torder a) (qorder a) = HOk (Ok (sts' a))) /\
      halo_call size m bx owner owned unowned w pbc sts sts'.
Proof. exact call_total. Qed.
Print Assumptions C33_call_completes.
(** C33: what a call adds on rank [a]: exactly the elements that it did not know, that the owner
    [b] of one of its halo cells knows, and that overlap this cell. *)
Theorem C33_call_adds_exactly : forall size m bx owner owned unowned elems,
  mh_ok m -> elems_wf size m bx elems ->
  (forall a g, 0 <= a < size -> In g (owned a ++ unowned a) -> exists t, cell_at m g t) ->
  forall w pbc sts sts', halo_ready size elems sts -> halo_call size m bx owner owned unowned w pbc sts sts' ->
  forall a, 0 <= a < size ->
    exists nt nq, rk_tris (sts' a) = rk_tris (sts a) ++ nt /\ rk_quads (sts' a) = rk_quads (sts a) ++ nq /\
      forall x, In x (nt ++ nq) <->
        0 <= w /\ ~ knows a (sts a) x /\
        exists b c, 0 <= b < size /\ b <> a /\ owner c = b /\ halo_cell m w pbc (owned a) (unowned a) c /\
          knows b (sts b) x /\ overlaps m bx c x.
Proof.
  intros size m bx owner owned unowned elems Hm He Hc w pbc sts sts' Hr H a Ha.
  destruct (call_result size m bx owner owned unowned elems Hm He Hc w pbc sts sts' Hr H a Ha) as (_ & _ & nt & nq & E1 & E2 & Hn).
  exists nt, nq. split; auto. split; auto. intros x. rewrite Hn. unfold got, reply_to. split.
  - intros (H1 & (b & H2 & H3 & H4 & c & H5 & H6 & H7) & H8). split; auto. split; auto. exists b, c. auto 10.
  - intros (H1 & H8 & b & c & H2 & H3 & H5 & H6 & H4 & H7). split; auto. split; auto. exists b. split; auto. split; auto. split; auto. exists c. auto.
Qed.
Print Assumptions C33_call_adds_exactly.
(** C33: if the owner of each cell knows all elements overlapping it, as after the constructor
    (C35, see [C33_constructor_establishes]), then after the extension rank [a] knows every
    element of the mesh that overlaps an owned cell of its halo. *)
Theorem C33_halo_complete : forall size m bx owner owned unowned elems,
  mh_ok m -> elems_wf size m bx elems ->
  (forall a g, 0 <= a < size -> In g (owned a ++ unowned a) -> exists t, cell_at m g t) ->
  forall w pbc sts sts', halo_ready size elems sts -> owners_know size m bx owner elems sts -> 0 <= w ->
  halo_call size m bx owner owned unowned w pbc sts sts' ->
  forall a g x, 0 <= a < size -> halo_cell m w pbc (owned a) (unowned a) g -> 0 <= owner g < size ->
      element size elems x -> overlaps m bx g x -> knows a (sts' a) x.
Proof. exact call_complete. Qed.
Print Assumptions C33_halo_complete.
(** the state left by the constructor: with the triangles and quadrilaterals of C35 a rank is
    consistent and knows everything that overlaps its cells *)
Theorem C33_constructor_establishes : forall size owner m bx tris quads elems,
  mesh_ok size owner m bx tris quads -> elems_wf size m bx elems ->
  (forall a e, 0 <= a < size -> (In e (elems a) <-> In e (tris a) \/ In e (quads a))) ->
  (forall a e, 0 <= a < size -> In e (tris a) -> is_tri (snd e) = true) ->
  (forall a e, 0 <= a < size -> In e (quads a) -> is_quad (snd e) = true) ->
  forall sts, (forall a, 0 <= a < size -> rk_own (sts a) = elems a /\
    holds_exactly size owner m bx tris a (rk_tris (sts a)) /\ holds_exactly size owner m bx quads a (rk_quads (sts a))) ->
  (forall a, 0 <= a < size -> state_wf size elems a (sts a)) /\ owners_know size m bx owner elems sts.
Proof.
  intros size owner m bx tris quads elems Hmesh He Hel Ht Hq sts Hs.
  assert (Hone : forall r x y, 0 <= r < size -> In x (elems r) -> In y (elems r) -> fst x = fst y -> x = y).
  { intros r x y Hr Hx Hy E. destruct (He r Hr) as [S _]. revert Hx Hy S. generalize (elems r). clear -E.
    induction l as [|z l IH]; simpl; [tauto|]; intros [Hx|Hx] [Hy|Hy] S; inversion S; subst; auto; try congruence;
      rewrite Forall_forall in *; [specialize (H2 (fst y) ltac:(apply in_map; auto))|specialize (H2 (fst x) ltac:(apply in_map; auto))]; lia. }
  split.
  - intros a Ha. destruct (Hs a Ha) as (Eo & [N1 T] & [N2 Q]). split; [auto|].
    assert (Hin : forall x, In x (rk_tris (sts a) ++ rk_quads (sts a)) -> 0 <= r2_rank x < size /\ r2_rank x <> a /\ In (r2_id x, r2_geom x) (elems (r2_rank x))).
    { intros x Hx. apply in_app_iff in Hx as [Hx|Hx]; [apply T in Hx as (A & B & C & _)|apply Q in Hx as (A & B & C & _)]; (split; [auto|split; auto]); apply Hel; auto. }
    split; [exact Hin|]. split; [|split].
    + intros x Hx. apply T in Hx as (A & B & C & _). apply (Ht (r2_rank x) _ A C).
    + intros x Hx. apply Q in Hx as (A & B & C & _). apply (Hq (r2_rank x) _ A C).
    + assert (Hk : forall x y, In x (rk_tris (sts a) ++ rk_quads (sts a)) -> In y (rk_tris (sts a) ++ rk_quads (sts a)) -> key_of x = key_of y -> x = y).
      { intros x y Hx Hy E. apply Hin in Hx as (X1 & _ & X2). apply Hin in Hy as (Y1 & _ & Y2). destruct x as [r i g], y as [r' i' g']. unfold key_of in E. simpl in *.
        injection E as -> ->. pose proof (Hone r' _ _ X1 X2 Y2 eq_refl) as E. injection E as ->. auto. }
      assert (Hn : NoDup (rk_tris (sts a) ++ rk_quads (sts a))).
      { apply L_ListX.NoDup_app_intro; auto. intros x X1 X2. apply T in X1 as (A & B & C & _). apply Q in X2 as (_ & _ & C' & _).
        apply (Ht _ _ A) in C. apply (Hq _ _ A) in C'. unfold is_tri, is_quad in *. cbn [snd] in *. apply Z.eqb_eq in C, C'. lia. }
      revert Hk Hn. generalize (rk_tris (sts a) ++ rk_quads (sts a)). clear. induction l as [|x l IH]; simpl; intros Hk Hn; constructor.
      * intros Hi. apply in_map_iff in Hi as (y & E & Hy). inversion Hn; subst. apply H1. rewrite (Hk x y); auto.
      * inversion Hn; subst. apply IH; auto.
  - intros g x Hg [X1 X2] Hov. destruct (Hs (owner g) Hg) as (Eo & [N1 T] & [N2 Q]). destruct (Z.eq_dec (r2_rank x) (owner g)) as [E|Hne].
    + left. split; auto. rewrite Eo, <- E. auto.
    + right. apply in_app_iff. destruct Hov as (c & C1 & C2). apply Hel in X2 as [X2|X2]; auto; [left; apply T|right; apply Q]; repeat split; auto; try lia; eauto.
Qed.
Print Assumptions C33_constructor_establishes.

(** the hypotheses of C33 and C34 are met and something is added: rank 1 owns the grid and an
    element in cell 4, rank 0 claimed cell 1 next to it *)
Definition ex_bx (_ : geom2d) : box := [(1.25%R, 1.75%R); (0%R, 0.5%R)].
Definition ex_elems (a : Z) : list (Z * geom2d) := if a =? 1 then [(g2_id (r2_geom wit_tri), r2_geom wit_tri)] else [].
Definition ex_unowned (a : Z) : list Z := if a =? 0 then [1] else [].
Definition ex_sts (a : Z) : rank_state := mkRankState (ex_elems a) [] [].
Definition ex_x : remote2d := mkRemote2D 1 (g2_id (r2_geom wit_tri)) (r2_geom wit_tri).
Example C33_call_nonvacuous :
  mh_ok ex_m /\ elems_wf 2 ex_m ex_bx ex_elems /\
  (forall a g, 0 <= a < 2 -> In g ([] ++ ex_unowned a) -> exists t, cell_at ex_m g t) /\
  halo_ready 2 ex_elems ex_sts /\ offset_ok ex_m 1 = true /\ owners_know 2 ex_m ex_bx (fun _ => 1) ex_elems ex_sts /\
  halo_cell ex_m 1 false [] (ex_unowned 0) 4 /\ element 2 ex_elems ex_x /\ overlaps ex_m ex_bx 4 ex_x /\ ~ knows 0 (ex_sts 0) ex_x.
Proof.
  split; [exact ex_m_ok|]. split; [|split; [|split; [|split; [|split; [|split; [|split; [|split]]]]]]].
  - intros a Ha. unfold ex_elems. destruct (a =? 1); simpl; (split; [repeat constructor|]).
    + intros id g [E|[]]. injection E as <- <-. split; [auto|]. split; auto.
    + intros id g [].
  - intros a g _. unfold ex_unowned. destruct (a =? 0); simpl; [|tauto]. intros [<-|[]]. eexists. exact (ex_cell 0 1 0 ltac:(lia) ltac:(lia) ltac:(lia)).
  - intros a Ha. split.
    + split; [reflexivity|]. simpl. repeat split; try tauto; try constructor.
    + unfold ex_sts, ex_elems. destruct (a =? 1) eqn:E; [apply Z.eqb_eq in E; subst a|]; (split; [repeat constructor|vm_compute; reflexivity]).
  - reflexivity.
  - intros g x _ [X1 X2] _. left. unfold ex_elems in X2. destruct (Z.eqb_spec (r2_rank x) 1) as [E|E]; [|destruct X2]. split; auto.
  - split; [tauto|]. exists 1, [1; 0], [2; 0]. split; [simpl; auto|].
    split; [exact (ex_cell 0 1 0 ltac:(lia) ltac:(lia) ltac:(lia))|]. split; [exact (ex_cell 1 0 0 ltac:(lia) ltac:(lia) ltac:(lia))|].
    split; [reflexivity|]. split; [reflexivity|]. intros [|[|d]] n x y; simpl; intros [=] [=] [=]; subst; simpl; try lia; destruct d; discriminate.
  - split; [simpl; lia|]. unfold ex_elems. simpl. auto.
  - exists (grid_cell [0%R; 0%R] (mh_cw ex_m) [2; 0]). split.
    + exists [1; 0]%Z, [0; 0]%Z. split; [repeat constructor; simpl; lia|]. split; [repeat constructor; simpl; lia|]. split; reflexivity.
    + unfold ex_m, mh_cw, ex_bx. simpl. unfold Rmax, Rmin. repeat destruct (Rle_dec _ _); lra.
  - intros [[E _]|[]]. discriminate.
Qed.

(** C34: over any sequence of extensions with any widths: the copies held before are kept, in
    place; every copy held is of an element of another rank; no element is held twice. *)
Theorem C34_no_duplicates : forall size m bx owner owned unowned elems,
  mh_ok m -> elems_wf size m bx elems ->
  (forall a g, 0 <= a < size -> In g (owned a ++ unowned a) -> exists t, cell_at m g t) ->
  forall sts sts', (forall a, 0 <= a < size -> state_wf size elems a (sts a)) ->
  halo_history size m bx owner owned unowned sts sts' ->
  forall a, 0 <= a < size ->
    NoDup (map key_of (rk_tris (sts' a) ++ rk_quads (sts' a))) /\
    (forall x, In x (rk_tris (sts' a) ++ rk_quads (sts' a)) -> r2_rank x <> a /\ element size elems x) /\
    rk_own (sts' a) = rk_own (sts a) /\
    (exists nt nq, rk_tris (sts' a) = rk_tris (sts a) ++ nt /\ rk_quads (sts' a) = rk_quads (sts a) ++ nq).
Proof.
  intros size m bx owner owned unowned elems Hm He Hc sts sts' Hs H a Ha.
  destruct (history_result size m bx owner owned unowned elems Hm He Hc sts sts' Hs H a Ha) as ((W1 & W2 & _ & _ & W5) & Eo & Hn).
  split; [auto|]. split; [|auto]. intros x Hx. destruct (W2 x Hx) as (A & B & C). split; auto. split; auto.
Qed.
Print Assumptions C34_no_duplicates.
(** C34 is about real histories: from the state above a call completes and adds the element once;
    calling again changes nothing *)
Example C34_history_nonvacuous : exists sts', halo_history 2 ex_m ex_bx (fun _ => 1) (fun _ => []) ex_unowned ex_sts sts' /\
  knows 0 (sts' 0) ex_x.
Proof.
  destruct C33_call_nonvacuous as (Hm & He & Hc & Hr & Hw & Ho & Hg & Hx & Hov & _).
  destruct (call_total 2 ex_m ex_bx (fun _ => 1) (fun _ => []) ex_unowned ex_elems Hm He Hc 1 false ex_sts Hr ltac:(lia) Hw) as (req & _ & H).
  destruct (H (halo_metadata 2 req)) as (rep & _ & H2); [auto|].
  destruct (H2 (fun a => seq 0 (length (req a))) (fun a => seq 0 (length (req a)))) as (sts' & _ & Hcall); [auto|].
  exists sts'. split; [eapply HHCall; [apply HHNil|intros a Ha; apply Hr; auto|exact Hcall]|].
  eapply (call_complete 2 ex_m ex_bx (fun _ => 1) (fun _ => []) ex_unowned ex_elems Hm He Hc 1 false ex_sts sts' Hr Ho); eauto; lia.
Qed.
