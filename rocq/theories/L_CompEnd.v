From Coq Require Import Sorting.Permutation Sorting.Sorted ZArith Lia Bool Reals Lra.
From Verif Require Import L_Coarse M_Bytes M_Transport M_Exchange M_Util M_MeshIf S_Grid S_MeshIf S_Halo M_LinePlane S_LinePlane M_Composite S_Composite.
From Verif Require Import L_RealBase L_Grid L_MeshIf L_MeshIf2 L_Transport L_Exchange L_HaloCells L_LinePlane L_CompCells L_Composite.
From Flocq Require Import Core.Raux.
From Coq Require Import List.
Import ListNotations.
Local Open Scope Z_scope.

(** * the container *)
Definition cget (mp : list (Z * list cgeom)) (c : Z) : list cgeom := match zget mp c with Some l => l | None => [] end.
Lemma cget_push mp c x c' : cget (cpush mp c x) c' = if c' =? c then cget mp c ++ [x] else cget mp c'.
Proof.
  unfold cget, cpush. rewrite zget_zassign. destruct (Z.eqb_spec c' c) as [->|]; auto. now destruct (zget mp c).
Qed.
Lemma cell_geom_inner (has_owner : Z -> bool) x l : forall mp y c,
  In y (cget (fold_left (fun mp (cv : Z * R) => if has_owner (fst cv) then cpush mp (fst cv) x else mp) l mp) c) <->
  In y (cget mp c) \/ (y = x /\ has_owner c = true /\ In c (map fst l)).
Proof.
  induction l as [|[c0 v0] l IH]; intros mp y c; simpl; [tauto|]. rewrite IH. destruct (has_owner c0) eqn:E.
  - rewrite cget_push. destruct (Z.eqb_spec c c0) as [->|Hne].
    + rewrite in_app_iff. simpl. intuition.
    + intuition. congruence.
  - intuition. congruence.
Qed.
Lemma cell_geom_in m bx has_owner l y c : In y (cget (cell_geom_map m bx has_owner l) c) <->
  In y l /\ has_owner c = true /\ In c (map fst (bounding_box_map m (bx (cg_geom y)) box_padding)).
Proof.
  unfold cell_geom_map.
  assert (G : forall l mp, In y (cget (fold_left (fun mp x => fold_left (fun mp cv => if has_owner (fst cv) then cpush mp (fst cv) x else mp)
    (bounding_box_map m (bx (cg_geom x)) box_padding) mp) l mp) c) <-> In y (cget mp c) \/ (In y l /\ has_owner c = true /\ In c (map fst (bounding_box_map m (bx (cg_geom y)) box_padding)))).
  { clear l. induction l as [|x l IH]; intros mp; simpl; [tauto|]. rewrite IH, cell_geom_inner. split.
    - intros [[H|(-> & H)]|H]; tauto.
    - intros [H|([->|H] & H')]; tauto. }
  rewrite G. unfold cget at 1. simpl. tauto.
Qed.
Lemma container_in m bx has_owner size gcs c y : In y (container size (fun a => cell_geom_map m bx has_owner (gcs a)) c) <->
  exists b, 0 <= b < size /\ In y (gcs b) /\ has_owner c = true /\ In c (map fst (bounding_box_map m (bx (cg_geom y)) box_padding)).
Proof.
  unfold container. rewrite in_flat_map. split.
  - intros (b & Hb & H). exists b. apply in_ranks in Hb. apply cell_geom_in in H. tauto.
  - intros (b & Hb & H). exists b. split; [now apply in_ranks|]. now apply cell_geom_in.
Qed.
(** * positive overlap *)
Lemma overlap_pos (p : list R) : forall a b, in_interior p a -> in_box p b -> solid b -> (0 < overlap_volume a b)%R.
Proof.
  induction p as [|x p IH]; intros a b Ha Hb Hs; inversion Ha as [|? [la ua] ? a' Hx Ha']; inversion Hb as [|? [lb ub] ? b' Hy Hb']; subst; simpl; [lra|].
  inversion Hs; subst. simpl in *. apply Rmult_lt_0_compat; [|apply IH; auto].
  unfold Rmax, Rmin. repeat destruct (Rle_dec _ _); lra.
Qed.
Lemma in_cell_box (f : nat -> R -> Z) w : forall (coords : list R) (origin : list R) k,
  length coords = length origin ->
  (forall d x o, nth_error coords d = Some x -> nth_error origin d = Some o ->
     (o + IZR (f (k + d)%nat x) * w <= x <= o + (IZR (f (k + d)%nat x) + 1) * w)%R) ->
  in_box coords (grid_cell origin w (map (fun dx => f (fst dx) (snd dx)) (combine (seq k (length coords)) coords))).
Proof.
  induction coords as [|x cs IH]; intros [|o os] k Hl H; simpl in *; try discriminate; constructor.
  - cbn [fst snd]. specialize (H O x o eq_refl eq_refl). rewrite Nat.add_0_r in H. lra.
  - apply IH; [lia|]. intros d y o' H1 H2. replace (S k + d)%nat with (k + S d)%nat by lia. apply H; auto.
Qed.
Lemma grid_cell_solid origin w : (0 < w)%R -> forall t, solid (grid_cell origin w t).
Proof. intros Hw. induction origin as [|o os IH]; intros [|c t]; simpl; constructor; [cbn [fst snd]; lra|apply IH]. Qed.
Lemma coords_len n p : (n <= 3)%nat -> length (coords n p) = n.
Proof. intros H. unfold coords. rewrite firstn_length. simpl. lia. Qed.
Lemma index_len cart n p : (n <= 3)%nat -> length (index_of cart n p) = n.
Proof. intros H. unfold index_of. rewrite map_length, combine_length, seq_length, coords_len; lia. Qed.
Lemma mh_cw_pos m : mh_ok m -> (0 < mh_cw m)%R.
Proof. intros (_ & _ & H1 & H2). unfold mh_cw. apply Rdiv_lt_0_compat; auto. now apply (IZR_lt 0). Qed.
Section End.
  Context (m : mhier) (cart : nat -> R -> Z).
  Hypothesis Hm : mh_ok m.
  Hypothesis Hd : (mh_ndim m <= 3)%nat.
  Hypothesis Hcart : cart_ok m cart.
  Lemma fine_len : length (fine_counts m) = mh_ndim m.
  Proof. unfold fine_counts, mh_ndim. apply map_length. Qed.
  Lemma index_nth p d z : nth_error (index_of cart (mh_ndim m) p) d = Some z -> exists x, nth_error (coords (mh_ndim m) p) d = Some x /\ z = cart d x.
  Proof.
    unfold index_of. rewrite nth_error_map, nth_combine by (rewrite seq_length, coords_len; auto). intros H.
    destruct (nth_error (seq 0 (mh_ndim m)) d) as [k|] eqn:E; [|discriminate]. destruct (nth_error (coords (mh_ndim m) p) d) as [x|] eqn:E2; [|discriminate].
    simpl in H. injection H as <-. exists x. split; auto.
    assert (d < mh_ndim m)%nat by (rewrite <- (seq_length (mh_ndim m) 0); apply nth_error_Some; congruence).
    apply nth_error_nth with (d := O) in E. rewrite seq_nth in E by auto. simpl in E. now subst.
  Qed.
  Lemma index_cell i c : cell_at m c (index_of cart (mh_ndim m) i) -> fine_cell m c (grid_cell (mh_origin m) (mh_cw m) (index_of cart (mh_ndim m) i)) /\
    in_box (coords (mh_ndim m) i) (grid_cell (mh_origin m) (mh_cw m) (index_of cart (mh_ndim m) i)).
  Proof.
    intros Hc. pose proof (cell_at_fine m c _ Hm Hc) as Hv. apply forall2_nth in Hv as [_ Hv]. destruct Hc as (co & fi & V1 & V2 & E1 & E2). split.
    - exists co, fi. repeat (split; auto). now rewrite E2.
    - assert (Lo : length (mh_origin m) = mh_ndim m) by apply Hm. pose proof (in_cell_box cart (mh_cw m) (coords (mh_ndim m) i) (mh_origin m) 0) as H.
      rewrite (coords_len (mh_ndim m) i Hd) in H. apply H; [congruence|].
      intros d x o Hx Ho. simpl. assert (Hdl : (d < mh_ndim m)%nat) by (rewrite <- Lo; apply nth_error_Some; congruence).
      destruct (nth_error (fine_counts m) d) as [n|] eqn:En; [|apply nth_error_None in En; rewrite fine_len in En; lia].
      destruct (nth_error (index_of cart (mh_ndim m) i) d) as [z|] eqn:Ez; [|apply nth_error_None in Ez; rewrite index_len in Ez; lia].
      destruct (index_nth i d z Ez) as (x' & Hx' & ->). rewrite Hx in Hx'. injection Hx' as <-.
      eapply Hcart; eauto.
  Qed.
  Lemma segment_coord p q i d x y z : on_segment p q i -> nth_error (coords (mh_ndim m) p) d = Some x -> nth_error (coords (mh_ndim m) q) d = Some y ->
    nth_error (coords (mh_ndim m) i) d = Some z -> (Rmin x y <= z <= Rmax x y)%R.
  Proof.
    intros (t & Ht & ->) H1 H2 H3.
    assert (G : exists u v, x = u /\ y = v /\ z = (u + t * (v - u))%R).
    { unfold coords in *. destruct (mh_ndim m) as [|[|[|[|]]]]; destruct d as [|[|[|[|]]]]; simpl in H1, H2, H3; try discriminate;
      injection H1 as <-; injection H2 as <-; injection H3 as <-; eauto. }
    destruct G as (u & v & -> & -> & ->). unfold Rmin, Rmax. destruct (Rle_dec u v); nra.
  Qed.
  Lemma index_between p q i : on_segment p q i -> valid_tuple (index_of cart (mh_ndim m) i) (fine_counts m) ->
    trajectory_meets (fine_counts m) (index_of cart (mh_ndim m) p) (index_of cart (mh_ndim m) q) /\
    spanned (fine_counts m) (index_of cart (mh_ndim m) p) (index_of cart (mh_ndim m) q) (index_of cart (mh_ndim m) i).
  Proof.
    intros Hs Hv. apply forall2_nth in Hv as [Lv Hv].
    assert (G : forall d n x y z, nth_error (fine_counts m) d = Some n -> nth_error (index_of cart (mh_ndim m) p) d = Some x ->
       nth_error (index_of cart (mh_ndim m) q) d = Some y -> nth_error (index_of cart (mh_ndim m) i) d = Some z -> between n x y z).
    { intros d n x y z Hn Hx Hy Hz. split; [eapply Hv; eauto|].
      destruct (index_nth p d x Hx) as (u & Hu & ->). destruct (index_nth q d y Hy) as (v & Hw & ->). destruct (index_nth i d z Hz) as (w & Hz' & ->).
      pose proof (segment_coord p q i d u v w Hs Hu Hw Hz') as Hb. destruct Hcart as [Mo _].
      unfold Rmin, Rmax in Hb. destruct (Rle_dec u v); destruct Hb as [B1 B2]; apply (Mo d) in B1, B2; lia. }
    split.
    - split; [rewrite index_len, fine_len; auto|]. split; [rewrite index_len, fine_len; auto|]. intros d n x y Hn Hx Hy.
      assert (Hdl : (d < mh_ndim m)%nat) by (rewrite <- fine_len; apply nth_error_Some; congruence).
      destruct (nth_error (index_of cart (mh_ndim m) i) d) as [z|] eqn:Ez; [|apply nth_error_None in Ez; rewrite index_len in Ez; lia].
      specialize (G d n x y z Hn Hx Hy Ez). unfold between, meets in *. lia.
    - split; [rewrite index_len, fine_len; auto|]. exact G.
  Qed.
  Context (size : Z) (c2g : list (Z * Z)) (bx : bgeom -> list (R * R)) (has_owner : Z -> bool) (gcs : Z -> list cgeom).
  Hypothesis Hbx : forall b x, In x (gcs b) -> length (bx (cg_geom x)) = mh_ndim m.
  Let contents := container size (fun a => cell_geom_map m bx has_owner (gcs a)).
  Hypothesis Hok : contents_ok (mh_ndim m) c2g contents.
  Lemma reach_contents b x i : 0 <= b < size -> In x (gcs b) -> in_reach m cart bx has_owner (cg_geom x) i ->
    exists c, cell_at m c (index_of cart (mh_ndim m) i) /\ In x (contents c).
  Proof.
    intros Hb Hx (Hi & c & Hc & Ho). exists c. split; auto. apply container_in. exists b. split; auto. split; auto. split; auto.
    destruct (index_cell i c Hc) as [Hf Hib].
    assert (Hp : (0 < overlap_volume (padded box_padding (bx (cg_geom x))) (grid_cell (mh_origin m) (mh_cw m) (index_of cart (mh_ndim m) i)))%R).
    { eapply overlap_pos; eauto. apply grid_cell_solid. now apply mh_cw_pos. }
    apply in_map_iff. eexists (c, _). split; [reflexivity|]. apply bbm_spec; auto; [eapply Hbx; eauto|]. eexists. split; [exact Hf|]. split; [reflexivity|auto].
  Qed.
  Lemma stores_find (l : list cgeom) (k : list delem) f x : Forall2 (stored c2g) (filter f l) k -> In x l -> f x = true ->
    exists e, In e k /\ de_geom e = cg_geom x.
  Proof.
    intros H Hx Hf. assert (Hin : In x (filter f l)) by (apply filter_In; auto). clear Hx Hf. revert Hin. induction H as [|y e l' k' Hs HF IH]; simpl; [intros []|].
    intros [->|Hin]; [exists e; split; auto; apply Hs|]. destruct (IH Hin) as (e' & He & E). exists e'; auto.
  Qed.
  Lemma stores_back (l : list cgeom) (k : list delem) f e : Forall2 (stored c2g) (filter f l) k -> In e k ->
    exists x, In x l /\ f x = true /\ stored c2g x e.
  Proof.
    intros H. assert (Hall : forall x, In x (filter f l) -> In x l /\ f x = true) by (intros x; apply filter_In). revert Hall.
    induction H as [|y e' l' k' Hs HF IH]; simpl; [intros _ []|]. intros Hall [->|Hin]; [exists y; split; [apply Hall; auto|split; [apply Hall; auto|auto]]|].
    apply IH; auto.
  Qed.
  (** a hit in reach is a candidate on every rank that has collected the cells of the trajectory *)
  Lemma reach_candidate hist sts a sel k test b x p q i :
    (forall cc l, stores c2g l cc -> Forall2 (stored c2g) (filter (fun x => bg_shape (cg_geom x) =? k) l) (sel cc)) ->
    collect_history size (mh_ndim m) c2g contents hist sts -> 0 <= a < size ->
    (forall c t, cell_at m c t -> spanned (fine_counts m) (index_of cart (mh_ndim m) p) (index_of cart (mh_ndim m) q) t -> In c (asked_by hist a)) ->
    0 <= b < size -> In x (gcs b) -> bg_shape (cg_geom x) = k -> in_reach m cart bx has_owner (cg_geom x) i -> on_segment p q i ->
    test (cg_geom x) = Some i ->
    exists e, candidate (cs_tree (sts a)) sel test (scan_cells m (index_of cart (mh_ndim m) p) (index_of cart (mh_ndim m) q)) e i.
  Proof.
    intros Hsel Hh Ha Hasked Hb Hx Hk Hr Hs Ht. destruct (reach_contents b x i Hb Hx Hr) as (c & Hc & Hin).
    pose proof (cell_at_fine m c _ Hm Hc) as Hv. destruct (index_between p q i Hs Hv) as [Hmt Hsp].
    pose proof (history_inv (mh_ndim m) c2g contents Hok size hist sts Hh a Ha) as Hinv. apply rinv_collected in Hinv as (_ & H2 & _).
    destruct (H2 c) as (cc & Ecc & Hst); [eapply Hasked; eauto|intros E; rewrite E in Hin; destruct Hin|].
    destruct (stores_find (contents c) (sel cc) (fun x => bg_shape (cg_geom x) =? k) x) as (e & He & Ee); [now apply Hsel|auto|now apply Z.eqb_eq|].
    exists e, c, cc. split; [|split; [auto|split; [auto|now rewrite Ee]]]. apply scan_meets; auto. exists (index_of cart (mh_ndim m) i). auto.
  Qed.
  Lemma candidate_back hist sts a sel k test cells e i :
    (forall cc l, stores c2g l cc -> Forall2 (stored c2g) (filter (fun x => bg_shape (cg_geom x) =? k) l) (sel cc)) ->
    collect_history size (mh_ndim m) c2g contents hist sts -> 0 <= a < size -> candidate (cs_tree (sts a)) sel test cells e i ->
    exists b x, 0 <= b < size /\ In x (gcs b) /\ bg_shape (cg_geom x) = k /\ test (cg_geom x) = Some i /\ zget c2g (cg_composite x) = Some (de_group e) /\ de_geom e = cg_geom x.
  Proof.
    intros Hsel Hh Ha (c & cc & Hc & Hz & He & Ht).
    pose proof (history_inv (mh_ndim m) c2g contents Hok size hist sts Hh a Ha) as Hinv. apply rinv_collected in Hinv as (_ & H2 & H3).
    destruct (H3 c cc Hz) as [Hin Hne]. destruct (H2 c Hin Hne) as (cc' & Hz' & Hst). rewrite Hz in Hz'. injection Hz' as <-.
    destruct (stores_back (contents c) (sel cc) (fun x => bg_shape (cg_geom x) =? k) e (Hsel _ _ Hst) He) as (x & Hx & Hk & Hg & Eg).
    apply container_in in Hx as (b & Hb & Hx & _). exists b, x. apply Z.eqb_eq in Hk. rewrite Eg in Ht. auto 8.
  Qed.
End End.
Lemma test_quad_segment nq grid p q g i : test_quad nq grid p q g = Some i -> on_segment p q i.
Proof.
  unfold test_quad. destruct (lpi_make false (bg_verts g)) as [l|]; [|discriminate]. cbv zeta. pose proof (plane_hit_spec l p q) as H.
  destruct (plane_hit l p q) as [h j]. cbn [fst snd] in *. destruct h; [|discriminate]. match goal with |- (if ?b then _ else _) = _ -> _ => destruct b; [|discriminate] end. intros [= <-].
  destruct H as (_ & H & _). now apply H.
Qed.
Lemma test_tri_segment nt p q g i : test_tri nt p q g = Some i -> on_segment p q i.
Proof.
  unfold test_tri. destruct (lpi_make false (bg_verts g)) as [l|]; [|discriminate]. cbv zeta. pose proof (plane_hit_spec l p q) as H.
  destruct (plane_hit l p q) as [h j]. cbn [fst snd] in *. destruct h; [|discriminate]. match goal with |- (if ?b then _ else _) = _ -> _ => destruct b; [|discriminate] end. intros [= <-].
  destruct H as (_ & H & _). now apply H.
Qed.
Lemma floor_cart_ok m : mh_ok m -> cart_ok m (fun d x => Zfloor ((x - nth d (mh_origin m) 0%R) * mh_icw m)).
Proof.
  intros Hm. pose proof (mh_cw_pos m Hm) as Hw. assert (Hi : (0 < mh_icw m)%R) by (unfold mh_icw; apply Rdiv_lt_0_compat; lra). split.
  - intros d x y H. apply Zfloor_le. apply Rmult_le_compat_r; lra.
  - intros d x o n Ho Hn _. rewrite (nth_error_nth _ _ 0%R Ho). set (s := ((x - o) * mh_icw m)%R). pose proof (Zfloor_lb s). pose proof (Zfloor_ub s).
    assert (E : x = (o + s * mh_cw m)%R) by (unfold s, mh_icw; field; lra). clearbody s. subst x. split.
    + apply Rplus_le_compat_l, Rmult_le_compat_r; lra.
    + apply Rplus_le_compat_l, Rmult_le_compat_r; lra.
Qed.

Lemma test_quad_iff nq grid p q g i : test_quad nq grid p q g = Some i <-> exists l g0 g1, lpi_make false (bg_verts g) = Some l /\ plane_hit l p q = (true, i) /\
  point_near l i = true /\ 0 <= g0 <= grid /\ 0 <= g1 <= grid /\ nq g i g0 g1 = true.
Proof.
  unfold test_quad. split.
  - destruct (lpi_make false (bg_verts g)) as [l|]; [|discriminate]. cbv zeta. destruct (plane_hit l p q) as [h j] eqn:Eh. cbn [fst snd].
    destruct h; [|discriminate]. destruct (point_near l j) eqn:En; [|discriminate]. cbn [andb].
    destruct (existsb _ _) eqn:Ex; [|discriminate]. intros [= <-]. apply existsb_exists in Ex as (g1 & H1 & Ex). apply existsb_exists in Ex as (g0 & H0 & Ex).
    apply in_zrange in H0, H1. exists l, g0, g1. auto 10.
  - intros (l & g0 & g1 & El & Eh & En & H0 & H1 & Hn). rewrite El. cbv zeta. rewrite Eh. cbn [fst snd]. rewrite En. cbn [andb].
    assert (E : existsb (fun g2 => existsb (fun g3 => nq g i g3 g2) (zrange 0 grid)) (zrange 0 grid) = true).
    { apply existsb_exists. exists g1. split; [apply in_zrange; lia|]. apply existsb_exists. exists g0. split; [apply in_zrange; lia|auto]. }
    now rewrite E.
Qed.
Lemma test_tri_iff nt p q g i : test_tri nt p q g = Some i <-> exists l, lpi_make false (bg_verts g) = Some l /\ plane_hit l p q = (true, i) /\
  point_near l i = true /\ nt g i = true.
Proof.
  unfold test_tri. split.
  - destruct (lpi_make false (bg_verts g)) as [l|]; [|discriminate]. cbv zeta. destruct (plane_hit l p q) as [h j] eqn:Eh. cbn [fst snd].
    destruct h; [|discriminate]. destruct (point_near l j) eqn:En; [|discriminate]. cbn [andb].
    destruct (nt g j) eqn:Ex; [|discriminate]. intros [= <-]. exists l. auto.
  - intros (l & El & Eh & En & Hn). rewrite El. cbv zeta. rewrite Eh. cbn [fst snd]. rewrite En, Hn. reflexivity.
Qed.
Lemma face_hit_sound nq nt grid p q g i :
  (test_quad nq grid p q g = Some i -> exists l g0 g1, lpi_make false (bg_verts g) = Some l /\ on_segment p q i /\
     in_plane (lp_point l) (lp_normal l) i /\ point_near l i = true /\ 0 <= g0 <= grid /\ 0 <= g1 <= grid /\ nq g i g0 g1 = true) /\
  (test_tri nt p q g = Some i -> exists l, lpi_make false (bg_verts g) = Some l /\ on_segment p q i /\
     in_plane (lp_point l) (lp_normal l) i /\ point_near l i = true /\ nt g i = true).
Proof.
  split; intros H.
  - apply test_quad_iff in H as (l & g0 & g1 & El & Eh & En & H0 & H1 & Hn). pose proof (plane_hit_spec l p q) as S. rewrite Eh in S. destruct S as (_ & S & _).
    destruct (S eq_refl) as [S1 S2]. exists l, g0, g1. auto 10.
  - apply test_tri_iff in H as (l & El & Eh & En & Hn). pose proof (plane_hit_spec l p q) as S. rewrite Eh in S. destruct S as (_ & S & _).
    destruct (S eq_refl) as [S1 S2]. exists l. auto 10.
Qed.
Lemma crossed_face_hit nq nt grid p q g l x : lpi_make false (bg_verts g) = Some l -> planar (bg_verts g) ->
  convex_combination (bg_verts g) x -> on_segment p q x -> ~ parallel (lp_normal l) p q ->
  (forall g0 g1, 0 <= g0 <= grid -> 0 <= g1 <= grid -> nq g x g0 g1 = true -> test_quad nq grid p q g = Some x) /\
  (nt g x = true -> test_tri nt p q g = Some x).
Proof.
  intros El Hp Hc Hs Hn. destruct (element_hit false (bg_verts g) l p q x El Hp Hc Hs Hn) as [E1 E2]. split.
  - intros g0 g1 H0 H1 H. apply test_quad_iff. exists l, g0, g1. auto 10.
  - intros H. apply test_tri_iff. exists l. auto.
Qed.
