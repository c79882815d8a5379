(** Property theorems C95. *)
From Coq Require Import Reals Psatz Sorting.Permutation String.
From Verif Require Import M_Bytes M_Transport M_Exchange M_Util M_MeshIf M_LinePlane M_Composite M_BoundaryData.
From Verif Require Import S_Composite S_BoundaryData L_Exchange L_Composite L_BoundaryData L_BoundaryData2 L_Util.
From Verif Require L_RealBase.
From Coq Require Import List.
Import ListNotations.
Local Open Scope Z_scope.

(** C95: the previous position of a particle is its position at the latest call of pre_integration
    that covered it, whatever happened before and after. *)
Theorem C95_previous_position : forall ndim init before s after st i d,
  In i s -> (d < ndim)%nat -> not_saved i after ->
  exists st' prev, grun ndim ndim init (before ++ [GPre s] ++ after) st = Ok st' /\ gs_prev st' = Some prev /\
    prev i d = position_after before (gs_pos st) i d /\
    gs_pos st' = position_after (before ++ after) (gs_pos st).
Proof.
  intros ndim init before s after st i d Hi Hd Hn. rewrite grun_app.
  destruct (grun_ok ndim init before st) as (st1 & E1 & P1 & _). rewrite E1. cbn [obind app grun gstep].
  unfold pre_integration. rewrite Nat.eqb_refl. cbn [obind]. set (st2 := mkGstate _ _).
  destruct (grun_ok ndim init after st2) as (st' & E & P & Q). unfold st2 in Q. cbn [gs_prev] in Q.
  destruct (Q i d _ Hn eq_refl) as (p' & E' & V). exists st', p'. split; auto. split; auto. split.
  - rewrite V, (proj2 (mem_nat_in i s) Hi), (proj2 (Nat.ltb_lt _ _) Hd), P1. reflexivity.
  - rewrite P. unfold st2. cbn [gs_pos]. rewrite P1. clear. revert st. 
    assert (K : forall b q, position_after after (position_after b q) = position_after (b ++ after) q).
    { induction b as [|[s0|q0] b IH]; intros q; cbn [position_after app]; auto. }
    intros st. apply K.
Qed.
Print Assumptions C95_previous_position.
(** The call changes no position and no other previous position. *)
Theorem C95_pre_integration_frame : forall ndim init s st prev, gs_prev st = Some prev ->
  exists prev', pre_integration ndim ndim init s st = Ok (mkGstate (gs_pos st) (Some prev')) /\
    forall i d, ~ In i s -> prev' i d = prev i d.
Proof.
  intros ndim init s st prev Hp. unfold pre_integration. rewrite Nat.eqb_refl, Hp. eexists. split; [reflexivity|].
  intros i d Hi. cbv beta. destruct (mem_nat i s) eqn:M; auto. apply mem_nat_in in M. contradiction.
Qed.
Print Assumptions C95_pre_integration_frame.

(** The normal read for a collected element is a unit normal of that element. *)
Theorem C95_normals : forall ndim c2g contents st e, ndim = 2%nat \/ ndim = 3%nat -> ids_unique contents ->
  nreach ndim c2g contents st -> collected_element (cs_tree (fst st)) e ->
  exists n, read_normal ndim (snd st) (bg_id (de_geom e)) = Ok n /\ unit_normal ndim (de_geom e) n.
Proof.
  intros ndim c2g contents st e Hd U R H. destruct (nreach_normal _ _ _ _ _ Hd U R H) as (n & A & B).
  exists n. split; auto. now apply element_normal_unit.
Qed.
Print Assumptions C95_normals.

Lemma candidate_collected tree sel test cells e i : (forall cc x, In x (sel cc) -> In x (cc_quads cc) \/ In x (cc_tris cc) \/ In x (cc_segs cc)) ->
  candidate tree sel test cells e i -> collected_element tree e.
Proof. intros Hs (c & cc & _ & Hc & He & _). exists c, cc. split; auto. Qed.

(** The groups returned: exactly the particles asked for with a hit of the group, each with its own point, label, element
    and the unit normal of that element, in whatever order the device works and whatever the
    recycled buffers held. *)
Theorem C95_boundary_data_2d : forall c2g contents st m lli groups N part iset order stale,
  ids_unique contents -> nreach 2 c2g contents st ->
  NoDup iset -> (forall i, In i iset -> (i < N)%nat) -> Permutation order iset ->
  let tree := cs_tree (fst st) in
  let result := fun i => find_intersections_2d tree lli (bp_pc (part i)) (bp_cc (part i)) m (bp_prev (part i)) (bp_cur (part i)) in
  exists gs, get_intersections_2d tree (snd st) m lli groups N part iset order stale true = Ok gs /\ map fst gs = map fst groups /\
    forall label l, In (label, l) gs -> NoDup (map fst l) /\
      (forall i, In i (map fst l) <-> In i iset /\ exists h, result i = Some h /\ bh_group h = label) /\
      (forall i d, In (i, d) l -> exists h, result i = Some h /\ carries 2 tree h d).
Proof.
  intros c2g contents st m lli groups N part iset order stale U R ND Hlt Hp tree result.
  unfold get_intersections_2d. set (b := run_2d tree m N part lli order (fill_zero N (fst stale), snd stale)).
  assert (Hb : forall i, In i iset -> holds 2 N i (result i) b).
  { intros i Hi. apply run_2d_holds.
    - apply (Permutation_NoDup (Permutation_sym Hp) ND).
    - intros j Hj. apply Hlt. apply (Permutation_in _ Hp Hj).
    - apply (Permutation_in _ (Permutation_sym Hp) Hi). }
  assert (He : forall i h, result i = Some h -> exists e, collected_element tree e /\ bg_id (de_geom e) = bh_id h /\ de_group e = bh_group h).
  { intros i h Er. pose proof (nearest_2d tree lli (bp_pc (part i)) (bp_cc (part i)) m (bp_prev (part i)) (bp_cur (part i))) as K.
    fold (result i) in K. rewrite Er in K. destruct K as (e & x & C & Eh & _). exists e. unfold is_hit in Eh. subst h. cbn [bh_id bh_group].
    split; auto. eapply candidate_collected; [|exact C]. auto. }
  destruct (collect_groups_spec 2 N groups iset (snd st) b result (or_introl eq_refl) ND Hb) as (gs & E & Ef & K).
  { intros i h _ Er. destruct (He i h Er) as (e & Ce & Ei & _). destruct (C95_normals 2 c2g contents st e (or_introl eq_refl) U R Ce) as (n & En & _).
    exists n. now rewrite <- Ei. }
  exists gs. split; auto. split; auto. intros label l Hl. destruct (K label l Hl) as [K1 K2]. split; auto. split.
  - intros i. rewrite in_map_iff. split.
    + intros ([i' d] & Ei & Hi). cbn [fst] in Ei. subst i'. apply K2 in Hi. destruct Hi as (Hi & h & n & Er & Eg & _). split; auto. exists h. auto.
    + intros (Hi & h & Er & Eg). destruct (He i h Er) as (e & Ce & Ei & _). destruct (C95_normals 2 c2g contents st e (or_introl eq_refl) U R Ce) as (n & En & _). rewrite Ei in En.
      eexists (i, _). split; [reflexivity|]. apply K2. split; auto. exists h, n. auto.
  - intros i d Hi. apply K2 in Hi. destruct Hi as (Hi & h & n & Er & Eg & En & ->). exists h. split; auto.
    destruct (He i h Er) as (e & Ce & Ei & Egr). destruct (C95_normals 2 c2g contents st e (or_introl eq_refl) U R Ce) as (n' & En' & Un).
    rewrite Ei in En'. rewrite En in En'. inversion En'. subst n'. unfold carries. cbn [bd_point bd_label bd_geom bd_normal].
    split; auto. split; auto. split; auto. exists e, n. auto 6.
Qed.
Print Assumptions C95_boundary_data_2d.
Theorem C95_boundary_data_3d : forall c2g contents st m nq nt grid groups N part iset order order' stale,
  ids_unique contents -> nreach 3 c2g contents st ->
  NoDup iset -> (forall i, In i iset -> (i < N)%nat) -> Permutation order iset -> Permutation order' iset ->
  let tree := cs_tree (fst st) in
  let result := fun i => find_intersections_3d tree nq nt grid (bp_pc (part i)) (bp_cc (part i)) m (bp_prev (part i)) (bp_cur (part i)) in
  exists gs, get_intersections_3d tree (snd st) m nq nt grid groups N part iset order order' stale true = Ok gs /\ map fst gs = map fst groups /\
    forall label l, In (label, l) gs -> NoDup (map fst l) /\
      (forall i, In i (map fst l) <-> In i iset /\ exists h, result i = Some h /\ bh_group h = label) /\
      (forall i d, In (i, d) l -> exists h, result i = Some h /\ carries 3 tree h d).
Proof.
  intros c2g contents st m nq nt grid groups N part iset order order' stale U R ND Hlt Hp Hp' tree result.
  unfold get_intersections_3d. set (b := run_3d tree m N part nq nt grid order order' (fill_zero N (fst stale), snd stale)).
  assert (Hb : forall i, In i iset -> holds 3 N i (result i) b).
  { intros i Hi. apply run_3d_holds.
    - apply (Permutation_NoDup (Permutation_sym Hp) ND).
    - apply (Permutation_NoDup (Permutation_sym Hp') ND).
    - intros j Hj. apply Hlt. apply (Permutation_in _ Hp Hj).
    - intros j Hj. apply Hlt. apply (Permutation_in _ Hp' Hj).
    - apply (Permutation_in _ (Permutation_sym Hp) Hi).
    - apply (Permutation_in _ (Permutation_sym Hp') Hi). }
  assert (He : forall i h, result i = Some h -> exists e, collected_element tree e /\ bg_id (de_geom e) = bh_id h /\ de_group e = bh_group h).
  { intros i h Er. pose proof (nearest_3d tree nq nt grid (bp_pc (part i)) (bp_cc (part i)) m (bp_prev (part i)) (bp_cur (part i))) as K.
    fold (result i) in K. rewrite Er in K. destruct K as (e & x & C & Eh & _). exists e. unfold is_hit in Eh. subst h. cbn [bh_id bh_group].
    split; auto. destruct C as [C|C]; (eapply candidate_collected; [|exact C]; auto). }
  destruct (collect_groups_spec 3 N groups iset (snd st) b result (or_intror eq_refl) ND Hb) as (gs & E & Ef & K).
  { intros i h _ Er. destruct (He i h Er) as (e & Ce & Ei & _). destruct (C95_normals 3 c2g contents st e (or_intror eq_refl) U R Ce) as (n & En & _).
    exists n. now rewrite <- Ei. }
  exists gs. split; auto. split; auto. intros label l Hl. destruct (K label l Hl) as [K1 K2]. split; auto. split.
  - intros i. rewrite in_map_iff. split.
    + intros ([i' d] & Ei & Hi). cbn [fst] in Ei. subst i'. apply K2 in Hi. destruct Hi as (Hi & h & n & Er & Eg & _). split; auto. exists h. auto.
    + intros (Hi & h & Er & Eg). destruct (He i h Er) as (e & Ce & Ei & _). destruct (C95_normals 3 c2g contents st e (or_intror eq_refl) U R Ce) as (n & En & _). rewrite Ei in En.
      eexists (i, _). split; [reflexivity|]. apply K2. split; auto. exists h, n. auto.
  - intros i d Hi. apply K2 in Hi. destruct Hi as (Hi & h & n & Er & Eg & En & ->). exists h. split; auto.
    destruct (He i h Er) as (e & Ce & Ei & Egr). destruct (C95_normals 3 c2g contents st e (or_intror eq_refl) U R Ce) as (n' & En' & Un).
    rewrite Ei in En'. rewrite En in En'. inversion En'. subst n'. unfold carries. cbn [bd_point bd_label bd_geom bd_normal].
    split; auto. split; auto. split; auto. exists e, n. auto 6.
Qed.
Print Assumptions C95_boundary_data_3d.
(** Without a call of pre_integration there is no result. *)
Theorem C95_needs_previous_position : forall tree normals m lli nq nt grid groups N part iset order order' stale,
  get_intersections_2d tree normals m lli groups N part iset order stale false = AssertFail /\
  get_intersections_3d tree normals m nq nt grid groups N part iset order order' stale false = AssertFail.
Proof. intros. split; reflexivity. Qed.
Print Assumptions C95_needs_previous_position.

(** The options: what was set, or the default; the containment tolerance follows the Newton
    tolerance unless it is set. *)
Definition real_option (config : @pstore Z R) (k : string) (default v : R) : Prop :=
  smfind config k = Some (VReal v) \/ (smfind config k = None /\ v = default).
Theorem C95_options : forall (config : @pstore Z R) o, ci_configure config = Got o ->
  real_option config "CompositeIntersection/line_intersection_tol" (1 / 100000000)%R (ci_line_tol o) /\
  real_option config "CompositeIntersection/newton_tol" (1 / 100000000)%R (ci_newton_tol o) /\
  (smfind config "CompositeIntersection/newton_max_iteration" = Some (VInt (ci_newton_max o)) \/
   smfind config "CompositeIntersection/newton_max_iteration" = None /\ ci_newton_max o = 51) /\
  real_option config "CompositeIntersection/contained_tol" (ci_newton_tol o) (ci_contained_tol o) /\
  real_option config "CompositeIntersection/num_modes_factor" 1%R (ci_modes_factor o).
Proof.
  intros config o H. unfold ci_configure in H.
  assert (G : forall k d v, ps_get_real config k d = Got v -> real_option config k d v).
  { intros k d v E. unfold ps_get_real, ps_contains in E. unfold real_option. destruct (smfind config k) as [[|]|]; inversion E; auto. }
  assert (Gi : forall k d v, ps_get_int config k d = Got v -> smfind config k = Some (VInt v) \/ smfind config k = None /\ v = d).
  { intros k d v E. unfold ps_get_int, ps_contains in E. destruct (smfind config k) as [[|]|]; inversion E; auto. }
  destruct (ps_get_real config "CompositeIntersection/line_intersection_tol" _) as [a|] eqn:E1; cbn [gbind] in H; [|discriminate].
  destruct (ps_get_real config "CompositeIntersection/newton_tol" _) as [b|] eqn:E2; cbn [gbind] in H; [|discriminate].
  destruct (ps_get_int config "CompositeIntersection/newton_max_iteration" _) as [c|] eqn:E3; cbn [gbind] in H; [|discriminate].
  destruct (ps_get_real config "CompositeIntersection/contained_tol" _) as [d|] eqn:E4; cbn [gbind] in H; [|discriminate].
  destruct (ps_get_real config "CompositeIntersection/num_modes_factor" _) as [e|] eqn:E5; cbn [gbind] in H; [|discriminate].
  inversion H. subst o. cbn. repeat split; auto.
Qed.
Print Assumptions C95_options.
(** The factor of the number of starting points is an integer, but is read as a real: set as an
    integer it makes the construction fail. *)
Theorem C95_integer_factor_refuted : forall v : Z,
  ci_configure [("CompositeIntersection/num_modes_factor"%string, VInt v)] = BadAccess.
Proof. intros v. reflexivity. Qed.
Print Assumptions C95_integer_factor_refuted.
(** The reflection takes a configuration, but the intersection options in it have no effect. *)
Theorem C95_reflection_options_refuted : forall (config : @pstore Z R) o r, reflection_configure config = Got (o, r) ->
  o = mkCiOptions (1 / 100000000) (1 / 100000000) 51 (1 / 100000000) 1 /\
  real_option config "NektarCompositeTruncatedReflection/reset_distance" (1 / 10000000)%R r.
Proof.
  intros config o r H. unfold reflection_configure, ci_configure in H. cbn [gbind ps_get_real ps_get_int ps_contains smfind] in H.
  unfold ps_get_real, ps_contains in H. unfold real_option.
  destruct (smfind config "NektarCompositeTruncatedReflection/reset_distance") as [[|]|]; cbn [gbind] in H; inversion H; auto.
Qed.
Print Assumptions C95_reflection_options_refuted.
Example C95_reflection_options_witness :
  exists o, reflection_configure [("CompositeIntersection/newton_tol"%string, VReal (1 / 2)%R)] = Got (o, (1 / 10000000)%R) /\
    ci_newton_tol o <> (1 / 2)%R.
Proof. eexists. split; [reflexivity|]. cbn. lra. Qed.

(** One segment collected, in a group; two particles with stale buffers, one crosses it. *)
Definition ex95_contents (c : Z) : list cgeom :=
  if c =? 0 then [mkCgeom 100 (mkBgeom 7 2 [mkV3 1 (-1) 0; mkV3 1 1 0])] else [].
Definition ex95_lli (p q : v3) (g : bgeom) : option v3 := if Rlt_dec (vx q) 1 then None else Some (mkV3 1 (vy p) 0).
Definition ex95_part (i : nat) : bpart :=
  if Nat.eqb i 0 then mkBpart (mkV3 0 0 0) (mkV3 0 0 0) [0; 0] [0; 0] else mkBpart (mkV3 0 (1/2) 0) (mkV3 2 (1/2) 0) [0; 0] [0; 0].
Definition ex95_m : mhier := mkMH [1; 1] [0%R; 0%R] 1 1%R.
Example C95_nonvacuous :
  ids_unique ex95_contents /\
  exists st, nreach 2 [(100, 3)] ex95_contents st /\ map fst (cs_tree (fst st)) = [0] /\
    (forall lli, get_intersections_2d (cs_tree (fst st)) (snd st) ex95_m lli [(3, [100])] 2 ex95_part [0%nat; 1%nat] [1%nat; 0%nat]
       (fun _ => 1, fun _ => 9%R) false = AssertFail) /\
    find_intersections_2d (cs_tree (fst st)) ex95_lli [0; 0] [0; 0] ex95_m (mkV3 0 (1/2) 0) (mkV3 2 (1/2) 0) = Some (mkBhit 3 7 (mkV3 1 (1/2) 0)) /\
    find_intersections_2d (cs_tree (fst st)) ex95_lli [0; 0] [0; 0] ex95_m (mkV3 0 0 0) (mkV3 0 0 0) = None.
Proof.
  split.
  { intros c c' x x' H H' E. unfold ex95_contents in *. destruct (c =? 0); [|destruct H]. destruct (c' =? 0); [|destruct H'].
    destruct H as [<-|[]]. destruct H' as [<-|[]]. reflexivity. }
  set (seg := mkBgeom 7 2 [mkV3 1 (-1) 0; mkV3 1 1 0]).
  assert (E : exists nm, collect_cell_n 2 [(100, 3)] ex95_contents (mkCstate [0] [0] [] [], []) 0 =
    Ok (mkCstate [0] [0] [0] [(0, mkColl [] [] [mkDelem 3 seg])], nm)).
  { unfold collect_cell_n, collect_cell. cbn [fst snd cs_collected cs_local existsb Z.eqb orb negb cs_held cs_tree].
    cbn [get_geometry ex95_contents Z.eqb forallb cg_geom bg_shape andb obind fst snd with_groups cg_composite zget Pos.eqb set_insert zassign app push_normals element_normal bg_verts].
    destruct (normal_1d _ _ _); eexists; reflexivity. }
  destruct E as (nm & E). eexists. split.
  { eapply NRCell; [|exact E]. apply (NRGather 2 [(100, 3)] ex95_contents (cs_init, []) (mkCstate [0] [0] [] [])); [apply NRInit|reflexivity|reflexivity]. }
  split; [reflexivity|]. split; [reflexivity|].
  cbn [fst cs_tree]. unfold find_intersections_2d.
  replace (scan_cells ex95_m [0; 0] [0; 0]) with [0] by reflexivity.
  unfold scan. cbn [fold_left zget Z.eqb cc_segs]. unfold consider. cbn [de_geom]. unfold ex95_lli. cbn [vx vy].
  destruct (Rlt_dec 2 1); [lra|]. destruct (Rlt_dec 0 1); [|lra]. cbn [snd fst].
  split; [|reflexivity].
  destruct (Flocq.Core.Raux.Rlt_bool_spec (hit_dist2 (mkV3 0 (1/2) 0) (mkV3 1 (1/2) 0)) DBL_MAX) as [_|H]; [reflexivity|].
  exfalso. assert (hit_dist2 (mkV3 0 (1/2) 0) (mkV3 1 (1/2) 0) = 1)%R by (unfold hit_dist2; cbn [vx vy vz]; lra).
  pose proof L_RealBase.DBL_MAX_ge_1. lra.
Qed.
