(** C105: the coarse lookup of candidate elements in double precision. *)
From Flocq Require Import Core.
From Verif Require Import M_RealBase L_RealBase M_Grid M_Double S_Double L_Double L_Double2 M_DoubleGrid S_DoubleGrid L_DoubleGrid P_Double.
From Coq Require Import List.
Import ListNotations.
Open Scope R_scope.

Lemma in_zrange s e c : (s <= c <= e)%Z -> In c (zrange s e).
Proof.
  intros H. unfold zrange. apply in_map_iff. exists (Z.to_nat (c - s)). split; [lia|]. apply in_seq. lia.
Qed.
Lemma in_tuples ss : forall cs es, Forall2 Z.le ss cs -> Forall2 Z.le cs es -> In cs (cell_tuples ss es).
Proof.
  induction ss as [|s ss IH]; intros cs es H1 H2; inversion H1; subst; inversion H2; subst; cbn [cell_tuples].
  - left. reflexivity.
  - apply in_flat_map. exists l'. split; [apply IH; auto|]. apply in_map_iff. exists y. split; [reflexivity|]. apply in_zrange. lia.
Qed.
Lemma tuples_in ss : forall es t, In t (cell_tuples ss es) -> length ss = length es -> Forall2 Z.le ss t /\ Forall2 Z.le t es.
Proof.
  induction ss as [|s ss IH]; intros [|e es] t H L; cbn [cell_tuples length] in *; try discriminate.
  - destruct H as [<-|[]]. auto.
  - apply in_flat_map in H as (r & H1 & H2). apply in_map_iff in H2 as (c & <- & H3).
    unfold zrange in H3. apply in_map_iff in H3 as (k & <- & H4). apply in_seq in H4. destruct (IH es r H1 ltac:(lia)). split; constructor; auto; lia.
Qed.
Lemma mapM_total {A B} (f : A -> option B) l : (forall x, In x l -> exists y, f x = Some y) -> exists ys, mapM f l = Some ys /\
  forall x y, In x l -> f x = Some y -> In (x, y) (combine l ys).
Proof.
  induction l as [|a l IH]; intros H; [exists []; cbn; tauto|]. cbn [mapM].
  destruct (H a (or_introl eq_refl)) as (b & E). rewrite E. cbn [bind]. destruct IH as (ys & E2 & I). { intros x Hx. apply H. right. auto. }
  rewrite E2. cbn [bind]. exists (b :: ys). split; [reflexivity|]. intros x y [<-|Hx] Ey; cbn [combine].
  - left. congruence.
  - right. auto.
Qed.

(** the data of all dimensions together *)
Inductive dims : list (R * R) -> list Z -> list (R * R) -> list R -> list ddim -> Prop :=
| dims_nil : dims [] [] [] [] []
| dims_cons lo hi n gl gu x e m hs ns gs xs ms :
    dim_ok (lo, hi) n -> inside_hull (lo, hi) (gl, gu) -> well_inside (lo, hi) (gl, gu) x ->
    extent_d lo hi = Some e -> make_dim_d lo e n = Some m ->
    dims hs ns gs xs ms -> dims ((lo, hi) :: hs) (n :: ns) ((gl, gu) :: gs) (x :: xs) (m :: ms).

Lemma dims_make hs ns gs xs : Forall2 dim_ok hs ns -> Forall2 inside_hull hs gs ->
  Forall2 (fun hg x => well_inside (fst hg) (snd hg) x) (combine hs gs) xs ->
  exists ms, make_mesh_d hs ns = Some ms /\ dims hs ns gs xs ms.
Proof.
  intros H. revert gs xs. induction H as [|[lo hi] n hs ns H0 _ IH]; intros gs xs H1 H2; inversion H1 as [|? [gl gu] ? ? G1 G2]; subst; inversion H2; subst.
  - exists []. split; [reflexivity|constructor].
  - cbn [fst snd] in *. destruct (IH _ _ G2 H6) as (ms & E & D).
    destruct (dim_made lo hi n H0) as [E1 E2]. eexists. unfold make_mesh_d in *. cbn [map2M fst snd]. rewrite E1. cbn [bind]. rewrite E2. cbn [bind]. rewrite E. cbn [bind].
    split; [reflexivity|]. econstructor; eauto.
Qed.
Lemma slack_T lo hi : slack (lo, hi) = 16 * (u * (hi - lo + Rabs lo)).
Proof. unfold slack. cbn [fst snd]. rewrite u_eq. ring. Qed.
Lemma dims_made_eq lo hi n e m : dim_ok (lo, hi) n -> extent_d lo hi = Some e -> make_dim_d lo e n = Some m ->
  m = mkDim lo (rnd (hi - lo)) n (rnd (rnd (hi - lo) / IZR n)) (rnd (1 / rnd (rnd (hi - lo) / IZR n))).
Proof.
  intros H E1 E2. destruct (dim_made lo hi n H) as [A1 A2]. rewrite A1 in E1. injection E1 as <-. rewrite A2 in E2. injection E2 as <-. reflexivity.
Qed.
(** cells of the particle and of the ends of the element's box *)
Lemma dims_cells hs ns gs xs ms : dims hs ns gs xs ms ->
  exists cs ss es, particle_tuple_d ms xs = Some cs /\
    map2M (fun d lu => get_cell_d d (fst lu)) ms gs = Some ss /\ map2M (fun d lu => get_cell_d d (snd lu)) ms gs = Some es /\
    Forall2 Z.le ss cs /\ Forall2 Z.le cs es /\ Forall2 (fun c n => 0 <= c < n)%Z cs ns /\
    (forall fused, exists cb, map2M (cell_box_d fused) ms cs = Some cb /\
      Forall2 (fun g b => exists o, interval_overlap_d (fst g) (snd g) (fst b) (snd b) = Some o /\ bpow radix2 (-250) <= o <= bpow radix2 28) gs cb) /\
    Forall2 (fun s n => 0 <= s)%Z ss ns /\ Forall2 (fun e n => e < n)%Z es ns.
Proof.
  induction 1 as [|lo hi n gl gu x e m hs ns gs xs ms H0 H1 H2 E1 E2 _ IH].
  - exists [], [], []. cbn. repeat (split; [auto; try constructor; eauto|]); auto.
  - destruct IH as (cs & ss & es & A1 & A2 & A3 & A4 & A5 & A6 & A7 & A8 & A9).
    pose proof (dims_made_eq _ _ _ _ _ H0 E1 E2) as Em.
    destruct H1 as (D1 & D2 & B1 & B2 & B3). destruct H2 as (D3 & B4). cbn [fst snd] in *.
    rewrite slack_T in B4. pose proof (T0 lo hi n H0) as TP.
    apply is_double_fmt in D1 as [F1 _]. apply is_double_fmt in D2 as [F2 _]. apply is_double_fmt in D3 as [F3 _].
    assert (Bx : lo <= x <= hi) by lra.
    destruct (cell_range lo hi n H0 x F3 Bx) as (c & Ec & Rc). destruct (cell_range lo hi n H0 gl F1 ltac:(lra)) as (s & Es & RS).
    destruct (cell_range lo hi n H0 gu F2 ltac:(lra)) as (t & Et & RT).
    pose proof (cell_mono lo hi n H0 gl x s c F1 F3 ltac:(lra) ltac:(lra) ltac:(lra) Es Ec) as M1.
    pose proof (cell_mono lo hi n H0 x gu c t F3 F2 ltac:(lra) ltac:(lra) ltac:(lra) Ec Et) as M2.
    rewrite <- (get_cell_eq lo hi n H0) in Es, Et by lra. rewrite <- Em in Ec, Es, Et.
    exists (c :: cs), (s :: ss), (t :: es). unfold particle_tuple_d in *. cbn [map2M fst snd].
    rewrite Ec, A1, Es, A2, Et, A3. cbn [bind]. split; [reflexivity|]. split; [reflexivity|]. split; [reflexivity|].
    split; [auto|]. split; [auto|]. split; [auto|]. split; [|split; constructor; auto; lia].
    intros fused. destruct (A7 fused) as (cb & Ecb & Fcb).
    rewrite Em in Ec. destruct (overlap_pos lo hi n H0 fused x c gl gu F3 F1 F2 ltac:(lra) ltac:(lra) ltac:(lra) Ec) as (lb & ub & o & X1 & X2 & X3).
    rewrite <- Em in X1. exists ((lb, ub) :: cb). rewrite X1. cbn [bind]. rewrite Ecb. cbn [bind]. split; [reflexivity|].
    constructor; [|auto]. exists o. cbn [fst snd]. auto.
Qed.
Lemma overlap_all gs cb : Forall2 (fun g b => exists o, interval_overlap_d (fst g) (snd g) (fst b) (snd b) = Some o /\ bpow radix2 (-250) <= o <= bpow radix2 28) gs cb ->
  forall k area, (0 <= k)%Z -> (k + Z.of_nat (length gs) <= 3)%Z -> bpow radix2 (-250 * k) <= area <= bpow radix2 (28 * k) ->
  exists a, overlap_loop_d gs cb area = Some a /\ 0 < a.
Proof.
  induction 1 as [|[gl gu] [lb ub] gs cb (o & E & O1 & O2) _ IH]; intros k area K0 K A.
  - exists area. cbn. split; [reflexivity|]. pose proof (bpow_gt_0 radix2 (-250 * k)). lra.
  - cbn [overlap_loop_d]. cbn [fst snd] in E. rewrite E. cbn [bind length] in *.
    pose proof (bpow_gt_0 radix2 (-250 * k)). pose proof (bpow_gt_0 radix2 (-250)).
    assert (P : bpow radix2 (-250 * (k + 1)) <= area * o <= bpow radix2 (28 * (k + 1))).
    { rewrite !Z.mul_add_distr_l, !Z.mul_1_r, !bpow_plus. split; apply Rmult_le_compat; lra. }
    rewrite (fl_bpow _ (28 * (k + 1))) by (lia || (rewrite Rabs_pos_eq; [tauto|pose proof (bpow_gt_0 radix2 (-250 * (k + 1))); lra])). cbn [bind].
    apply (IH (k + 1)%Z); [lia|lia|].
    split; [apply rnd_ge; [apply fmt_bpow; lia|tauto]|apply rnd_le; [apply fmt_bpow; lia|tauto]].
Qed.

Lemma mul_add_mono (fused : bool) a a' b c r r' : mul_add fused a b c = Some r -> mul_add fused a' b c = Some r' -> a <= a' -> 0 <= b -> r <= r'.
Proof.
  intros E1 E2 H1 H2. assert (a * b <= a' * b) by (apply Rmult_le_compat_r; auto). unfold mul_add in *. destruct fused.
  - apply fl_eq in E1 as [-> _], E2 as [-> _]. apply rnd_mono. lra.
  - destruct (fl (a * b)) as [p|] eqn:P; [|discriminate]. destruct (fl (a' * b)) as [q|] eqn:Q; [|discriminate]. cbn [bind] in *.
    apply fl_eq in E1 as [-> _], E2 as [-> _], P as [-> _], Q as [-> _]. apply rnd_mono. apply Rplus_le_compat_r. apply rnd_mono. auto.
Qed.
(** the overlap estimate of a visited cell never overflows *)
Lemma dim_total fused lo hi n gl gu c m e : dim_ok (lo, hi) n -> inside_hull (lo, hi) (gl, gu) -> (0 <= c < n)%Z ->
  extent_d lo hi = Some e -> make_dim_d lo e n = Some m ->
  exists b o, cell_box_d fused m c = Some b /\ interval_overlap_d gl gu (fst b) (snd b) = Some o /\ 0 <= o <= bpow radix2 28.
Proof.
  intros H0 H1 Hc E1 E2. pose proof (dims_made_eq _ _ _ _ _ H0 E1 E2) as ->.
  destruct (face_err lo hi n H0 fused c ltac:(lia)) as (lb & A1 & _ & A2 & _).
  destruct (face_err lo hi n H0 fused (c + 1) ltac:(lia)) as (ub & B1 & _ & B2 & _).
  unfold cell_box_d. cbn [dd_count dd_width dd_origin]. replace (Z.leb 0 c) with true by (symmetry; apply Z.leb_le; lia).
  replace (Z.ltb c n) with true by (symmetry; apply Z.ltb_lt; lia). cbn [check]. rewrite A1. cbn [bind]. rewrite B1. cbn [bind].
  exists (lb, ub). cbn [fst snd]. unfold interval_overlap_d. pose proof (bpow_gt_0 radix2 28).
  destruct H1 as (_ & _ & _ & H1 & _). cbn [fst snd] in H1.
  destruct (Rle_bool_spec gu lb); [exists 0; split; [reflexivity|]; split; [reflexivity|lra]|].
  destruct (Rle_bool_spec ub gl); [exists 0; split; [reflexivity|]; split; [reflexivity|lra]|].
  set (d := fmin ub gu - fmax lb gl).
  apply Rabs_le_inv in A2, B2.
  assert (B28 : bpow radix2 28 = 2 * bpow radix2 27) by (cbn; lra).
  destruct (Rle_dec 0 d) as [D|D].
  - assert (D2 : d <= bpow radix2 28). { unfold d. pose proof (fmin_le_l ub gu). pose proof (fmax_ge_l lb gl). lra. }
    rewrite (fl_bpow d 28) by (lia || (rewrite Rabs_pos_eq; lra)). exists (rnd d). split; [reflexivity|]. split; [reflexivity|].
    split; [apply rnd_abs; auto|apply rnd_le; [apply fmt_bpow; lia|auto]].
  - exfalso. apply D. unfold d.
    assert (LU : lb <= ub).
    { pose proof (w0 lo hi n H0) as W. apply (mul_add_mono fused _ _ _ _ _ _ A1 B1); [|lra]. rewrite plus_IZR. lra. }
    destruct (fmin_cases ub gu) as [[-> _]|[-> _]], (fmax_cases lb gl) as [[-> _]|[-> _]]; lra.
Qed.
Lemma visited_boxes fused hs ns gs ms : Forall2 dim_ok hs ns -> Forall2 inside_hull hs gs -> make_mesh_d hs ns = Some ms ->
  forall ts, Forall2 (fun c n => 0 <= c < n)%Z ts ns ->
  exists cb, map2M (cell_box_d fused) ms ts = Some cb /\
    Forall2 (fun g b => exists o, interval_overlap_d (fst g) (snd g) (fst b) (snd b) = Some o /\ 0 <= o <= bpow radix2 28) gs cb.
Proof.
  intros H. revert gs ms. induction H as [|[lo hi] n hs ns H0 _ IH]; intros gs ms H1 E ts Ht; inversion H1 as [|? [gl gu] ? ? G1 G2]; subst; inversion Ht as [|c ? ts' ? C1 C2]; subst; unfold make_mesh_d in E; cbn [map2M fst snd] in E.
  - injection E as <-. exists []. split; [reflexivity|constructor].
  - destruct (dim_made lo hi n H0) as [E1 E2]. rewrite E1 in E. cbn [bind] in E. rewrite E2 in E. cbn [bind] in E.
    destruct (map2M (fun lu n => do e <- extent_d (fst lu) (snd lu); make_dim_d (fst lu) e n) hs ns) as [ms'|] eqn:Em; [|discriminate]. cbn [bind] in E. injection E as <-.
    destruct (IH _ ms' G2 Em ts' C2) as (cb & Ecb & Fcb).
    destruct (dim_total fused lo hi n gl gu c _ _ H0 G1 C1 E1 E2) as (b & o & X1 & X2 & X3).
    exists (b :: cb). cbn [map2M]. rewrite X1. cbn [bind]. rewrite Ecb. cbn [bind]. split; [reflexivity|]. constructor; [exists o; auto|auto].
Qed.
Lemma overlap_total gs cb : Forall2 (fun g b => exists o, interval_overlap_d (fst g) (snd g) (fst b) (snd b) = Some o /\ 0 <= o <= bpow radix2 28) gs cb ->
  forall k area, (0 <= k)%Z -> (k + Z.of_nat (length gs) <= 3)%Z -> 0 <= area <= bpow radix2 (28 * k) ->
  exists a, overlap_loop_d gs cb area = Some a.
Proof.
  induction 1 as [|[gl gu] [lb ub] gs cb (o & E & O1 & O2) _ IH]; intros k area K0 K A.
  - exists area. reflexivity.
  - cbn [overlap_loop_d]. cbn [fst snd] in E. rewrite E. cbn [bind length] in *.
    assert (P : 0 <= area * o <= bpow radix2 (28 * (k + 1))).
    { rewrite !Z.mul_add_distr_l, !Z.mul_1_r, !bpow_plus. split; [apply Rmult_le_pos; lra|apply Rmult_le_compat; lra]. }
    rewrite (fl_bpow _ (28 * (k + 1))) by (lia || (rewrite Rabs_pos_eq; tauto)). cbn [bind].
    apply (IH (k + 1)%Z); [lia|lia|].
    split; [apply rnd_abs; tauto|apply rnd_le; [apply fmt_bpow; lia|tauto]].
Qed.
Lemma between_cells ss cs es ns : Forall2 Z.le ss cs -> Forall2 Z.le cs es -> Forall2 (fun s n => 0 <= s)%Z ss ns -> Forall2 (fun e n => e < n)%Z es ns ->
  Forall2 (fun c n => 0 <= c < n)%Z cs ns.
Proof.
  intros H. revert es ns. induction H as [|s c ss cs A _ IH]; intros es ns H1 H2 H3; inversion H1; subst; inversion H2; subst; inversion H3; subst; constructor; [lia|].
  eapply IH; eauto.
Qed.
(** C105: a particle whose position is a few roundings away from the faces of an element's bounding box finds the element among the
    candidates of its cell: the construction succeeds for the element and enters it in the list of exactly the cell the kernel computes. *)
Theorem C105_candidate (fused : bool) (hull : list (R * R)) (counts : list Z) (gb : list (R * R)) (p : list R) :
  (length hull <= 3)%nat -> Forall2 dim_ok hull counts -> Forall2 inside_hull hull gb ->
  Forall2 (fun hg x => well_inside (fst hg) (snd hg) x) (combine hull gb) p ->
  exists mesh cell cells, make_mesh_d hull counts = Some mesh /\ particle_tuple_d mesh p = Some cell /\
    Forall2 (fun c n => 0 <= c < n)%Z cell counts /\
    entries_d fused mesh gb = Some cells /\ In cell cells.
Proof.
  intros Len H1 H2 H3. destruct (dims_make hull counts gb p H1 H2 H3) as (ms & E & D).
  destruct (dims_cells _ _ _ _ _ D) as (cs & ss & es & A1 & A2 & A3 & A4 & A5 & A6 & A7 & A8 & A9).
  destruct (A7 fused) as (cb & B1 & B2).
  assert (L : length gb = length hull) by (symmetry; clear - H2; induction H2; cbn; auto).
  destruct (overlap_all gb cb B2 0 1) as (a & Ea & Pa); [lia|lia|cbn; lra|].
  assert (LE : length ss = length es).
  { clear - A4 A5. revert es A5. induction A4; intros es A5; inversion A5; subst; cbn; auto. }
  destruct (mapM_total (entered_d fused ms gb) (cell_tuples ss es)) as (fs & Ef & If).
  { intros t Ht. destruct (tuples_in ss es t Ht LE) as [T1 T2].
    destruct (visited_boxes fused hull counts gb ms H1 H2 E t (between_cells _ _ _ _ T1 T2 A8 A9)) as (cb' & C1 & C2).
    destruct (overlap_total gb cb' C2 0 1) as (a' & Ea'); [lia|lia|cbn; lra|].
    unfold entered_d. rewrite C1. cbn [bind]. rewrite Ea'. cbn [bind]. eauto. }
  eexists ms, cs, _. split; [auto|]. split; [auto|]. split; [auto|].
  unfold entries_d, geom_tuples_d. rewrite A2. cbn [bind]. rewrite A3. cbn [bind]. rewrite Ef. cbn [bind]. split; [reflexivity|].
  apply in_map_iff. exists (cs, true). split; [reflexivity|]. apply filter_In. split; [|reflexivity]. apply If; [apply in_tuples; auto|].
  unfold entered_d. rewrite B1. cbn [bind]. rewrite Ea. cbn [bind]. rewrite Rlt_bool_true by auto. reflexivity.
Qed.

(** Without any distance from the faces: host and kernel agree on the cells, whatever the rounding. The cell of a particle in the
    element's closed bounding box is one of the cells the host visits for the element. *)
Lemma visit_dims hs ns : Forall2 dim_ok hs ns -> forall gs xs, Forall2 inside_hull hs gs ->
  Forall2 (fun g x => is_double x /\ fst g <= x <= snd g) gs xs ->
  exists ms cs ss es, make_mesh_d hs ns = Some ms /\ particle_tuple_d ms xs = Some cs /\
    map2M (fun d lu => get_cell_d d (fst lu)) ms gs = Some ss /\ map2M (fun d lu => get_cell_d d (snd lu)) ms gs = Some es /\
    Forall2 Z.le ss cs /\ Forall2 Z.le cs es /\ Forall2 (fun c n => 0 <= c < n)%Z cs ns.
Proof.
  induction 1 as [|[lo hi] n hs ns H0 _ IH]; intros gs xs H1 H2; inversion H1 as [|? [gl gu] ? ? G1 G2]; subst; inversion H2 as [|? x ? ? X1 X2]; subst.
  - exists [], [], [], []. cbn. repeat split; auto.
  - destruct (IH _ _ G2 X2) as (ms & cs & ss & es & E & A1 & A2 & A3 & A4 & A5 & A6).
    destruct (dim_made lo hi n H0) as [E1 E2].
    destruct G1 as (D1 & D2 & B1 & B2 & B3). destruct X1 as (D3 & B4). cbn [fst snd] in *.
    apply is_double_fmt in D1 as [F1 _]. apply is_double_fmt in D2 as [F2 _]. apply is_double_fmt in D3 as [F3 _].
    destruct (cell_range lo hi n H0 x F3 ltac:(lra)) as (c & Ec & Rc). destruct (cell_range lo hi n H0 gl F1 ltac:(lra)) as (s & Es & _).
    destruct (cell_range lo hi n H0 gu F2 ltac:(lra)) as (t & Et & _).
    pose proof (cell_mono lo hi n H0 gl x s c F1 F3 ltac:(lra) ltac:(lra) ltac:(lra) Es Ec) as M1.
    pose proof (cell_mono lo hi n H0 x gu c t F3 F2 ltac:(lra) ltac:(lra) ltac:(lra) Ec Et) as M2.
    rewrite <- (get_cell_eq lo hi n H0) in Es, Et by lra.
    eexists (_ :: ms), (c :: cs), (s :: ss), (t :: es). unfold make_mesh_d, particle_tuple_d in *. cbn [map2M fst snd].
    rewrite E1. cbn [bind]. rewrite E2. cbn [bind]. rewrite E. cbn [bind]. split; [reflexivity|].
    rewrite Ec, A1, Es, A2, Et, A3. cbn [bind]. split; [reflexivity|]. split; [reflexivity|]. split; [reflexivity|]. auto.
Qed.
Theorem C105_cell_visited (hull : list (R * R)) (counts : list Z) (gb : list (R * R)) (p : list R) :
  Forall2 dim_ok hull counts -> Forall2 inside_hull hull gb ->
  Forall2 (fun g x => is_double x /\ fst g <= x <= snd g) gb p ->
  exists mesh cell cells, make_mesh_d hull counts = Some mesh /\ particle_tuple_d mesh p = Some cell /\
    Forall2 (fun c n => 0 <= c < n)%Z cell counts /\ geom_tuples_d mesh gb = Some cells /\ In cell cells.
Proof.
  intros H1 H2 H3. destruct (visit_dims hull counts H1 gb p H2 H3) as (ms & cs & ss & es & E & A1 & A2 & A3 & A4 & A5 & A6).
  exists ms, cs, (cell_tuples ss es). split; [auto|]. split; [auto|]. split; [auto|].
  unfold geom_tuples_d. rewrite A2. cbn [bind]. rewrite A3. cbn [bind]. split; [reflexivity|]. apply in_tuples; auto.
Qed.

(** The cell found contains the point up to rounding. *)
Theorem C105_cell_contains (fused : bool) (lo hi x : R) (n : Z) : dim_ok (lo, hi) n -> is_double x -> lo <= x <= hi ->
  exists m c lb ub, (do e <- extent_d lo hi; make_dim_d lo e n) = Some m /\ get_cell_d m x = Some c /\ cell_d m x = Some c /\ (0 <= c < n)%Z /\
    cell_box_d fused m c = Some (lb, ub) /\ lb - slack (lo, hi) <= x <= ub + slack (lo, hi) /\ lb < ub.
Proof.
  intros H0 D Hx. apply is_double_fmt in D as [F _]. destruct (dim_made lo hi n H0) as [E1 E2].
  destruct (cell_range lo hi n H0 x F Hx) as (c & Ec & Rc).
  destruct (cell_box_contains lo hi n H0 fused x c F Hx Ec) as (lb & ub & X1 & _ & _ & _ & _ & X2 & X3 & X4).
  pose proof (T0 lo hi n H0) as TP.
  eexists _, c, lb, ub. rewrite E1. cbn [bind]. split; [exact E2|]. split; [rewrite (get_cell_eq lo hi n H0) by auto; exact Ec|]. split; [exact Ec|]. split; [auto|].
  split; [exact X1|]. rewrite slack_T. lra.
Qed.

(** Coordinates of the order of 10^8: the rounded upper bound, with the absolute tolerance 10^-8, can lie below the end of the very
    box the mesh was made for, so the assertion fails and the map cannot be constructed. *)
Definition far_lo : R := - 134217728.
Definition far_hi : R := 1 + / 2 ^ 26.
Lemma far_extent : extent_d far_lo far_hi = Some 134217729.
Proof.
  unfold extent_d, far_lo, far_hi. rewrite (fl_bpow _ 30); [|lia|apply Rabs_le; cbn; lra]. f_equal.
  rewrite (rnd_val _ (-25) 4503599660924928); [cbn; lra|cbn; lra|lia|].
  assert (E : (1 + / 2 ^ 26 - - 134217728) * bpow radix2 (- -25) = IZR 4503599660924928 + / 2) by (cbn; lra).
  rewrite E. unfold Znearest. rewrite (Zfloor_imp 4503599660924928) by (rewrite plus_IZR; lra).
  replace (IZR 4503599660924928 + / 2 - IZR 4503599660924928) with (/ 2) by ring. rewrite Rcompare_Eq by reflexivity. reflexivity.
Qed.
Lemma TOL_d_bounds : 0 <= TOL_d <= 3 / 2 ^ 28.
Proof.
  unfold TOL_d. split; [apply rnd_abs; cbn; lra|]. apply rnd_le; [|cbn; lra].
  replace (3 / 2 ^ 28) with (IZR 3 * bpow radix2 (-28)) by (cbn; lra). apply fmt_mul_bpow; lia.
Qed.
Theorem C105_large_coordinates_refuted :
  is_double far_lo /\ is_double far_hi /\ far_lo < far_hi /\ exists m,
    (do e <- extent_d far_lo far_hi; make_dim_d far_lo e 1) = Some m /\ in_bounds_d m far_hi = Some false /\
    geom_tuples_d [m] [(far_lo, far_hi)] = None.
Proof.
  split. { unfold far_lo. dbl (-134217728)%Z 0%Z. } split. { unfold far_hi. dbl 67108865%Z (-26)%Z. }
  split. { unfold far_lo, far_hi. cbn. lra. }
  rewrite far_extent. cbn [bind]. unfold make_dim_d. rewrite Rlt_bool_true by lra. cbn [check Z.ltb Z.compare].
  replace (134217729 / 1) with 134217729 by field.
  rewrite (fl_is 134217729 0) by (lia || (cbn; lra)). cbn [bind]. rewrite Req_bool_false by lra. cbn [negb check].
  assert (E : fl (1 / 134217729) = Some (rnd (1 / 134217729))) by (apply (fl_bpow _ 0); [lia|rewrite Rabs_pos_eq; cbn; lra]).
  rewrite E. cbn [bind]. eexists. split; [reflexivity|].
  assert (B : forall i, in_bounds_d (mkDim far_lo 134217729 1 134217729 i) far_hi = Some false).
  { intros i. unfold in_bounds_d. cbn [dd_origin dd_extent]. pose proof TOL_d_bounds as [T1 T2].
    assert (T3 : TOL_d <= 3 / 268435456) by (cbn in T2; lra).
    rewrite (fl_bpow _ 30) by (lia || (apply Rabs_le; unfold far_lo; cbn; lra)). cbn [bind].
    rewrite (fl_is 1 0 (far_lo + 134217729)) by (lia || (unfold far_lo; cbn; lra)). cbn [bind].
    replace (far_lo + 134217729) with 1 by (unfold far_lo; lra).
    rewrite (fl_bpow _ 30) by (lia || (apply Rabs_le; cbn; lra)). cbn [bind].
    rewrite (Rle_bool_false far_hi).
    - rewrite andb_false_r. reflexivity.
    - apply Rle_lt_trans with (IZR 268435459 * bpow radix2 (-28)).
      + apply rnd_le; [apply fmt_mul_bpow; lia|]. cbn. lra.
      + unfold far_hi. cbn. lra. }
  split; [apply B|].
  unfold geom_tuples_d. cbn [map2M fst snd]. unfold get_cell_d at 2. rewrite B. cbn [bind check].
  destruct (get_cell_d _ far_lo); reflexivity.
Qed.

(** A particle so far away that its cell number does not fit an int: the conversion is undefined. *)
Theorem C105_far_particle_refuted :
  dim_ok (0, 1) 4 /\ exists m x, (do e <- extent_d 0 1; make_dim_d 0 e 4) = Some m /\ is_double x /\ cell_d m x = None.
Proof.
  split.
  - unfold dim_ok. cbn [fst snd]. split; [dbl 0%Z 0%Z|]. split; [dbl 1%Z 0%Z|]. split; [lra|].
    rewrite Rabs_R0, Rabs_pos_eq by lra. split; [cbn; lra|]. split; [cbn; lra|].
    split. { rewrite Rminus_0_r. rewrite <- Rinv_1. apply Rinv_le; [lra|]. apply pow_R1_Rle. lra. }
    split; [lia|]. rewrite u_eq. pose proof u_small. cbn. lra.
  - eexists _, 1099511627776. unfold extent_d, make_dim_d.
    rewrite (fl_is 1 0 (1 - 0)) by (lia || (cbn; lra)). cbn [bind]. rewrite Rlt_bool_true by lra. cbn [check Z.ltb Z.compare].
    rewrite (fl_is 1 (-2) ((1 - 0) / 4)) by (lia || (cbn; lra)). cbn [bind]. rewrite Req_bool_false by lra. cbn [negb check].
    rewrite (fl_is 4 0 (1 / ((1 - 0) / 4))) by (lia || (cbn; lra)). cbn [bind].
    split; [reflexivity|]. split; [dbl 1099511627776%Z 0%Z|].
    unfold cell_d. cbn [dd_origin dd_inv dd_count].
    rewrite (fl_is 1099511627776 0 (1099511627776 - 0)) by (lia || (cbn; lra)). cbn [bind].
    replace ((1099511627776 - 0) * (1 / ((1 - 0) / 4))) with 4398046511104 by field.
    rewrite (fl_is 4398046511104 0) by (lia || (cbn; lra)). cbn [bind]. unfold to_int. rewrite (Ztrunc_IZR 4398046511104). reflexivity.
Qed.

(** Three dimensions, a box in the middle. *)
Example C105_applied : exists mesh cell cells, make_mesh_d [(-1, 3); (0, 1); (/ 2, 2)] [16; 8; 8]%Z = Some mesh /\
  particle_tuple_d mesh [1; / 2; 5 / 4] = Some cell /\ Forall2 (fun c n => 0 <= c < n)%Z cell [16; 8; 8]%Z /\
  entries_d true mesh [(0, 2); (/ 4, 3 / 4); (1, 3 / 2)] = Some cells /\ In cell cells.
Proof.
  apply C105_candidate; [cbn; lia| | |].
  - assert (P200 : / 2 ^ 200 <= 1). { rewrite <- Rinv_1. apply Rinv_le; [lra|]. apply pow_R1_Rle. lra. }
    pose proof u_small. pose proof u_pos.
    repeat (apply Forall2_cons); try apply Forall2_nil; unfold dim_ok; cbn [fst snd].
    + split; [dbl (-1)%Z 0%Z|]. split; [dbl 3%Z 0%Z|]. split; [lra|]. rewrite (Rabs_left (-1)), (Rabs_pos_eq 3) by lra.
      split; [cbn; lra|]. split; [cbn; lra|]. split; [lra|]. split; [lia|]. rewrite u_eq. cbn. lra.
    + split; [dbl 0%Z 0%Z|]. split; [dbl 1%Z 0%Z|]. split; [lra|]. rewrite Rabs_R0, (Rabs_pos_eq 1) by lra.
      split; [cbn; lra|]. split; [cbn; lra|]. split; [lra|]. split; [lia|]. rewrite u_eq. cbn. lra.
    + split; [dbl 1%Z (-1)%Z|]. split; [dbl 2%Z 0%Z|]. split; [lra|]. rewrite (Rabs_pos_eq (/ 2)), (Rabs_pos_eq 2) by lra.
      split; [cbn; lra|]. split; [cbn; lra|]. split; [lra|]. split; [lia|]. rewrite u_eq. cbn. lra.
  - repeat (apply Forall2_cons); try apply Forall2_nil; unfold inside_hull; cbn [fst snd].
    + split; [dbl 0%Z 0%Z|]. split; [dbl 2%Z 0%Z|]. lra.
    + split; [dbl 1%Z (-2)%Z|]. split; [dbl 3%Z (-2)%Z|]. lra.
    + split; [dbl 1%Z 0%Z|]. split; [dbl 3%Z (-1)%Z|]. lra.
  - pose proof u_small. pose proof u_pos. cbn [combine].
    repeat (apply Forall2_cons); try apply Forall2_nil; unfold well_inside, slack; cbn [fst snd]; rewrite u_eq.
    + split; [dbl 1%Z 0%Z|]. rewrite (Rabs_left (-1)) by lra. lra.
    + split; [dbl 1%Z (-1)%Z|]. rewrite Rabs_R0. lra.
    + split; [dbl 5%Z (-2)%Z|]. rewrite (Rabs_pos_eq (/ 2)) by lra. lra.
Qed.
