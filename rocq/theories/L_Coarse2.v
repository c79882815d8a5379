From Verif Require Import M_Grid L_RealBase S_Grid L_Grid L_Coarse.
From Verif Require M_Util L_Util.

(** ** The coarse grid is always built *)
Lemma fold_fmin_le l : forall a, fold_left fmin l a <= a /\ Forall (fun x => fold_left fmin l a <= x) l.
Proof.
  induction l as [|x l IH]; intros a; simpl; [split; [lra|constructor]|].
  destruct (IH (fmin a x)) as [H1 H2]. pose proof (fmin_le_l a x). pose proof (fmin_le_r a x).
  split; [lra|]. constructor; [lra|auto].
Qed.
Lemma fold_fmin_in l : forall a, fold_left fmin l a = a \/ In (fold_left fmin l a) l.
Proof.
  induction l as [|x l IH]; intros a; simpl; auto. destruct (IH (fmin a x)) as [H|H]; [|auto].
  rewrite H. destruct (fmin_cases a x) as [[-> _]|[-> _]]; auto.
Qed.
Lemma fold_fmax_ge l : forall a, a <= fold_left fmax l a /\ Forall (fun x => x <= fold_left fmax l a) l.
Proof.
  induction l as [|x l IH]; intros a; simpl; [split; [lra|constructor]|].
  destruct (IH (fmax a x)) as [H1 H2]. pose proof (fmax_ge_l a x). pose proof (fmax_ge_r a x).
  split; [lra|]. constructor; [lra|auto].
Qed.
Lemma fold_fmax_in l : forall a, fold_left fmax l a = a \/ In (fold_left fmax l a) l.
Proof.
  induction l as [|x l IH]; intros a; simpl; auto. destruct (IH (fmax a x)) as [H|H]; [|auto].
  rewrite H. destruct (fmax_cases a x) as [[-> _]|[-> _]]; auto.
Qed.
Lemma product_ge_pow l b : (0 <= b)%Z -> Forall (fun c => b <= c)%Z l -> (b ^ Z.of_nat (length l) <= product l)%Z.
Proof.
  intros Hb. induction 1; simpl length; [reflexivity|]. rewrite Nat2Z.inj_succ, Z.pow_succ_r by lia. simpl.
  assert (0 <= b ^ Z.of_nat (length l))%Z by (apply Z.pow_nonneg; auto). nia.
Qed.
Lemma product_scale l s : product (map (fun c => (c * s)%Z) l) = (product l * s ^ Z.of_nat (length l))%Z.
Proof.
  induction l; simpl length; [reflexivity|]. rewrite Nat2Z.inj_succ, Z.pow_succ_r by lia. simpl. rewrite IHl. ring.
Qed.
Lemma zprod_product l : zprod l = product l.
Proof. unfold zprod. rewrite fold_mul_product. ring. Qed.
Lemma exp_root_pow f n : 0 < f -> (0 < n)%nat -> exp (ln f / INR n) ^ n = f.
Proof.
  intros Hf Hn. assert (0 < INR n) by (apply lt_0_INR; auto).
  assert (E : forall x k, exp x ^ k = exp (INR k * x)).
  { intros x k. induction k; simpl pow; [simpl; rewrite Rmult_0_l, exp_0; auto|].
    rewrite IHk, <- exp_plus. f_equal. rewrite S_INR. ring. }
  rewrite E. replace (INR n * (ln f / INR n)) with (ln f) by (field; lra). now apply exp_ln.
Qed.
Lemma coarse_counts_ok ndim extents cc : length extents = ndim -> (0 < ndim)%nat -> (0 < cc)%Z ->
  Forall (fun e => 0 < e) extents ->
  exists counts, coarse_counts ndim extents cc = Some counts /\ length counts = ndim /\
    Forall (fun c => 0 < c)%Z counts /\ (4 ^ Z.of_nat ndim * cc <= product counts)%Z.
Proof.
  intros Hl Hn Hcc He. unfold coarse_counts.
  destruct (fold_fmin_le extents DBL_MAX) as [M1 M2].
  assert (Hmin : 0 < fold_left fmin extents DBL_MAX).
  { destruct (fold_fmin_in extents DBL_MAX) as [->|Hi]; [apply DBL_MAX_pos|]. rewrite Forall_forall in He. auto. }
  set (mn := fold_left fmin extents DBL_MAX) in *.
  assert (Hb : Req_bool (mn / 4) 0 = false) by (apply Req_bool_false; lra). rewrite Hb. cbn [negb check].
  set (counts := map (fun e => Ztrunc (e / (mn / 4))) extents).
  assert (H4 : Forall (fun c => 4 <= c)%Z counts).
  { unfold counts. rewrite Forall_map. rewrite Forall_forall in *. intros e Hi. specialize (M2 e Hi). specialize (He e Hi).
    assert (Hq : 4 <= e / (mn / 4)).
    { replace (e / (mn / 4)) with (4 * (e / mn)) by (field; lra). assert (1 <= e / mn); [|lra].
      apply Rmult_le_reg_r with mn; auto. replace (e / mn * mn) with e by (field; lra). lra. }
    rewrite Ztrunc_floor by lra. apply Zfloor_lub. simpl. lra. }
  assert (Hlen : length counts = ndim) by (unfold counts; rewrite map_length; auto).
  pose proof (product_ge_pow counts 4 ltac:(lia) H4) as Hp. rewrite Hlen in Hp.
  assert (H4p : (0 < 4 ^ Z.of_nat ndim)%Z) by (apply Z.pow_pos_nonneg; lia).
  rewrite zprod_product. set (P := product counts) in *. set (T := (4 ^ Z.of_nat ndim * cc)%Z) in *.
  destruct (Z.ltb_spec P T) as [HPT|HPT].
  - assert (E0 : Z.eqb P 0 = false) by (apply Z.eqb_neq; lia). rewrite E0. cbn [negb check].
    set (f := IZR T / IZR P). set (x := exp (ln f / INR ndim)). set (s := Zceil x).
    assert (HPR : 0 < IZR P) by (apply IZR_lt; lia).
    assert (Hf : 0 < f). { unfold f. apply Rmult_lt_0_compat; [apply IZR_lt; lia|now apply Rinv_0_lt_compat]. }
    assert (Hx : 0 < x) by apply exp_pos.
    assert (Hs : x <= IZR s) by apply Zceil_ub.
    assert (Hs1 : (1 <= s)%Z). { assert (0 < s)%Z; [|lia]. apply lt_IZR. simpl. lra. }
    assert (Hpow : f <= IZR (s ^ Z.of_nat ndim)).
    { rewrite <- (exp_root_pow f ndim Hf Hn). fold x. rewrite <- pow_IZR. apply pow_incr. lra. }
    assert (Hfin : (T <= P * s ^ Z.of_nat ndim)%Z).
    { apply le_IZR. rewrite mult_IZR. replace (IZR T) with (IZR P * f) by (unfold f; field; lra).
      apply Rmult_le_compat_l; lra. }
    rewrite zprod_product, product_scale, Hlen. fold P.
    apply Z.leb_le in Hfin. rewrite Hfin. cbn [check]. eexists; split; [reflexivity|].
    rewrite map_length. split; auto. split.
    + rewrite Forall_map. eapply Forall_impl; [|exact H4]. simpl. intros; nia.
    + rewrite product_scale, Hlen. fold P. now apply Z.leb_le.
  - eexists; split; [reflexivity|]. split; auto. split; auto. eapply Forall_impl; [|exact H4]. simpl; intros; lia.
Qed.

Lemma make_lookup_ok ndim geoms : (0 < ndim)%nat -> geoms <> [] -> geoms_ok ndim geoms ->
  exists lk, make_lookup ndim geoms = Some lk /\
    (4 ^ Z.of_nat ndim * Z.of_nat (length geoms) <= get_cell_count (lk_mesh lk))%Z.
Proof.
  intros Hn Hne Hg. unfold make_lookup. set (bb := mhbb_bounding_box ndim geoms).
  assert (Hlen : length bb = ndim) by apply hull_length.
  assert (Hex : forall d, (d < ndim)%nat -> lo bb d < hi bb d).
  { intros d Hd. destruct geoms as [|g r]; [congruence|].
    pose proof (hull_bounds ndim (g :: r) g d Hg (or_introl eq_refl) Hd) as Hb. fold bb in Hb.
    inversion_clear Hg. destruct H as [H1 H2]. unfold solid in H2. rewrite (Forall_nth_iff _ (0, 0)) in H2.
    specialize (H2 d ltac:(lia)). unfold lo, hi in *. lra. }
  assert (Hep : Forall (fun e => 0 < e) (box_extents bb)).
  { unfold box_extents. rewrite Forall_map, (Forall_nth_iff _ (0, 0)). intros d Hd. specialize (Hex d ltac:(lia)). unfold lo, hi in Hex. lra. }
  destruct (coarse_counts_ok ndim (box_extents bb) (Z.of_nat (length geoms))) as (counts & Ec & Lc & Pc & Tc); auto.
  { unfold box_extents. now rewrite map_length. }
  { destruct geoms; [congruence|simpl; lia]. }
  rewrite Ec. cbn [bind].
  assert (Em : exists m, make_mesh ndim (map fst bb) (box_extents bb) counts = Some m).
  { unfold make_mesh. rewrite map_length, Lc. unfold box_extents at 1. rewrite map_length, Hlen. rewrite Nat.leb_refl. cbn [check].
    assert (Hfb : forallb (fun d => Rlt_bool 0 (nthR (box_extents bb) d) && Z.ltb 0 (nthZ counts d)) (seq 0 ndim) = true).
    { apply forallb_forall. intros d Hd. apply in_seq in Hd. rewrite (Forall_nth_iff _ 0) in Hep. rewrite (Forall_nth_iff _ 0%Z) in Pc.
      apply andb_true_iff. split; [apply Rlt_bool_true; apply Hep|apply Z.ltb_lt; apply Pc]; [unfold box_extents; rewrite map_length|]; lia. }
    rewrite Hfb. cbn [check]. eauto. }
  destruct Em as (m & Em). rewrite Em. cbn [bind].
  destruct (make_mesh_ok _ _ _ _ _ Em) as (Hm & Hnd & Eo & Ee & Ecm).
  assert (Hin : Forall (geom_in_mesh m) geoms).
  { rewrite Forall_forall. intros g Hgi. unfold geom_in_mesh. pose proof Hg as Hg'. unfold geoms_ok in Hg'.
    rewrite Forall_forall in Hg'. destruct (Hg' g Hgi) as [Hl Hs]. rewrite Hnd. split; auto. split; [apply solid_proper; auto|].
    intros d Hd. rewrite Eo, Ee. unfold nthR. rewrite !nth_firstn by auto.
    change (nth d (map fst bb) 0) with (nthR (map fst bb) d). change (nth d (box_extents bb) 0) with (nthR (box_extents bb) d).
    unfold box_extents. rewrite !map_nth_pair by lia. pose proof (hull_bounds ndim geoms g d Hg Hgi Hd) as Hb. fold bb in Hb.
    unfold lo, hi in *. lra. }
  destruct (add_all_spec m geoms Hm ltac:(lia) Hin 0%Z) as (ps & Ep & Sp). rewrite Ep. cbn [bind].
  assert (Hck : forallb (fun p => Z.leb 0 (fst p) && Z.ltb (fst p) (get_cell_count m)) ps = true).
  { apply forallb_forall. intros [c [o i]] Hi. apply Sp in Hi as (k & g & t & _ & _ & Ht & -> & _). simpl.
    rewrite cell_count_product. pose proof (horner_range t _ Ht). apply andb_true_iff. split; [apply Z.leb_le|apply Z.ltb_lt]; lia. }
  rewrite Hck. cbn [check].
  set (cells := zrange 0 (get_cell_count m - 1)%Z).
  set (stride := fold_left (fun a c => Z.max a (Z.of_nat (length (cell_list ps c)))) cells 0%Z).
  destruct (stride_max ps cells 0%Z) as [S1 S2]. fold stride in S1, S2.
  assert (Hpos : (0 < get_cell_count m)%Z).
  { rewrite cell_count_product. pose proof (mesh_counts_pos m Hm) as Hp. clear -Hp. induction Hp; simpl; lia. }
  destruct (write_cells_spec ps stride S1 cells (repeat None (Z.to_nat (stride * get_cell_count m))) (get_cell_count m))
    as (b & E & L & N & O).
  - apply nodup_zrange.
  - rewrite Forall_forall. intros c Hc. apply in_zrange in Hc. lia.
  - rewrite repeat_length. nia.
  - exact S2.
  - rewrite E. cbn [bind]. eexists; split; [reflexivity|]. cbn [lk_mesh]. rewrite cell_count_product.
    rewrite Ecm, firstn_all2 by lia. exact Tc.
Qed.

(** ** Periodic wrap *)
Lemma Rabs_trunc_pos x : IZR (Ztrunc (Rabs x + 2)) > Rabs x + 1 /\ IZR (Ztrunc (Rabs x + 2)) >= 2.
Proof.
  pose proof (Rabs_pos x). destruct (Ztrunc_nonneg_bounds (Rabs x + 2)) as [B1 B2]; [lra|]. split; [lra|].
  assert (2 <= Ztrunc (Rabs x + 2))%Z. { rewrite Ztrunc_floor by lra. apply Zfloor_lub. simpl. lra. }
  apply IZR_le in H0. lra.
Qed.
Lemma periodic_1d_ok o e x : 0 < e -> (1 <= e \/ o - 2 * e <= x) ->
  o <= periodic_1d o e x < o + e /\ congruent e (periodic_1d o e x) x /\ (o <= x < o + e -> periodic_1d o e x = x).
Proof.
  intros He Hc. unfold periodic_1d. set (pos := x - o). set (n := Ztrunc (Rabs pos + 2)).
  destruct (Rabs_trunc_pos pos) as [N1 N2]. fold n in N1, N2.
  assert (Hpos : 0 <= pos + IZR n * e).
  { pose proof (Rle_abs (- pos)) as Ha. rewrite Rabs_Ropp in Ha. destruct Hc as [Hc|Hc].
    - assert (IZR n <= IZR n * e) by nra. lra.
    - assert (2 * e <= IZR n * e) by nra. unfold pos in *. lra. }
  destruct (fmod_spec _ e Hpos He) as [Hr (k & Hk & Ek)]. set (f := fmod (pos + IZR n * e) e) in *.
  split; [lra|]. assert (Hcong : congruent e (f + o) x).
  { exists (n - k)%Z. rewrite minus_IZR. unfold pos in Ek. lra. }
  split; auto. intros Hx. destruct Hcong as (j & Hj).
  assert (Hz : j = 0%Z).
  { assert (-1 < IZR j < 1). { split; nra. } destruct H as [H1 H2]. apply lt_IZR in H1, H2. lia. }
  subst j. lra.
Qed.
Definition periodic_point_ok (dom : R * R) (x y : R) : Prop :=
  fst dom <= y < fst dom + snd dom /\ congruent (snd dom) y x /\ (fst dom <= x < fst dom + snd dom -> y = x).
Lemma periodic_kernel_ok dom : forall x, length x = length dom ->
  Forall2 (fun x oe => 0 < snd oe /\ (1 <= snd oe \/ fst oe - 2 * snd oe <= x)) x dom ->
  length (periodic_kernel dom x) = length x /\
  Forall2 (fun xy oe => periodic_point_ok oe (fst xy) (snd xy)) (combine x (periodic_kernel dom x)) dom.
Proof.
  induction dom as [|[o e] dom IH]; intros x Hl H.
  - inversion H; subst. split; [auto|constructor].
  - inversion H as [|x0 oe l dom' Hx Hr]; subst. simpl in Hl. destruct (IH l ltac:(lia) Hr) as [I1 I2]. simpl. split; [now rewrite I1|].
    constructor; auto. simpl in *. destruct Hx as [Hx1 Hx2]. unfold periodic_point_ok. simpl. apply periodic_1d_ok; auto.
Qed.

(** ** Periodic domain *)
Lemma fold_min_concat ranks : Forall (fun x => - DBL_MAX <= x <= DBL_MAX) (concat ranks) -> concat ranks <> [] ->
  is_min (fst (periodic_domain ranks)) (concat ranks).
Proof.
  intros Hb Hne. unfold periodic_domain. cbn [fst]. set (o := fold_left fmin (map local_origin ranks) DBL_MAX).
  destruct (fold_fmin_le (map local_origin ranks) DBL_MAX) as [_ L]. fold o in L.
  assert (Hle : Forall (fun x => o <= x) (concat ranks)).
  { rewrite Forall_forall in *. intros x Hx. apply in_concat in Hx as (xs & Hxs & Hx).
    specialize (L (local_origin xs) (in_map _ _ _ Hxs)). destruct (fold_fmin_le xs DBL_MAX) as [_ L2].
    rewrite Forall_forall in L2. specialize (L2 x Hx). unfold local_origin in L. lra. }
  split; auto.
  assert (Hcase : o = DBL_MAX \/ In o (concat ranks)).
  { destruct (fold_fmin_in (map local_origin ranks) DBL_MAX) as [E|Hi]; [left; exact E|]. fold o in Hi.
    apply in_map_iff in Hi as (xs & E & Hxs). unfold local_origin in E.
    destruct (fold_fmin_in xs DBL_MAX) as [E2|Hi2]; [left; congruence|]. right. rewrite <- E. apply in_concat. eauto. }
  destruct Hcase as [E|]; auto. destruct (concat ranks) as [|x l]; [congruence|].
  inversion Hb; subst. inversion Hle; subst. left. lra.
Qed.
Lemma fold_max_concat ranks v : is_max v (concat ranks) -> DBL_MIN <= v ->
  fst (periodic_domain ranks) + snd (periodic_domain ranks) = v.
Proof.
  intros [Hi Hm] Hv. unfold periodic_domain. cbn [fst snd]. set (e := fold_left fmax (map local_extent ranks) DBL_MIN).
  assert (E : e = v); [|lra].
  destruct (fold_fmax_ge (map local_extent ranks) DBL_MIN) as [_ L]. fold e in L.
  apply Rle_antisym.
  - destruct (fold_fmax_in (map local_extent ranks) DBL_MIN) as [E|Hin]; [fold e in E; lra|]. fold e in Hin.
    apply in_map_iff in Hin as (xs & E & Hxs). rewrite <- E. unfold local_extent.
    destruct (fold_fmax_in xs DBL_MIN) as [->|Hi2]; [lra|]. rewrite Forall_forall in Hm. apply Hm. apply in_concat. eauto.
  - apply in_concat in Hi as (xs & Hxs & Hx). rewrite Forall_forall in L. specialize (L _ (in_map local_extent _ _ Hxs)).
    destruct (fold_fmax_ge xs DBL_MIN) as [_ L2]. rewrite Forall_forall in L2. specialize (L2 _ Hx). unfold local_extent in L. lra.
Qed.
Lemma fold_max_concat_low ranks v : is_max v (concat ranks) -> v < DBL_MIN ->
  fst (periodic_domain ranks) + snd (periodic_domain ranks) = DBL_MIN.
Proof.
  intros [Hi Hm] Hv. unfold periodic_domain. cbn [fst snd]. set (e := fold_left fmax (map local_extent ranks) DBL_MIN).
  assert (E : e = DBL_MIN); [|lra].
  destruct (fold_fmax_in (map local_extent ranks) DBL_MIN) as [E|Hin]; [exact E|]. fold e in Hin.
  apply in_map_iff in Hin as (xs & E & Hxs). unfold local_extent in E.
  destruct (fold_fmax_in xs DBL_MIN) as [E2|Hi2]; [congruence|]. rewrite Forall_forall in Hm.
  rewrite E in Hi2. assert (e <= v) by (apply Hm; apply in_concat; eauto).
  destruct (fold_fmax_ge (map local_extent ranks) DBL_MIN) as [L _]. fold e in L. lra.
Qed.

Lemma expand_nth b : forall acc d, length b = length acc -> (d < length acc)%nat ->
  nth d (expand_bounding_box b acc) (0, 0) = (fmin (lo acc d) (lo b d), fmax (hi acc d) (hi b d)).
Proof.
  induction b as [|[lb ub] b IH]; intros [|[la ua] acc] [|d] Hl Hd; simpl in *; try lia; auto.
  rewrite IH by lia. reflexivity.
Qed.
Lemma hull_hi_le n geoms d v : Forall (fun g => length g = n) geoms -> (d < n)%nat -> - DBL_MAX <= v ->
  (forall g, In g geoms -> hi g d <= v) -> hi (mhbb_bounding_box n geoms) d <= v.
Proof.
  intros Hl Hd Hv Hall. unfold mhbb_bounding_box.
  assert (Ha : length (reset_bounding_box n) = n) by apply repeat_length.
  assert (Hr : hi (reset_bounding_box n) d <= v).
  { unfold hi, reset_bounding_box. rewrite nth_indep with (d' := (DBL_MAX, - DBL_MAX)) by (rewrite repeat_length; auto).
    rewrite nth_repeat. simpl. auto. }
  revert Ha Hr. generalize (reset_bounding_box n). induction Hl as [|b r Hb Hl IH]; intros acc Ha Hr; simpl; auto.
  apply IH; [intros; apply Hall; now right|now rewrite expand_length|].
  unfold hi. rewrite expand_nth by congruence. simpl.
  destruct (fmax_cases (hi acc d) (hi b d)) as [[-> _]|[-> _]]; auto. apply Hall. now left.
Qed.
(** the two-element mesh [0,1]x[0,1], [1,2]x[0,1] *)
Definition two_elements : list box := [[(0, 1); (0, 1)]; [(1, 2); (0, 1)]].
Lemma two_elements_ok : geoms_ok 2 two_elements.
Proof. unfold two_elements, geoms_ok, solid. repeat constructor; simpl; lra. Qed.
Lemma fmin_eq_r a b : b <= a -> fmin a b = b.
Proof. intros. destruct (fmin_cases a b) as [[-> ?]|[-> ?]]; lra. Qed.
Lemma fmin_eq_l a b : a <= b -> fmin a b = a.
Proof. intros. destruct (fmin_cases a b) as [[-> ?]|[-> ?]]; lra. Qed.
Lemma fmax_eq_r a b : a <= b -> fmax a b = b.
Proof. intros. destruct (fmax_cases a b) as [[-> ?]|[-> ?]]; lra. Qed.
Lemma fmax_eq_l a b : b <= a -> fmax a b = a.
Proof. intros. destruct (fmax_cases a b) as [[-> ?]|[-> ?]]; lra. Qed.
Lemma two_elements_hull : mhbb_bounding_box 2 two_elements = [(0, 2); (0, 1)].
Proof.
  pose proof DBL_MAX_pos. pose proof DBL_MAX_ge_1. unfold mhbb_bounding_box, two_elements. simpl.
  rewrite !(fmin_eq_r DBL_MAX 0), !(fmax_eq_r (- DBL_MAX)) by lra.
  rewrite (fmin_eq_l 0 1), (fmin_eq_l 0 0), (fmax_eq_r 1 2), (fmax_eq_l 1 1) by lra. reflexivity.
Qed.
Lemma two_elements_counts : coarse_counts 2 [2; 1] 2 = Some [8; 4]%Z.
Proof.
  unfold coarse_counts. pose proof DBL_MAX_ge_1.
  assert (E : fold_left fmin [2; 1] DBL_MAX = 1).
  { simpl. rewrite fmin_eq_r; auto. destruct (fmin_cases DBL_MAX 2) as [[-> ?]|[-> ?]]; lra. }
  rewrite E. rewrite Req_bool_false by lra. cbn [negb check].
  assert (E2 : map (fun e => Ztrunc (e / (1 / 4))) [2; 1] = [8; 4]%Z).
  { simpl. replace (2 / (1 / 4)) with (IZR 8) by (simpl; field). replace (1 / (1 / 4)) with (IZR 4) by (simpl; field).
    now rewrite !Ztrunc_IZR. }
  rewrite E2. reflexivity.
Qed.
Lemma two_elements_face lk : make_lookup 2 two_elements = Some lk ->
  forall l, kernel_candidates lk [1; 1 / 2] = Some l -> ~ In 0%Z l.
Proof.
  intros H l El Hi.
  destruct (kernel_candidates_spec 2 two_elements lk H ltac:(lia) two_elements_ok [1; 1 / 2]) as (l' & El' & Hl & _).
  rewrite El in El'. injection El' as <-. apply Hl in Hi as (k & g & Hk & Hg & Hpos).
  assert (k = O) by lia. subst k. injection Hg as <-.
  destruct (make_lookup_inv 2 two_elements lk H ltac:(lia) two_elements_ok) as (ps & Hm & Hnd & Hdom & Hin & _).
  assert (Hcnt : m_counts (lk_mesh lk) = [8; 4]%Z).
  { unfold make_lookup in H. rewrite two_elements_hull in H. unfold box_extents at 1 in H. simpl map in H.
    replace (2 - 0) with 2 in H by ring. replace (1 - 0) with 1 in H by ring.
    change (Z.of_nat (length two_elements)) with 2%Z in H. rewrite two_elements_counts in H.
    cbn [bind] in H. apply bind_some in H as (m & Em & H). apply bind_some in H as (q & Eq & H).
    apply check_some in H as (_ & H). apply bind_some in H as (b & _ & H). injection H as <-. simpl.
    destruct (make_mesh_ok _ _ _ _ _ Em) as (_ & _ & _ & _ & ->). reflexivity. }
  set (m := lk_mesh lk) in *.
  rewrite overlap_pos_nth in Hpos; [|rewrite cell_box_length; simpl; lia|repeat constructor; simpl; lra|apply cell_box_proper; auto].
  specialize (Hpos O ltac:(simpl; lia)). unfold lo, hi in Hpos. rewrite cell_box_nth in Hpos by lia.
  rewrite nthZ_cell_tuple in Hpos by lia. unfold cell_interval in Hpos. simpl in Hpos.
  destruct (Hdom O ltac:(lia)) as [D1 D2]. rewrite two_elements_hull in D1, D2. unfold lo, hi in D1, D2. simpl in D1, D2.
  assert (Hw : cell_width m 0 = 1 / 4).
  { unfold cell_width. rewrite Hcnt. unfold nthZ. simpl. rewrite D1 in D2. replace (nthR (m_extents m) 0) with 2 by lra. field. }
  assert (Hc : (4 <= cell_no m 0 (nthR [1; 1 / 2]%R 0))%Z).
  { apply cell_no_ge; auto; [lia|rewrite Hcnt; reflexivity|]. rewrite D1, Hw. unfold nthR. simpl. lra. }
  apply IZR_le in Hc. simpl in Hc. rewrite D1, Hw in Hpos.
  pose proof (Rmax_r 0 (0 + IZR (cell_no m 0 (nthR [1; 1 / 2] 0)) * (1 / 4))).
  pose proof (Rmin_l 1 (0 + (IZR (cell_no m 0 (nthR [1; 1 / 2] 0)) + 1) * (1 / 4))). lra.
Qed.
