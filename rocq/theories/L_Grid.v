From Verif Require Import M_Grid L_RealBase S_Grid.

(** ** option helpers *)
Lemma bind_some {A B} (o : option A) (f : A -> option B) b : bind o f = Some b -> exists a, o = Some a /\ f a = Some b.
Proof. destruct o; simpl; [eauto|discriminate]. Qed.
Lemma check_some b {A} (k : option A) r : check b k = Some r -> b = true /\ k = Some r.
Proof. destruct b; simpl; [auto|discriminate]. Qed.
Ltac inv_bind H :=
  match type of H with
  | bind _ _ = Some _ => let x := fresh "x" in let E := fresh "E" in
      apply bind_some in H as (x & E & H)
  | check _ _ = Some _ => let E := fresh "C" in apply check_some in H as (E & H)
  end.
Lemma mapM_Forall2 {A B} (f : A -> option B) l : forall r, mapM f l = Some r <-> Forall2 (fun x y => f x = Some y) l r.
Proof.
  induction l as [|x l IH]; intros r; simpl.
  - split; [intros H; injection H as <-; constructor|intros H; inversion H; auto].
  - split.
    + intros H. inv_bind H. inv_bind H. injection H as <-. constructor; auto. now apply IH.
    + intros H. inversion_clear H. rewrite H0. simpl. apply IH in H1. rewrite H1. reflexivity.
Qed.
Lemma mapM_all {A B} (f : A -> option B) l : Forall (fun x => exists y, f x = Some y) l -> exists r, mapM f l = Some r.
Proof.
  induction 1 as [|x l (y & Hy) _ (r & Hr)]; simpl; eauto. rewrite Hy, Hr. simpl. eauto.
Qed.
Lemma Forall2_nth_error {A B} (P : A -> B -> Prop) l r : Forall2 P l r ->
  forall i x, nth_error l i = Some x -> exists y, nth_error r i = Some y /\ P x y.
Proof. induction 1; intros [|i] a Hi; simpl in *; try discriminate; [injection Hi as <-; eauto|eauto]. Qed.

(** ** boxes *)
Lemma interval_overlap_spec la ua lb ub : la <= ua -> lb <= ub ->
  interval_overlap la ua lb ub = Rmax 0 (Rmin ua ub - Rmax la lb).
Proof.
  intros Ha Hb. unfold interval_overlap. rewrite fmin_Rmin, fmax_Rmax.
  case Rle_bool_spec; intros H1; [|case Rle_bool_spec; intros H2];
  unfold Rmax, Rmin; repeat destruct Rle_dec; lra.
Qed.
Lemma bb_overlap_loop_spec a : forall b area, length a = length b -> proper a -> proper b ->
  bb_overlap_loop a b area = area * overlap_volume a b.
Proof.
  induction a as [|[la ua] a IH]; intros [|[lb ub] b] area Hl Ha Hb; simpl in *; try discriminate; try ring.
  inversion_clear Ha. inversion_clear Hb. simpl in *. rewrite IH by (auto; lia).
  rewrite interval_overlap_spec by auto. ring.
Qed.
Lemma overlap_spec a b : length a = length b -> proper a -> proper b ->
  bounding_box_intersection a b = overlap_volume a b.
Proof. intros. unfold bounding_box_intersection. rewrite bb_overlap_loop_spec by auto. ring. Qed.
Lemma overlap_volume_nonneg a : forall b, 0 <= overlap_volume a b.
Proof.
  induction a as [|[la ua] a IH]; intros [|[lb ub] b]; simpl; try lra.
  apply Rmult_le_pos; [apply Rmax_l|auto].
Qed.
Lemma overlap_volume_pos_iff a : forall b, length a = length b ->
  (0 < overlap_volume a b <-> Forall2 (fun x y => Rmax (fst x) (fst y) < Rmin (snd x) (snd y)) a b).
Proof.
  induction a as [|[la ua] a IH]; intros [|[lb ub] b] Hl; simpl in *; try discriminate.
  - split; [constructor|lra].
  - pose proof (overlap_volume_nonneg a b) as Hn. split.
    + intros H. constructor; simpl.
      * unfold Rmax at 1 in H. destruct Rle_dec; nra.
      * apply IH; [lia|]. unfold Rmax at 1 in H. destruct Rle_dec; nra.
    + intros H. inversion_clear H. simpl in *. apply IH in H1; [|lia].
      apply Rmult_lt_0_compat; auto. eapply Rlt_le_trans; [|apply Rmax_r]. lra.
Qed.
Lemma overlap_pos_interior a : forall b, length a = length b ->
  (Forall2 (fun x y => Rmax (fst x) (fst y) < Rmin (snd x) (snd y)) a b
   <-> exists p, in_interior p a /\ in_interior p b).
Proof.
  unfold in_interior. induction a as [|[la ua] a IH]; intros [|[lb ub] b] Hl; simpl in *; try discriminate.
  - split; [exists []; split; constructor|constructor].
  - split.
    + intros H. inversion_clear H. simpl in H0. apply IH in H1 as (p & P1 & P2); [|lia].
      exists ((Rmax la lb + Rmin ua ub) / 2 :: p).
      pose proof (Rmax_l la lb). pose proof (Rmax_r la lb). pose proof (Rmin_l ua ub). pose proof (Rmin_r ua ub).
      split; constructor; simpl; auto; lra.
    + intros (p & P1 & P2). inversion P1; subst. inversion P2; subst. simpl in *. constructor; simpl.
      * apply Rmax_case; apply Rmin_case; lra.
      * apply IH; [lia|]. eauto.
Qed.
Lemma overlap_positive_iff a b : length a = length b -> proper a -> proper b ->
  (0 < bounding_box_intersection a b <-> exists p, in_interior p a /\ in_interior p b).
Proof. intros. rewrite overlap_spec by auto. rewrite overlap_volume_pos_iff, overlap_pos_interior by auto. tauto. Qed.

Lemma expand_length a : forall acc, length (expand_bounding_box a acc) = length acc.
Proof. induction a as [|[l u] a IH]; intros [|[l' u'] acc]; simpl; auto. Qed.
Lemma expand_contains_acc a : forall acc p, in_box p acc -> in_box p (expand_bounding_box a acc).
Proof.
  unfold in_box. induction a as [|[l u] a IH]; intros [|[l' u'] acc] p H; simpl; auto.
  inversion_clear H. constructor; auto. simpl in *. pose proof (fmin_le_l l' l). pose proof (fmax_ge_l u' u). lra.
Qed.
Lemma expand_contains_in a : forall acc p, length a = length acc -> in_box p a -> in_box p (expand_bounding_box a acc).
Proof.
  unfold in_box. induction a as [|[l u] a IH]; intros [|[l' u'] acc] p Hl H; simpl in *; try discriminate; auto.
  inversion_clear H. constructor; auto. simpl in *. pose proof (fmin_le_r l' l). pose proof (fmax_ge_r u' u). lra.
Qed.
Lemma corner_lo b : proper b -> in_box (map fst b) b.
Proof. unfold proper, in_box. induction 1; simpl; constructor; auto. simpl. lra. Qed.
Lemma corner_hi b : proper b -> in_box (map snd b) b.
Proof. unfold proper, in_box. induction 1; simpl; constructor; auto. simpl. lra. Qed.
Lemma box_sub_bounds a c : proper a -> (forall p, in_box p a -> in_box p c) ->
  Forall2 (fun x y => fst y <= fst x /\ snd x <= snd y) a c.
Proof.
  intros Ha H. pose proof (H _ (corner_lo a Ha)) as H1. pose proof (H _ (corner_hi a Ha)) as H2. clear H Ha.
  revert c H1 H2. unfold in_box. induction a as [|[l u] a IH]; intros c H1 H2; simpl in *.
  - inversion H1; constructor.
  - inversion H1; subst. inversion H2; subst. simpl in *. constructor; simpl; auto; lra.
Qed.
Lemma expand_least a : forall acc c, length a = length acc ->
  Forall2 (fun x y => fst y <= fst x /\ snd x <= snd y) a c ->
  Forall2 (fun x y => fst y <= fst x /\ snd x <= snd y) acc c ->
  forall p, in_box p (expand_bounding_box a acc) -> in_box p c.
Proof.
  unfold in_box. induction a as [|[l u] a IH]; intros [|[l' u'] acc] c Hl H1 H2 p Hp; simpl in *; try discriminate.
  - inversion H1; subst. auto.
  - inversion H1; subst. inversion H2; subst. inversion Hp; subst. simpl in *. constructor; simpl.
    + destruct (fmin_cases l' l) as [[E _]|[E _]]; destruct (fmax_cases u' u) as [[E' _]|[E' _]]; rewrite E, E' in *; lra.
    + apply (IH acc); auto.
Qed.
Lemma expand_smallest a acc c : length a = length acc -> proper a -> proper acc ->
  (forall p, in_box p a \/ in_box p acc -> in_box p c) ->
  forall p, in_box p (expand_bounding_box a acc) -> in_box p c.
Proof.
  intros Hl Ha Hb H. apply expand_least; auto; apply box_sub_bounds; auto.
Qed.

Lemma bb_intersect_loop_spec a : forall b flag, length a = length b -> proper a -> proper b ->
  (bounding_box_intersect_loop a b flag = true <-> flag = true /\ exists p, in_box p a /\ in_box p b).
Proof.
  unfold in_box. induction a as [|[la ua] a IH]; intros [|[lb ub] b] flag Hl Ha Hb; simpl in *; try discriminate.
  - split; [intros ->; split; auto; exists []; split; constructor|tauto].
  - inversion_clear Ha. inversion_clear Hb. rewrite IH by (auto; lia).
    unfold interval_intersect. rewrite !andb_true_iff. simpl in *. split.
    + intros ((-> & Hi & Hj) & p & P1 & P2).
      revert Hi Hj. case Rle_bool_spec; [|discriminate]. case Rle_bool_spec; [|discriminate]. intros H4 H5 _ _.
      split; auto. exists (Rmax la lb :: p). split; constructor; simpl; auto; unfold Rmax; destruct Rle_dec; lra.
    + intros (-> & p & P1 & P2). inversion P1; subst. inversion P2; subst. simpl in *.
      split; [|eauto]. split; auto. split; apply Rle_bool_true; lra.
Qed.
Lemma bb_intersect_spec a b : length a = length b -> proper a -> proper b ->
  (bounding_box_intersect a b = true <-> exists p, in_box p a /\ in_box p b).
Proof. intros. unfold bounding_box_intersect. rewrite bb_intersect_loop_spec by auto. tauto. Qed.
(** completeness does not need properness *)
Lemma bb_intersect_complete a : forall b flag p, in_box p a -> in_box p b -> flag = true ->
  bounding_box_intersect_loop a b flag = true.
Proof.
  unfold in_box. induction a as [|[la ua] a IH]; intros [|[lb ub] b] flag p P1 P2 Hf; simpl; auto.
  inversion P1; subst. inversion P2; subst. simpl in *.
  eapply IH; eauto. unfold interval_intersect. rewrite !Rle_bool_true by lra. reflexivity.
Qed.

Lemma hull_fold_contains_acc boxes : forall acc p, in_box p acc ->
  in_box p (fold_left (fun acc b => expand_bounding_box b acc) boxes acc).
Proof. induction boxes; simpl; intros; auto. apply IHboxes. now apply expand_contains_acc. Qed.
Lemma hull_fold_length boxes : forall acc,
  length (fold_left (fun acc b => expand_bounding_box b acc) boxes acc) = length acc.
Proof. induction boxes; simpl; intros; auto. rewrite IHboxes. apply expand_length. Qed.
Lemma hull_length n boxes : length (mhbb_bounding_box n boxes) = n.
Proof. unfold mhbb_bounding_box. rewrite hull_fold_length. apply repeat_length. Qed.
Lemma hull_contains n boxes : Forall (fun b => length b = n) boxes ->
  forall b p, In b boxes -> in_box p b -> in_box p (mhbb_bounding_box n boxes).
Proof.
  unfold mhbb_bounding_box. intros Hl b p Hb Hp.
  assert (Hr : length (reset_bounding_box n) = n) by apply repeat_length. revert Hr.
  generalize (reset_bounding_box n). induction boxes as [|a boxes IH]; simpl in *; [tauto|].
  inversion_clear Hl. intros acc Hacc. destruct Hb as [->|Hb].
  - apply hull_fold_contains_acc. apply expand_contains_in; congruence.
  - apply IH; auto. now rewrite expand_length.
Qed.
Lemma mhbb_spec n boxes q : Forall (fun b => length b = n /\ proper b) boxes -> length q = n -> proper q ->
  (mhbb_intersects n boxes q = true <-> exists b p, In b boxes /\ in_box p b /\ in_box p q).
Proof.
  intros Hb Hq Pq. unfold mhbb_intersects. rewrite Forall_forall in Hb. split.
  - destruct (bounding_box_intersect (mhbb_bounding_box n boxes) q); simpl; [|discriminate].
    rewrite existsb_exists. intros (b & Hi & H). destruct (Hb b Hi). apply bb_intersect_spec in H; try congruence; auto.
    destruct H as (p & P1 & P2). eauto.
  - intros (b & p & Hi & P1 & P2). destruct (Hb b Hi).
    assert (E : bounding_box_intersect (mhbb_bounding_box n boxes) q = true).
    { eapply bb_intersect_complete; [|exact P2|reflexivity].
      eapply hull_contains; eauto. rewrite Forall_forall. intros x Hx. apply Hb; auto. }
    rewrite E. simpl. apply existsb_exists. exists b. split; auto.
    apply bb_intersect_spec; try congruence; eauto.
Qed.

(** ** Cartesian mesh *)
Definition mesh_ok (m : cmesh) : Prop :=
  length (m_origin m) = m_ndim m /\ length (m_extents m) = m_ndim m /\
  forall d, (d < m_ndim m)%nat -> 0 < nthR (m_extents m) d /\ (0 < nthZ (m_counts m) d)%Z.

Lemma nth_firstn {A} (l : list A) n d i : (i < n)%nat -> nth i (firstn n l) d = nth i l d.
Proof. revert l i; induction n; intros [|x l] [|i] H; simpl; auto; try lia. apply IHn. lia. Qed.
Lemma make_mesh_ok n o e c m : make_mesh n o e c = Some m ->
  mesh_ok m /\ m_ndim m = n /\ m_origin m = firstn n o /\ m_extents m = firstn n e /\ m_counts m = firstn n c.
Proof.
  unfold make_mesh. intros H. do 4 inv_bind H. injection H as <-. unfold mesh_ok, m_ndim. simpl.
  apply Nat.leb_le in C, C0, C1. rewrite !firstn_length_le by lia. repeat split; auto.
  - rewrite forallb_forall in C2. specialize (C2 d). rewrite in_seq in C2. specialize (C2 ltac:(lia)).
    apply andb_true_iff in C2 as [H1 H2]. unfold nthR. rewrite nth_firstn by auto. revert H1. unfold nthR.
    case Rlt_bool_spec; auto; discriminate.
  - rewrite forallb_forall in C2. specialize (C2 d). rewrite in_seq in C2. specialize (C2 ltac:(lia)).
    apply andb_true_iff in C2 as [H1 H2]. unfold nthZ. rewrite nth_firstn by auto. apply Z.ltb_lt in H2. auto.
Qed.

Lemma mesh_width_pos m d : mesh_ok m -> (d < m_ndim m)%nat -> 0 < cell_width m d.
Proof.
  intros (H1 & H2 & H) Hd. destruct (H d Hd) as [He Hc]. unfold cell_width.
  apply Rmult_lt_0_compat; auto. apply Rinv_0_lt_compat. apply IZR_lt. auto.
Qed.
Lemma mesh_extent_width m d : mesh_ok m -> (d < m_ndim m)%nat ->
  nthR (m_extents m) d = IZR (nthZ (m_counts m) d) * cell_width m d.
Proof.
  intros (H1 & H2 & H) Hd. destruct (H d Hd) as [He Hc]. unfold cell_width. apply IZR_lt in Hc. field. lra.
Qed.
Lemma clamp_cell_range c n : (0 < n)%Z -> (0 <= clamp_cell c n < n)%Z.
Proof. unfold clamp_cell. intros. destruct (Z.ltb_spec c 0); destruct (Z.leb_spec n (if Z.ltb c 0 then 0 else c)); try lia;
  repeat match goal with |- context[Z.leb ?a ?b] => destruct (Z.leb_spec a b) end; lia. Qed.
Lemma clamp_cell_id c n : (0 <= c < n)%Z -> clamp_cell c n = c.
Proof. unfold clamp_cell. intros. destruct (Z.ltb_spec c 0); [lia|]. destruct (Z.leb_spec n c); lia. Qed.
Lemma clamp_cell_low c n : (0 < n)%Z -> (c <= 0)%Z -> clamp_cell c n = 0%Z.
Proof. unfold clamp_cell. intros. destruct (Z.ltb_spec c 0); [destruct (Z.leb_spec n 0); lia|]. destruct (Z.leb_spec n c); lia. Qed.
Lemma clamp_cell_high c n : (0 < n)%Z -> (n - 1 <= c)%Z -> clamp_cell c n = (n - 1)%Z.
Proof. unfold clamp_cell. intros. destruct (Z.ltb_spec c 0); [lia|]. destruct (Z.leb_spec n c); lia. Qed.

(** the real cell number of a point *)
Definition cell_no (m : cmesh) (d : nat) (x : R) : Z :=
  clamp_cell (Ztrunc ((x - nthR (m_origin m) d) * inv_cell_width m d)) (nthZ (m_counts m) d).
Lemma cell_no_range m d x : mesh_ok m -> (d < m_ndim m)%nat -> (0 <= cell_no m d x < nthZ (m_counts m) d)%Z.
Proof. intros H Hd. apply clamp_cell_range. destruct H as (_ & _ & H). apply H; auto. Qed.
Lemma cell_float m d x : mesh_ok m -> (d < m_ndim m)%nat ->
  x - nthR (m_origin m) d = ((x - nthR (m_origin m) d) * inv_cell_width m d) * cell_width m d.
Proof. intros H Hd. pose proof (mesh_width_pos m d H Hd). unfold inv_cell_width. field. lra. Qed.
Lemma inv_width_pos m d : mesh_ok m -> (d < m_ndim m)%nat -> 0 < inv_cell_width m d.
Proof. intros H Hd. unfold inv_cell_width. pose proof (mesh_width_pos m d H Hd). apply Rmult_lt_0_compat; [lra|]. now apply Rinv_0_lt_compat. Qed.

(** cell lower bound: all cells starting at or below the point are at or below its cell *)
Lemma cell_no_ge m d x k : mesh_ok m -> (d < m_ndim m)%nat -> (k < nthZ (m_counts m) d)%Z ->
  nthR (m_origin m) d + IZR k * cell_width m d <= x -> (k <= cell_no m d x)%Z.
Proof.
  intros H Hd Hk Hx. destruct (Z.le_gt_cases k 0) as [?|Hk0]; [pose proof (cell_no_range m d x H Hd); lia|].
  pose proof (mesh_width_pos m d H Hd) as Hw. pose proof (cell_float m d x H Hd) as E.
  set (f := (x - nthR (m_origin m) d) * inv_cell_width m d) in *.
  assert (Hf : IZR k <= f) by (apply Rmult_le_reg_r with (cell_width m d); lra).
  assert (Hk' : 0 < IZR k) by (apply IZR_lt; auto).
  unfold cell_no. fold f. assert (Ht : (k <= Ztrunc f)%Z).
  { rewrite Ztrunc_floor by lra. apply Zfloor_lub. auto. }
  destruct (Z.le_gt_cases (nthZ (m_counts m) d - 1) (Ztrunc f)).
  - rewrite clamp_cell_high; lia.
  - rewrite clamp_cell_id; lia.
Qed.
Lemma cell_no_le m d x k : mesh_ok m -> (d < m_ndim m)%nat -> (0 <= k)%Z ->
  x < nthR (m_origin m) d + (IZR k + 1) * cell_width m d -> (cell_no m d x <= k)%Z.
Proof.
  intros H Hd Hk Hx.
  pose proof (mesh_width_pos m d H Hd) as Hw. pose proof (cell_float m d x H Hd) as E.
  assert (Hc : (0 < nthZ (m_counts m) d)%Z) by (destruct H as (_ & _ & H); apply H; auto).
  unfold cell_no. set (f := (x - nthR (m_origin m) d) * inv_cell_width m d) in *.
  assert (Hf : f < IZR k + 1) by (apply Rmult_lt_reg_r with (cell_width m d); lra).
  destruct (Rle_lt_dec f 0) as [Hf0|Hf0].
  - pose proof (Ztrunc_nonpos f Hf0). rewrite clamp_cell_low; lia.
  - assert (Ht : (Ztrunc f <= k)%Z).
    { rewrite Ztrunc_floor by lra. pose proof (Zfloor_lb f). apply Z.lt_succ_r, lt_IZR. rewrite succ_IZR. lra. }
    pose proof (Ztrunc_nonneg f ltac:(lra)).
    destruct (Z.le_gt_cases (nthZ (m_counts m) d) (Ztrunc f)).
    + rewrite clamp_cell_high; lia.
    + rewrite clamp_cell_id; lia.
Qed.
(** the cell of a point of the mesh contains it *)
Lemma cell_no_contains m d x : mesh_ok m -> (d < m_ndim m)%nat ->
  nthR (m_origin m) d <= x <= nthR (m_origin m) d + nthR (m_extents m) d ->
  nthR (m_origin m) d + IZR (cell_no m d x) * cell_width m d <= x /\
  x <= nthR (m_origin m) d + (IZR (cell_no m d x) + 1) * cell_width m d /\
  ((cell_no m d x < nthZ (m_counts m) d - 1)%Z -> x < nthR (m_origin m) d + (IZR (cell_no m d x) + 1) * cell_width m d).
Proof.
  intros H Hd Hx.
  pose proof (mesh_width_pos m d H Hd) as Hw. pose proof (cell_float m d x H Hd) as E.
  pose proof (mesh_extent_width m d H Hd) as Ee.
  assert (Hc : (0 < nthZ (m_counts m) d)%Z) by (destruct H as (_ & _ & H); apply H; auto).
  unfold cell_no. set (f := (x - nthR (m_origin m) d) * inv_cell_width m d) in *.
  set (n := nthZ (m_counts m) d) in *. set (w := cell_width m d) in *.
  assert (Hf0 : 0 <= f) by (apply Rmult_le_reg_r with w; lra).
  assert (Hfn : f <= IZR n) by (apply Rmult_le_reg_r with w; lra).
  destruct (Ztrunc_nonneg_bounds f Hf0) as [B1 B2]. pose proof (Ztrunc_nonneg f Hf0).
  destruct (Z.le_gt_cases n (Ztrunc f)) as [Hn|Hn].
  - rewrite clamp_cell_high by lia. assert (f = IZR n). { apply IZR_le in Hn. lra. }
    rewrite minus_IZR. split; [|split].
    + rewrite <- Rplus_0_r at 1. replace x with (nthR (m_origin m) d + f * w) by lra. rewrite Rplus_0_r. apply Rplus_le_compat_l. apply Rmult_le_compat_r; lra.
    + lra.
    + lia.
  - rewrite clamp_cell_id by lia. replace x with (nthR (m_origin m) d + f * w) by lra.
    split; [|split]; [apply Rplus_le_compat_l; apply Rmult_le_compat_r; lra
      |apply Rplus_le_compat_l; apply Rmult_le_compat_r; lra
      |intros _; apply Rplus_lt_compat_l; apply Rmult_lt_compat_r; lra].
Qed.
Lemma get_cell_spec m d x : mesh_ok m -> (d < m_ndim m)%nat ->
  get_cell_in_dimension m d x =
  if Rle_bool (nthR (m_origin m) d - TOL_MESH) x && Rle_bool x (nthR (m_origin m) d + nthR (m_extents m) d + TOL_MESH)
  then Some (cell_no m d x) else None.
Proof.
  intros H Hd. unfold get_cell_in_dimension, check, cell_no. apply Nat.ltb_lt in Hd. rewrite Hd.
  destruct (Rle_bool _ _); destruct (Rle_bool _ _); reflexivity.
Qed.
Lemma TOL_pos : 0 < TOL_MESH.
Proof. unfold TOL_MESH. apply Rinv_0_lt_compat, pow_lt. lra. Qed.
Lemma get_cell_inside m d x : mesh_ok m -> (d < m_ndim m)%nat ->
  nthR (m_origin m) d <= x <= nthR (m_origin m) d + nthR (m_extents m) d ->
  get_cell_in_dimension m d x = Some (cell_no m d x).
Proof.
  intros H Hd Hx. rewrite get_cell_spec by auto. pose proof TOL_pos.
  rewrite !Rle_bool_true by lra. reflexivity.
Qed.

(** linear index *)
Fixpoint horner (counts tuple : list Z) : Z :=
  match counts, tuple with
  | c :: cs, t :: ts => (t + c * horner cs ts)%Z
  | _, _ => 0%Z
  end.
Lemma horner_skip counts : forall tuple k, length tuple = length counts -> (k < length counts)%nat ->
  horner (skipn k counts) (skipn k tuple) = (nthZ tuple k + nthZ counts k * horner (skipn (S k) counts) (skipn (S k) tuple))%Z.
Proof.
  induction counts as [|c cs IH]; intros [|t ts] [|k] Hl Hk; simpl in *; try lia; auto.
  rewrite IH by lia. reflexivity.
Qed.
Lemma linear_loop_horner counts tuple : length tuple = length counts -> forall k, (k <= length counts)%nat ->
  linear_loop counts tuple k (horner (skipn k counts) (skipn k tuple)) = horner counts tuple.
Proof.
  intros Hl. induction k as [|k IH]; intros Hk; simpl; auto.
  rewrite <- IH by lia. f_equal. rewrite (horner_skip counts tuple k) by (auto; lia). simpl. lia.
Qed.
Lemma linear_horner m t : length t = m_ndim m -> (0 < m_ndim m)%nat -> get_linear_cell_index m t = horner (m_counts m) t.
Proof.
  unfold get_linear_cell_index, m_ndim. intros Hl H0.
  rewrite <- (linear_loop_horner (m_counts m) t Hl (length (m_counts m) - 1)) by lia. f_equal.
  rewrite horner_skip by (auto; lia). replace (S (length (m_counts m) - 1)) with (length (m_counts m)) by lia.
  rewrite skipn_all. simpl. lia.
Qed.
Lemma valid_product_pos t counts : valid_tuple t counts -> (0 < product counts)%Z.
Proof. induction 1; simpl; [lia|]. nia. Qed.
Lemma horner_range t counts : valid_tuple t counts -> (0 <= horner counts t < product counts)%Z.
Proof. induction 1; simpl; [lia|]. nia. Qed.
Lemma horner_inj counts t : valid_tuple t counts -> forall t', valid_tuple t' counts -> horner counts t = horner counts t' -> t = t'.
Proof.
  induction 1 as [|x c t cs Hx Ht IH]; intros t' H' E; inversion H'; subst; auto. simpl in E.
  assert (horner cs t = horner cs l) by nia. f_equal; [nia|auto].
Qed.
Lemma horner_surj counts : Forall (fun c => 0 < c)%Z counts -> forall k, (0 <= k < product counts)%Z ->
  exists t, valid_tuple t counts /\ horner counts t = k.
Proof.
  unfold valid_tuple. induction 1 as [|c cs Hc _ IH]; intros k Hk; simpl in *.
  - exists []. split; [constructor|lia].
  - assert (0 <= k / c < product cs)%Z.
    { split; [apply Z.div_pos; lia|apply Z.div_lt_upper_bound; lia]. }
    destruct (IH _ H) as (t & Ht & E). exists ((k mod c)%Z :: t). split.
    + constructor; auto. apply Z.mod_pos_bound; auto.
    + simpl. rewrite E. pose proof (Z.div_mod k c ltac:(lia)). lia.
Qed.
Lemma fold_mul_product l : forall a, fold_left Z.mul l a = (a * product l)%Z.
Proof. induction l; simpl; intros; [lia|]. rewrite IHl. lia. Qed.
Lemma cell_count_product m : get_cell_count m = product (m_counts m).
Proof. unfold get_cell_count. rewrite fold_mul_product. lia. Qed.
Lemma mesh_counts_pos m : mesh_ok m -> Forall (fun c => 0 < c)%Z (m_counts m).
Proof.
  intros (_ & _ & H). rewrite Forall_forall. intros c Hc. apply (In_nth _ _ 0%Z) in Hc as (d & Hd & <-).
  apply H. auto.
Qed.

(** bounding box of a cell *)
Definition cell_interval (m : cmesh) (d : nat) (c : Z) : R * R :=
  (nthR (m_origin m) d + IZR c * cell_width m d, nthR (m_origin m) d + (IZR c + 1) * cell_width m d).
Lemma mesh_box_loop_spec m t : forall k d,
  (forall i, (d <= i < d + k)%nat -> (0 <= nthZ t i < nthZ (m_counts m) i)%Z) ->
  mesh_box_loop m t d k = Some (map (fun i => cell_interval m i (nthZ t i)) (seq d k)).
Proof.
  induction k as [|k IH]; intros d H; simpl; auto.
  pose proof (H d ltac:(lia)) as Hd. destruct Hd as [H1 H2]. apply Z.leb_le in H1. apply Z.ltb_lt in H2.
  rewrite H1, H2. simpl. rewrite IH by (intros; apply H; lia). reflexivity.
Qed.
Lemma valid_tuple_nth t counts i : valid_tuple t counts -> (i < length counts)%nat -> (0 <= nthZ t i < nthZ counts i)%Z.
Proof.
  intros H; revert i; induction H; intros [|i] Hi; simpl in *; try lia; unfold nthZ in *; simpl; auto. apply IHForall2. lia.
Qed.
Lemma get_box_spec m t : valid_tuple t (m_counts m) ->
  get_bounding_box m t = Some (map (fun i => cell_interval m i (nthZ t i)) (seq 0 (m_ndim m))).
Proof. intros H. unfold get_bounding_box. apply mesh_box_loop_spec. intros. apply valid_tuple_nth; auto. unfold m_ndim in *; lia. Qed.

(** the cell tuple of a point *)
Definition cell_tuple_of (m : cmesh) (p : list R) : list Z := map (fun d => cell_no m d (nthR p d)) (seq 0 (m_ndim m)).
Lemma seq_map_nth {A B} (f : nat -> A) (l : list B) (Q : A -> B -> Prop) (dflt : B) : forall s,
  (forall i, (i < length l)%nat -> Q (f (s + i)%nat) (nth i l dflt)) ->
  Forall2 Q (map f (seq s (length l))) l.
Proof.
  induction l as [|b l IH]; intros s H; simpl; constructor.
  - specialize (H O ltac:(simpl; lia)). simpl in H. rewrite Nat.add_0_r in H. auto.
  - apply IH. intros i Hi. specialize (H (S i) ltac:(simpl; lia)). simpl in H.
    replace (S s + i)%nat with (s + S i)%nat by lia. auto.
Qed.
Lemma cell_tuple_valid m p : mesh_ok m -> valid_tuple (cell_tuple_of m p) (m_counts m).
Proof.
  intros H. unfold valid_tuple, cell_tuple_of, m_ndim. apply seq_map_nth with (dflt := 0%Z).
  intros i Hi. simpl. apply cell_no_range; auto.
Qed.
Lemma nthZ_cell_tuple m p i : (i < m_ndim m)%nat -> nthZ (cell_tuple_of m p) i = cell_no m i (nthR p i).
Proof.
  intros H. unfold nthZ, cell_tuple_of. rewrite nth_indep with (d' := (fun d => cell_no m d (nthR p d)) 0%nat) by (rewrite map_length, seq_length; auto).
  rewrite (map_nth (fun d => cell_no m d (nthR p d))). rewrite seq_nth by auto. reflexivity.
Qed.
