From Coq Require Import Sorting.Permutation.
From Verif Require Import M_MeshIf L_RealBase S_Grid S_MeshIf L_Grid L_Coarse L_ListX.
From Verif Require M_Util L_Util.

Lemma lin_horner c : forall t, lin c t = horner c t.
Proof. induction c as [|x c IH]; intros [|y t]; simpl; rewrite ?IH; auto. Qed.

(** ** one dimension *)
Lemma overlap_1d_spec l u c w : 0 < w ->
  overlap_1d l u c w = Rmax 0 (Rmin u (IZR c * w + w) - Rmax l (IZR c * w)).
Proof.
  intros Hw. unfold overlap_1d. rewrite fmin_Rmin, fmax_Rmax.
  case Rle_bool_spec; intros H1; [|case Rle_bool_spec; intros H2; [|case Rlt_bool_spec; intros H3]];
    unfold Rmax, Rmin in *; repeat destruct (Rle_dec _ _); lra.
Qed.
Lemma overlap_1d_nonneg l u c w : 0 < w -> 0 <= overlap_1d l u c w.
Proof. intros. rewrite overlap_1d_spec by auto. apply Rmax_l. Qed.
Definition clampf (l u x : R) : R := Rmin u (Rmax l x).
Lemma overlap_1d_tele l u c w : 0 < w -> l <= u ->
  overlap_1d l u c w = clampf l u (IZR (c + 1) * w) - clampf l u (IZR c * w).
Proof.
  intros Hw Hl. rewrite overlap_1d_spec by auto. rewrite plus_IZR. unfold clampf, Rmax, Rmin.
  repeat destruct (Rle_dec _ _); lra.
Qed.
Lemma div_mul_w w x : 0 < w -> x = (x * (1 / w)) * w.
Proof. intros. field. lra. Qed.
Lemma cell_start_le w n l c : 0 < w -> (0 <= c < n)%Z -> l < (IZR c + 1) * w -> (cell_start_of (1 / w) n l <= c)%Z.
Proof.
  intros Hw Hc Hl. unfold cell_start_of.
  assert (Ht : (Ztrunc (l * (1 / w)) <= c)%Z).
  { destruct (Rle_lt_dec (l * (1 / w)) 0) as [H|H].
    - pose proof (Ztrunc_nonpos _ H). lia.
    - pose proof (Ztrunc_nonneg_bounds (l * (1 / w)) ltac:(lra)) as [H1 _].
      apply Z.lt_succ_r. apply lt_IZR. rewrite succ_IZR.
      apply Rle_lt_trans with (l * (1 / w)); auto.
      apply Rmult_lt_reg_r with w; auto. rewrite <- div_mul_w; auto. }
  destruct (Z.ltb_spec (Ztrunc (l * (1 / w))) 0); [destruct (Z.leb_spec n 0)|destruct (Z.leb_spec n (Ztrunc (l * (1 / w))))]; lia.
Qed.
Lemma cell_end_gt w n u c : 0 < w -> (0 <= c < n)%Z -> IZR c * w < u -> (c < cell_end_of (1 / w) n u)%Z.
Proof.
  intros Hw Hc Hu. unfold cell_end_of.
  assert (Hx : IZR c < u * (1 / w)).
  { apply Rmult_lt_reg_r with w; auto. rewrite <- div_mul_w; auto. }
  assert (0 <= IZR c) by (apply IZR_le; lia).
  assert (Ht : (c + 1 <= Ztrunc (u * (1 / w) + 1))%Z).
  { rewrite Ztrunc_floor by lra. apply Zfloor_lub. rewrite plus_IZR. lra. }
  destruct (Z.ltb_spec (Ztrunc (u * (1 / w) + 1)) 0); [lia|].
  destruct (Z.ltb_spec n (Ztrunc (u * (1 / w) + 1))); lia.
Qed.
Lemma cell_start_range w n l : (0 <= n)%Z -> (0 <= cell_start_of w n l <= n)%Z.
Proof. intros. unfold cell_start_of. destruct (Z.ltb_spec (Ztrunc (l * w)) 0);
  match goal with |- context[Z.leb ?a ?b] => destruct (Z.leb_spec a b) end; lia. Qed.
Lemma cell_end_range w n l : (0 <= n)%Z -> (0 <= cell_end_of w n l <= n)%Z.
Proof. intros. unfold cell_end_of. destruct (Z.ltb_spec (Ztrunc (l * w + 1)) 0);
  match goal with |- context[Z.ltb ?a ?b] => destruct (Z.ltb_spec a b) end; lia. Qed.

Lemma zrange_cons s e : (s <= e)%Z -> zrange s e = s :: zrange (s + 1) e.
Proof.
  intros H. unfold zrange. replace (Z.to_nat (e - s + 1)) with (S (Z.to_nat (e - (s + 1) + 1))) by lia.
  cbn [seq map]. f_equal; [lia|]. rewrite <- seq_shift, map_map. apply map_ext. intros. lia.
Qed.
Lemma zrange_nil s e : (e < s)%Z -> zrange s e = [].
Proof. intros H. unfold zrange. replace (Z.to_nat (e - s + 1)) with O by lia. reflexivity. Qed.
Lemma sum_tele (f : Z -> R) : forall k s, sumR (map (fun c => f (c + 1)%Z - f c) (zrange s (s + Z.of_nat k - 1))) = f (s + Z.of_nat k)%Z - f s.
Proof.
  induction k as [|k IH]; intros s.
  - rewrite zrange_nil by lia. simpl. replace (s + 0)%Z with s by lia. lra.
  - rewrite zrange_cons by lia. cbn [map sumR].
    replace (s + Z.of_nat (S k) - 1)%Z with ((s + 1) + Z.of_nat k - 1)%Z by lia. rewrite IH.
    replace (s + 1 + Z.of_nat k)%Z with (s + Z.of_nat (S k))%Z by lia. lra.
Qed.
Lemma sum_overlap_1d w n l u : 0 < w -> (0 < n)%Z -> 0 <= l -> l <= u -> u <= IZR n * w ->
  sumR (map (fun c => overlap_1d l u c w) (zrange (cell_start_of (1 / w) n l) (cell_end_of (1 / w) n u - 1))) = u - l.
Proof.
  intros Hw Hn Hl Hlu Hu. set (s := cell_start_of (1 / w) n l). set (e := cell_end_of (1 / w) n u).
  assert (Hs : IZR s * w <= l).
  { assert (0 <= l * (1 / w)) by (apply Rmult_le_pos; [auto|]; apply Rlt_le, Rdiv_lt_0_compat; lra).
    pose proof (Ztrunc_nonneg_bounds _ H) as [Hb _]. pose proof (Ztrunc_nonneg _ H).
    assert (Hle : (s <= Ztrunc (l * (1 / w)))%Z).
    { unfold s, cell_start_of. destruct (Z.ltb_spec (Ztrunc (l * (1 / w))) 0); [lia|].
      destruct (Z.leb_spec n (Ztrunc (l * (1 / w)))); lia. }
    apply IZR_le in Hle. rewrite (div_mul_w w l) by auto. apply Rmult_le_compat_r; lra. }
  assert (He : u <= IZR e * w).
  { unfold e, cell_end_of.
    assert (H0 : 0 <= u * (1 / w)) by (apply Rmult_le_pos; [lra|]; apply Rlt_le, Rdiv_lt_0_compat; lra).
    pose proof (Ztrunc_nonneg_bounds (u * (1 / w) + 1) ltac:(lra)) as [_ Hb].
    pose proof (Ztrunc_nonneg (u * (1 / w) + 1) ltac:(lra)).
    destruct (Z.ltb_spec (Ztrunc (u * (1 / w) + 1)) 0); [lia|].
    destruct (Z.ltb_spec n (Ztrunc (u * (1 / w) + 1))); auto.
    apply Rle_trans with ((u * (1 / w)) * w); [rewrite <- div_mul_w by auto; lra|]. apply Rmult_le_compat_r; lra. }
  assert (Hse : (s <= e)%Z).
  { apply le_IZR. apply Rmult_le_reg_r with w; auto. lra. }
  erewrite map_ext; [|intros c; apply (overlap_1d_tele l u c w); auto].
  replace (e - 1)%Z with (s + Z.of_nat (Z.to_nat (e - s)) - 1)%Z by lia.
  rewrite (sum_tele (fun c => clampf l u (IZR c * w))).
  replace (s + Z.of_nat (Z.to_nat (e - s)))%Z with e by lia.
  unfold clampf, Rmax, Rmin. repeat destruct (Rle_dec _ _); lra.
Qed.

(** ** tuples *)
Lemma nodup_cell_tuples s : forall e, NoDup (cell_tuples s e).
Proof.
  induction s as [|a s IH]; intros [|b e]; simpl; try (repeat constructor; simpl; tauto).
  apply NoDup_flat_map; auto.
  - intros r _. apply NoDup_map_inj_in; [apply nodup_zrange|]. intros x y _ _ E. now injection E.
  - intros x y z _ _ Hx Hy. apply in_map_iff in Hx as (c & <- & _). apply in_map_iff in Hy as (c' & E & _). now injection E.
Qed.
Lemma in_cell_tuples2 s : forall e t, length s = length e ->
  (In t (cell_tuples s e) <-> Forall2 (fun x p => (fst p <= x <= snd p)%Z) t (combine s e)).
Proof.
  induction s as [|a s IH]; intros [|b e] t Hl; simpl in *; try discriminate.
  - split; [intros [<-|[]]; constructor|intros H; inversion H; auto].
  - rewrite in_flat_map. split.
    + intros (r & Hr & Ht). apply in_map_iff in Ht as (c & <- & Hc). apply in_zrange in Hc.
      constructor; auto. apply IH; auto; lia.
    + intros H. inversion H; subst. eexists. split; [apply IH; [lia|eauto]|].
      apply in_map_iff. eexists. split; eauto. apply in_zrange. auto.
Qed.

(** ** a valid hierarchy *)
Lemma mh_cw_pos m : mh_ok m -> 0 < mh_cw m.
Proof. intros (_ & _ & H & H'). apply Rdiv_lt_0_compat; auto. now apply IZR_lt. Qed.

Lemma shift_overlap_1d l u o c w : Rmax 0 (Rmin (u - o) (IZR c * w + w) - Rmax (l - o) (IZR c * w))
  = Rmax 0 (Rmin u (o + (IZR c + 1) * w) - Rmax l (o + IZR c * w)).
Proof. unfold Rmax, Rmin. repeat destruct (Rle_dec _ _); lra. Qed.
Lemma volume_overlap w : 0 < w -> forall b o t, length b = length o -> length t = length o ->
  volume_of (shift_box b o) t w = overlap_volume b (grid_cell o w t).
Proof.
  intros Hw. unfold volume_of. induction b as [|[l u] b IH]; intros [|x o] [|c t] H1 H2; simpl in *; try discriminate; auto.
  rewrite overlap_1d_spec by auto. rewrite shift_overlap_1d. rewrite IH by lia. reflexivity.
Qed.
Lemma volume_nonneg w : 0 < w -> forall b t, 0 <= volume_of b t w.
Proof.
  intros Hw b. unfold volume_of. induction b as [|[l u] b IH]; intros [|c t]; simpl; try lra.
  apply Rmult_le_pos; auto. now apply overlap_1d_nonneg.
Qed.
Lemma shift_length b : forall o, length b = length o -> length (shift_box b o) = length o.
Proof. induction b as [|[l u] b IH]; intros [|x o] H; simpl in *; try discriminate; auto. Qed.

Definition start_of m (sb : box) := map (fun p => cell_start_of (mh_icw m) (snd p) (fst (fst p))) (combine sb (fine_counts m)).
Definition last_of m (sb : box) := map (fun p => (cell_end_of (mh_icw m) (snd p) (snd (fst p)) - 1)%Z) (combine sb (fine_counts m)).
Lemma tuples_valid icw (n : list Z) : forall sb t, length sb = length n -> Forall (fun d => 0 < d)%Z n ->
  In t (cell_tuples (map (fun p => cell_start_of icw (snd p) (fst (fst p))) (combine sb n))
                    (map (fun p => (cell_end_of icw (snd p) (snd (fst p)) - 1)%Z) (combine sb n))) ->
  valid_tuple t n.
Proof.
  unfold valid_tuple. induction n as [|c n IH]; intros [|[l u] sb] t Hl Hp Ht; simpl in *; try discriminate.
  - destruct Ht as [<-|[]]. constructor.
  - apply in_flat_map in Ht as (r & Hr & Ht). apply in_map_iff in Ht as (x & <- & Hx). apply in_zrange in Hx.
    inversion Hp; subst. constructor.
    + pose proof (cell_start_range icw c l ltac:(lia)). pose proof (cell_end_range icw c u ltac:(lia)). lia.
    + eapply IH; [|auto|exact Hr]. lia.
Qed.
Lemma mul_pos_inv a b : 0 <= a -> 0 <= b -> 0 < a * b -> 0 < a /\ 0 < b.
Proof. intros Ha Hb H. split; apply Rnot_le_lt; intros Hn;
  [replace a with 0 in H by lra|replace b with 0 in H by lra]; lra. Qed.
Lemma tuples_complete w (n : list Z) : 0 < w -> forall sb t, length sb = length n -> Forall (fun d => 0 < d)%Z n ->
  valid_tuple t n -> 0 < volume_of sb t w ->
  In t (cell_tuples (map (fun p => cell_start_of (1 / w) (snd p) (fst (fst p))) (combine sb n))
                    (map (fun p => (cell_end_of (1 / w) (snd p) (snd (fst p)) - 1)%Z) (combine sb n))).
Proof.
  intros Hw. unfold valid_tuple. induction n as [|c n IH]; intros [|[l u] sb] t Hl Hp Ht Hv; simpl in *; try discriminate.
  - inversion Ht. auto.
  - inversion Ht as [|x c' t' n' Hx Ht']; subst. inversion Hp; subst. unfold volume_of in Hv. simpl in Hv.
    apply mul_pos_inv in Hv as [Hv1 Hv2]; [|now apply overlap_1d_nonneg|apply (volume_nonneg w Hw)].
    apply in_flat_map. exists t'. split; [apply IH; auto; lia|].
    apply in_map_iff. exists x. split; auto. apply in_zrange.
    rewrite overlap_1d_spec in Hv1 by auto. unfold Rmax, Rmin in Hv1.
    assert (l < (IZR x + 1) * w /\ IZR x * w < u) as [Hl' Hu'] by (repeat destruct (Rle_dec _ _); lra).
    pose proof (cell_start_le w c l x Hw Hx Hl'). pose proof (cell_end_gt w c u x Hw Hx Hu'). lia.
Qed.

(** ** the cell number *)
Lemma div_valid nf dims : (0 < nf)%Z -> forall t, valid_tuple t (map (fun d => (nf * d)%Z) dims) ->
  valid_tuple (map (fun i => Z.quot i nf) t) dims /\
  valid_tuple (map (fun i => Z.rem i nf) t) (repeat nf (length dims)) /\
  subcell nf (map (fun i => Z.quot i nf) t) (map (fun i => Z.rem i nf) t) = t.
Proof.
  intros Hn. unfold valid_tuple. induction dims as [|d dims IH]; intros t H; inversion H as [|x ? t' ? Hx Ht]; subst; simpl.
  - repeat split; constructor.
  - destruct (IH _ Ht) as (H1 & H2 & H3). repeat split.
    + constructor; auto. split; [apply Z.quot_pos; lia|]. apply Z.quot_lt_upper_bound; lia.
    + constructor; auto. apply Z.rem_bound_pos; lia.
    + rewrite H3. f_equal. pose proof (Z.quot_rem' x nf). lia.
Qed.
Lemma subcell_div nf dims : (0 < nf)%Z -> forall c f, valid_tuple c dims -> valid_tuple f (repeat nf (length dims)) ->
  valid_tuple (subcell nf c f) (map (fun d => (nf * d)%Z) dims) /\
  map (fun i => Z.quot i nf) (subcell nf c f) = c /\ map (fun i => Z.rem i nf) (subcell nf c f) = f.
Proof.
  intros Hn. unfold valid_tuple. induction dims as [|d dims IH]; intros c f Hc Hf; inversion Hc as [|x ? c' ? Hx Hc']; subst;
    inversion Hf as [|y ? f' ? Hy Hf']; subst; simpl.
  - repeat split; constructor.
  - destruct (IH _ _ Hc' Hf') as (H1 & H2 & H3). repeat split.
    + constructor; auto. nia.
    + f_equal; auto. rewrite Z.add_comm, Z.quot_add_l || idtac. symmetry. apply (Z.quot_unique _ _ x y); nia.
    + f_equal; auto. symmetry. apply (Z.rem_unique _ _ x y); nia.
Qed.
Lemma zprod_product l : zprod l = product l.
Proof. unfold zprod. rewrite fold_mul_product. lia. Qed.
Lemma mh_linear_app m c f : length c = mh_ndim m ->
  mh_linear m (c ++ f) = (horner (mh_dims m) c * product (repeat (mh_nf m) (mh_ndim m)) + horner (repeat (mh_nf m) (mh_ndim m)) f)%Z.
Proof.
  intros H. unfold mh_linear. rewrite firstn_app, skipn_app, <- H, firstn_all, skipn_all, Nat.sub_diag.
  simpl. rewrite app_nil_r, !lin_horner, zprod_product. reflexivity.
Qed.
Lemma valid_length t n : valid_tuple t n -> length t = length n.
Proof. apply Forall2_length. Qed.
Lemma mh_linear_inj m c f c' f' : 
  valid_tuple c (mh_dims m) -> valid_tuple f (repeat (mh_nf m) (mh_ndim m)) ->
  valid_tuple c' (mh_dims m) -> valid_tuple f' (repeat (mh_nf m) (mh_ndim m)) ->
  mh_linear m (c ++ f) = mh_linear m (c' ++ f') -> c = c' /\ f = f'.
Proof.
  intros Hc Hf Hc' Hf' E. rewrite !mh_linear_app in E by (apply valid_length; auto).
  pose proof (horner_range _ _ Hf). pose proof (horner_range _ _ Hf').
  set (P := product (repeat (mh_nf m) (mh_ndim m))) in *.
  assert (horner (mh_dims m) c = horner (mh_dims m) c') by nia.
  split; [eapply horner_inj; eauto|]. eapply horner_inj; eauto. lia.
Qed.
Lemma mh_linear_range m c f : valid_tuple c (mh_dims m) -> valid_tuple f (repeat (mh_nf m) (mh_ndim m)) ->
  (0 <= mh_linear m (c ++ f) < product (mh_dims m) * product (repeat (mh_nf m) (mh_ndim m)))%Z.
Proof.
  intros Hc Hf. rewrite mh_linear_app by (apply valid_length; auto).
  pose proof (horner_range _ _ Hf). pose proof (horner_range _ _ Hc). nia.
Qed.

(** ** bounding_box_map *)
Lemma padded_length p b : length (padded p b) = length b.
Proof. unfold padded. destruct (Rlt_bool 0 p); auto. now rewrite map_length. Qed.
Lemma bbm_unfold m b pad : bounding_box_map m b pad =
  concat (map (fun t => if Rlt_bool 0 (volume_of (shift_box (padded pad b) (mh_origin m)) t (mh_cw m))
     then [(mh_linear m (mesh_tuple_to_mh_tuple m t), volume_of (shift_box (padded pad b) (mh_origin m)) t (mh_cw m))] else [])
     (cell_tuples (start_of m (shift_box (padded pad b) (mh_origin m))) (last_of m (shift_box (padded pad b) (mh_origin m))))).
Proof. reflexivity. Qed.
Lemma fine_counts_pos m : mh_ok m -> Forall (fun d => 0 < d)%Z (fine_counts m).
Proof.
  intros (_ & H & Hn & _). unfold fine_counts. rewrite Forall_map. eapply Forall_impl; [|exact H]. simpl. intros. nia.
Qed.
Lemma in_bbm m b pad g v : mh_ok m -> length b = mh_ndim m ->
  (In (g, v) (bounding_box_map m b pad) <->
   exists t, valid_tuple t (fine_counts m) /\ g = mh_linear m (mesh_tuple_to_mh_tuple m t) /\
     v = overlap_volume (padded pad b) (grid_cell (mh_origin m) (mh_cw m) t) /\ 0 < v).
Proof.
  intros Hm Hb. pose proof (mh_cw_pos m Hm) as Hw. pose proof (fine_counts_pos m Hm) as Hp.
  assert (Lo : length (padded pad b) = length (mh_origin m)) by (rewrite padded_length; unfold mh_ndim in Hb; destruct Hm; congruence).
  assert (Ls : length (shift_box (padded pad b) (mh_origin m)) = length (fine_counts m)).
  { rewrite shift_length by auto. unfold fine_counts. rewrite map_length. apply Hm. }
  rewrite bbm_unfold, in_concat. split.
  - intros (l & Hl & Hin). apply in_map_iff in Hl as (t & <- & Ht).
    pose proof (tuples_valid _ _ _ _ Ls Hp Ht) as Vt.
    revert Hin. case Rlt_bool_spec; intros Hv; [|intros []]. intros [E|[]]. injection E as <- <-.
    assert (length t = length (mh_origin m)).
    { rewrite (valid_length _ _ Vt). unfold fine_counts. rewrite map_length. symmetry; apply Hm. }
    rewrite volume_overlap in * by auto. exists t. auto.
  - intros (t & Vt & -> & -> & Hv). 
    assert (length t = length (mh_origin m)).
    { rewrite (valid_length _ _ Vt). unfold fine_counts. rewrite map_length. symmetry; apply Hm. }
    rewrite <- volume_overlap in * by auto.
    eexists. split; [apply in_map_iff; exists t; split; [reflexivity|]|].
    + apply tuples_complete; auto.
    + rewrite Rlt_bool_true by auto. simpl; auto.
Qed.
Lemma NoDup_concat_opt {A B} (f : A -> list B) l : NoDup (concat (map f l)) <-> NoDup (flat_map f l).
Proof. now rewrite flat_map_concat_map. Qed.
Lemma bbm_nodup m b pad : mh_ok m -> length b = mh_ndim m -> NoDup (map fst (bounding_box_map m b pad)).
Proof.
  intros Hm Hb. pose proof (fine_counts_pos m Hm) as Hp.
  assert (Lo : length (padded pad b) = length (mh_origin m)) by (rewrite padded_length; unfold mh_ndim in Hb; destruct Hm; congruence).
  assert (Ls : length (shift_box (padded pad b) (mh_origin m)) = length (fine_counts m)).
  { rewrite shift_length by auto. unfold fine_counts. rewrite map_length. apply Hm. }
  rewrite bbm_unfold, concat_map, map_map, <- flat_map_concat_map. apply NoDup_flat_map.
  - apply nodup_cell_tuples.
  - intros t _. destruct (Rlt_bool _ _); simpl; repeat constructor; simpl; tauto.
  - intros t t' z Ht Ht' Hz Hz'.
    pose proof (tuples_valid _ _ _ _ Ls Hp Ht) as Vt. pose proof (tuples_valid _ _ _ _ Ls Hp Ht') as Vt'.
    destruct (Rlt_bool _ _); simpl in Hz; [|tauto]. destruct Hz as [Hz|[]].
    destruct (Rlt_bool _ _); simpl in Hz'; [|tauto]. destruct Hz' as [Hz'|[]]. subst z.
    destruct Hm as (_ & _ & Hn & _).
    destruct (div_valid _ _ Hn _ Vt) as (A1 & A2 & A3). destruct (div_valid _ _ Hn _ Vt') as (B1 & B2 & B3).
    destruct (mh_linear_inj m _ _ _ _ B1 B2 A1 A2 Hz') as [E1 E2].
    unfold mh_ndim in *. rewrite <- A3, <- B3, E1, E2. reflexivity.
Qed.
Lemma sumR_app a b : sumR (a ++ b) = sumR a + sumR b.
Proof. induction a; simpl; lra. Qed.
Lemma sumR_scal k l : sumR (map (fun x => x * k) l) = sumR l * k.
Proof. induction l; simpl; lra. Qed.
Lemma sum_filter_pos {A} (v : A -> R) (g : A -> Z) l : (forall x, 0 <= v x) ->
  sumR (map snd (concat (map (fun t => if Rlt_bool 0 (v t) then [(g t, v t)] else []) l))) = sumR (map v l).
Proof.
  intros H. induction l as [|t l IH]; simpl; auto. rewrite map_app, sumR_app, IH.
  case Rlt_bool_spec; intros Hv; simpl; [lra|]. pose proof (H t). lra.
Qed.
Lemma sum_cell_tuples w : forall sb s e, length sb = length s -> length s = length e ->
  sumR (map (fun t => volume_of sb t w) (cell_tuples s e)) =
  fold_right Rmult 1 (map (fun p => sumR (map (fun c => overlap_1d (fst (fst p)) (snd (fst p)) c w) (zrange (fst (snd p)) (snd (snd p)))))
                          (combine sb (combine s e))).
Proof.
  induction sb as [|[l u] sb IH]; intros [|a s] [|b e] H1 H2; simpl in *; try discriminate.
  - unfold volume_of. simpl. lra.
  - rewrite <- IH by lia. clear IH. generalize (cell_tuples s e) as ts. intros ts.
    induction ts as [|t ts IH]; cbn [flat_map map sumR]; [lra|].
    rewrite map_app, sumR_app, IH. rewrite map_map.
    replace (sumR (map (fun x => volume_of ((l, u) :: sb) (x :: t) w) (zrange a b)))
      with (sumR (map (fun c => overlap_1d l u c w) (zrange a b)) * volume_of sb t w).
    + lra.
    + rewrite <- sumR_scal, map_map. f_equal. 
Qed.
Lemma bbm_sum m b pad : mh_ok m -> length b = mh_ndim m -> proper b -> 0 <= pad ->
  box_inside (padded pad b) (grid_extent (mh_origin m) (mh_cw m) (fine_counts m)) -> proper (padded pad b) ->
  sumR (map snd (bounding_box_map m b pad)) = box_volume (padded pad b).
Proof.
  intros Hm Hb _ _ Hin Hpr. pose proof (mh_cw_pos m Hm) as Hw. pose proof (fine_counts_pos m Hm) as Hp.
  assert (Lo : length (padded pad b) = length (mh_origin m)) by (rewrite padded_length; unfold mh_ndim in Hb; destruct Hm; congruence).
  assert (Lc : length (fine_counts m) = length (mh_origin m)) by (unfold fine_counts; rewrite map_length; symmetry; apply Hm).
  rewrite bbm_unfold. rewrite (sum_filter_pos (fun t => volume_of _ t (mh_cw m)) (fun t => mh_linear m (mesh_tuple_to_mh_tuple m t)))
    by (intros; now apply volume_nonneg).
  unfold start_of, last_of, mh_icw. generalize dependent (padded pad b). intros B Hin Hpr Lo.
  rewrite sum_cell_tuples by (rewrite ?map_length, ?combine_length, ?shift_length; auto; lia).
  generalize dependent (fine_counts m). generalize dependent (mh_origin m). generalize (mh_cw m) Hw. intros w Hw' o.
  clear - Hpr Hw'. revert o. unfold box_inside. induction B as [|[l u] B IH]; intros [|x o] Lo [|n ns] Hp Lc Hin; simpl in *; try discriminate; auto.
  inversion Hin as [|? ? ? ? [Hi1 Hi2] Hin']; subst. inversion Hpr; subst. inversion Hp; subst. simpl in *.
  rewrite IH by (auto; lia). rewrite sum_overlap_1d by (auto; lra). ring.
Qed.

Lemma bbm_spec m b pad g v : mh_ok m -> length b = mh_ndim m ->
  (In (g, v) (bounding_box_map m b pad) <->
   exists c, fine_cell m g c /\ v = overlap_volume (padded pad b) c /\ 0 < v).
Proof.
  intros Hm Hb. rewrite in_bbm by auto. assert (Hn : (0 < mh_nf m)%Z) by apply Hm. split.
  - intros (t & Vt & -> & -> & Hv). destruct (div_valid _ _ Hn _ Vt) as (A1 & A2 & A3).
    eexists. split; [|split; [reflexivity|auto]].
    exists (map (fun i => Z.quot i (mh_nf m)) t), (map (fun i => Z.rem i (mh_nf m)) t).
    rewrite A3. unfold mh_ndim. auto.
  - intros (c & (co & fi & V1 & V2 & -> & ->) & -> & Hv).
    destruct (subcell_div _ _ Hn _ _ V1 V2) as (A1 & A2 & A3).
    exists (subcell (mh_nf m) co fi). split; [exact A1|]. split; [|auto].
    unfold mesh_tuple_to_mh_tuple. rewrite A2, A3. reflexivity.
Qed.
Lemma fine_cell_inj m g c c' : mh_ok m -> fine_cell m g c -> fine_cell m g c' -> c = c'.
Proof.
  intros Hm (co & fi & V1 & V2 & -> & ->) (co' & fi' & V1' & V2' & E & ->).
  destruct (mh_linear_inj m _ _ _ _ V1 V2 V1' V2' E) as [-> ->]. reflexivity.
Qed.
Lemma padded_zero b : padded 0 b = b.
Proof. unfold padded. now rewrite Rlt_bool_false by lra. Qed.
Lemma max_side_fold b : forall a, 0 <= a -> a <= fold_left (fun a lu => fmax (snd lu - fst lu) a) b a /\
  (Forall (fun lu => snd lu - fst lu <= fold_left (fun a lu => fmax (snd lu - fst lu) a) b a) b) /\
  (fold_left (fun a lu => fmax (snd lu - fst lu) a) b a = a \/ In (fold_left (fun a lu => fmax (snd lu - fst lu) a) b a) (map (fun lu : R * R => snd lu - fst lu) b)).
Proof.
  induction b as [|lu b IH]; intros a Ha; simpl; [split; [lra|auto]|].
  assert (Hf : 0 <= fmax (snd lu - fst lu) a) by (pose proof (fmax_ge_r (snd lu - fst lu) a); lra).
  destruct (IH _ Hf) as (H1 & H2 & H3).
  pose proof (fmax_ge_r (snd lu - fst lu) a). pose proof (fmax_ge_l (snd lu - fst lu) a).
  repeat split; [lra|constructor; [lra|exact H2]|].
  destruct H3 as [H3|H3]; auto. destruct (fmax_cases (snd lu - fst lu) a) as [[E _]|[E _]]; rewrite H3, E; auto.
Qed.
Lemma padded_grow pad b : 0 < pad -> proper b -> b <> [] ->
  exists s, longest_side b s /\ padded pad b = grow (pad * s) b.
Proof.
  intros Hp Hb Hn. exists (max_side b). split; [|unfold padded, grow; rewrite Rlt_bool_true by auto; reflexivity].
  destruct (max_side_fold b 0 ltac:(lra)) as (H1 & H2 & H3). split.
  - destruct H3 as [E|]; auto. unfold max_side. rewrite E in *. destruct b as [|lu b]; [easy|].
    inversion H2; subst. inversion Hb; subst. simpl. left. lra.
  - rewrite Forall_map. exact H2.
Qed.
Lemma padded_proper pad b : proper b -> proper (padded pad b).
Proof.
  intros H. unfold padded. case Rlt_bool_spec; auto. intros Hp.
  destruct (max_side_fold b 0 ltac:(lra)) as (H1 & _ & _). fold (max_side b) in H1.
  assert (0 <= pad * max_side b) by (apply Rmult_le_pos; lra).
  unfold proper in *. rewrite Forall_map. eapply Forall_impl; [|exact H]. simpl. intros. lra.
Qed.

(** ** claims *)
Lemma zlookup_zassign {V} (m : list (Z * V)) k v k' : zlookup (M_Util.zassign m k v) k' = if Z.eqb k' k then Some v else zlookup m k'.
Proof.
  induction m as [|[x y] m IH]; simpl.
  - destruct (Z.eqb_spec k' k); auto.
  - destruct (Z.eqb_spec k x) as [->|]; simpl.
    + destruct (Z.eqb_spec k' x); auto.
    + destruct (Z.ltb_spec k x); simpl.
      * destruct (Z.eqb_spec k' k); auto.
      * rewrite IH. destruct (Z.eqb_spec k' x) as [->|]; auto. destruct (Z.eqb_spec x k); [lia|auto].
Qed.
Lemma in_zinsert z s x : In x (zinsert z s) <-> x = z \/ In x s.
Proof.
  induction s as [|y s IH]; simpl; [intuition|].
  destruct (Z.ltb_spec z y); simpl; [intuition|]. destruct (Z.eqb_spec z y) as [->|]; simpl; [intuition|].
  rewrite IH. intuition.
Qed.
From Coq Require Import Sorting.Sorted.
Lemma zinsert_sorted z s : StronglySorted Z.lt s -> StronglySorted Z.lt (zinsert z s).
Proof.
  induction 1 as [|y s Hs IH Hy]; simpl; [repeat constructor|].
  destruct (Z.ltb_spec z y).
  - constructor; [constructor; auto|]. constructor; auto. eapply Forall_impl; [|exact Hy]. simpl; lia.
  - destruct (Z.eqb_spec z y) as [->|]; [constructor; auto|]. constructor; auto.
    rewrite Forall_forall in *. intros x Hx. apply in_zinsert in Hx as [->|Hx]; [lia|auto].
Qed.
Lemma sorted_ext (a b : list Z) : StronglySorted Z.lt a -> StronglySorted Z.lt b -> (forall x, In x a <-> In x b) -> a = b.
Proof.
  intros Ha; revert b; induction Ha as [|x a Ha IH Hx]; intros b Hb H.
  - destruct b as [|y b]; auto. destruct (proj2 (H y)); simpl; auto.
  - destruct Hb as [|y b Hb Hy]; [destruct (proj1 (H x)); simpl; auto|].
    rewrite Forall_forall in Hx, Hy.
    assert (x = y).
    { destruct (proj1 (H x) ltac:(simpl; auto)) as [|Hxb]; [congruence|]. destruct (proj2 (H y) ltac:(simpl; auto)) as [|Hya]; [congruence|].
      apply Hx in Hya. apply Hy in Hxb. lia. }
    subst y. f_equal. apply IH; auto. intros z. split; intros Hz.
    + destruct (proj1 (H z) ltac:(simpl; auto)) as [<-|]; auto. apply Hx in Hz. lia.
    + destruct (proj2 (H z) ltac:(simpl; auto)) as [<-|]; auto. apply Hy in Hz. lia.
Qed.

Definition run_claims (h : list (Z * Z * R)) : local_claim :=
  fold_left (fun c x => claim c (fst (fst x)) (snd (fst x)) (snd x)) h claim_empty.
Definition best (h : list (Z * Z * R)) (cell : Z) (o : option (Z * R)) : Prop :=
  match o with
  | Some (w, f) => (0 < w)%Z /\ exists pre post, h = pre ++ (cell, w, f) :: post /\
       (forall w' f', In (cell, w', f') pre -> (w' < w)%Z) /\ (forall w' f', In (cell, w', f') post -> (w' <= w)%Z)
  | None => forall w f, In (cell, w, f) h -> (w <= 0)%Z
  end.
Lemma claim_weights_run h : forall c, best h c (zlookup (claim_weights (run_claims h)) c).
Proof.
  induction h as [|[[x w] f] h IH] using rev_ind; intros c.
  - simpl. intros w f [].
  - unfold run_claims. rewrite fold_left_app. fold (run_claims h). cbn [fold_left fst snd].
    specialize (IH c). unfold claim. destruct (Z.ltb_spec 0 w) as [Hw|Hw].
    + cbn zeta. unfold get_claim.
      set (cur := match zlookup (claim_weights (run_claims h)) x with Some v => v | None => (0%Z, 0) end).
      destruct (Z.eq_dec c x) as [->|Hne].
      * assert (Hl : forall A B : local_claim, zlookup (claim_weights (if Z.ltb (fst cur) w then A else B)) x
              = if Z.ltb (fst cur) w then zlookup (claim_weights A) x else zlookup (claim_weights B) x) by (intros; destruct (Z.ltb (fst cur) w); auto).
        rewrite Hl. cbn [claim_weights]. rewrite !zlookup_zassign, Z.eqb_refl.
        destruct (Z.ltb_spec (fst cur) w) as [Hc|Hc].
        -- split; auto. exists h, []. split; [reflexivity|]. split; [|intros ? ? []].
           unfold cur in Hc. destruct (zlookup (claim_weights (run_claims h)) x) as [[w0 f0]|]; simpl in *.
           ++ destruct IH as (_ & pre & post & -> & H1 & H2). intros w' f' Hi. rewrite in_app_iff in Hi. simpl in Hi.
              destruct Hi as [Hi|[Hi|Hi]]; [apply H1 in Hi; lia|injection Hi; intros; lia|apply H2 in Hi; lia].
           ++ intros w' f' Hi. apply IH in Hi. lia.
        -- unfold cur in *. destruct (zlookup (claim_weights (run_claims h)) x) as [[w0 f0]|]; simpl in *; [|lia].
           destruct IH as (H0 & pre & post & -> & H1 & H2). split; auto. exists pre, (post ++ [(x, w, f)]).
           split; [now rewrite <- app_assoc|]. split; auto. intros w' f' Hi. apply in_app_iff in Hi as [Hi|[Hi|[]]]; [eauto|].
           injection Hi; intros; lia.
      * assert (Hl : zlookup (claim_weights (if Z.ltb (fst cur) w
            then mkClaim (zinsert x (claim_cells (run_claims h))) (M_Util.zassign (M_Util.zassign (claim_weights (run_claims h)) x cur) x (w, f))
            else mkClaim (zinsert x (claim_cells (run_claims h))) (M_Util.zassign (claim_weights (run_claims h)) x cur))) c
            = zlookup (claim_weights (run_claims h)) c).
        { destruct (Z.ltb (fst cur) w); cbn [claim_weights]; rewrite !zlookup_zassign; apply Z.eqb_neq in Hne; rewrite Hne; auto. }
        rewrite Hl. clear Hl. destruct (zlookup (claim_weights (run_claims h)) c) as [[w0 f0]|]; simpl in *.
        -- destruct IH as (H0 & pre & post & -> & H1 & H2). split; auto. exists pre, (post ++ [(x, w, f)]).
           split; [now rewrite <- app_assoc|]. split; auto. intros w' f' Hi. apply in_app_iff in Hi as [Hi|[Hi|[]]]; [eauto|].
           injection Hi; intros; lia.
        -- intros w' f' Hi. apply in_app_iff in Hi as [Hi|[Hi|[]]]; [eauto|]. injection Hi; intros; lia.
    + destruct (zlookup (claim_weights (run_claims h)) c) as [[w0 f0]|]; simpl in *.
      * destruct IH as (H0 & pre & post & -> & H1 & H2). split; auto. exists pre, (post ++ [(x, w, f)]).
        split; [now rewrite <- app_assoc|]. split; auto. intros w' f' Hi. apply in_app_iff in Hi as [Hi|[Hi|[]]]; [eauto|].
        injection Hi; intros; lia.
      * intros w' f' Hi. apply in_app_iff in Hi as [Hi|[Hi|[]]]; [eauto|]. injection Hi; intros; lia.
Qed.
Lemma claim_cells_step c i w f : claim_cells (claim c i w f) = if Z.ltb 0 w then zinsert i (claim_cells c) else claim_cells c.
Proof. unfold claim. destruct (Z.ltb 0 w); auto. cbn zeta. destruct (Z.ltb _ w); auto. Qed.
Lemma claim_cells_run h : StronglySorted Z.lt (claim_cells (run_claims h)) /\
  forall c, In c (claim_cells (run_claims h)) <-> exists w f, In (c, w, f) h /\ (0 < w)%Z.
Proof.
  induction h as [|[[x w] f] h IH] using rev_ind.
  - simpl. split; [constructor|]. intros c. split; [intros []|intros (w & f & [] & _)].
  - unfold run_claims. rewrite fold_left_app. fold (run_claims h). cbn [fold_left fst snd].
    rewrite claim_cells_step. destruct IH as [Hs Hi]. split.
    + destruct (Z.ltb 0 w); auto. now apply zinsert_sorted.
    + intros c. split.
      * intros H. assert (c = x /\ (0 < w)%Z \/ In c (claim_cells (run_claims h))) as [[-> Hw]|H'].
        { destruct (Z.ltb_spec 0 w); auto. apply in_zinsert in H as [->|]; auto. }
        -- exists w, f. rewrite in_app_iff. simpl. auto.
        -- apply Hi in H' as (w' & f' & H1 & H2). exists w', f'. rewrite in_app_iff. auto.
      * intros (w' & f' & H1 & H2). apply in_app_iff in H1 as [H1|[H1|[]]].
        -- assert (In c (claim_cells (run_claims h))) by (apply Hi; eauto). destruct (Z.ltb 0 w); auto. apply in_zinsert; auto.
        -- injection H1 as <- <- <-. destruct (Z.ltb_spec 0 w); [|lia]. apply in_zinsert. auto.
Qed.
Lemma claims_order_free h h' : Permutation h h' ->
  claim_cells (run_claims h) = claim_cells (run_claims h') /\
  forall c, option_map fst (zlookup (claim_weights (run_claims h)) c) = option_map fst (zlookup (claim_weights (run_claims h')) c).
Proof.
  intros P. destruct (claim_cells_run h) as [S1 H1]. destruct (claim_cells_run h') as [S2 H2]. split.
  - apply sorted_ext; auto. intros x. rewrite H1, H2. split; intros (w & f & Hi & Hw); exists w, f; split; auto;
      [eapply Permutation_in; eauto|eapply Permutation_in; [apply Permutation_sym|]; eauto].
  - intros c. pose proof (claim_weights_run h c) as B1. pose proof (claim_weights_run h' c) as B2.
    destruct (zlookup (claim_weights (run_claims h)) c) as [[w f]|], (zlookup (claim_weights (run_claims h')) c) as [[w' f']|]; simpl in *; auto.
    + destruct B1 as (Hw & pre & post & -> & A1 & A2). destruct B2 as (Hw' & pre' & post' & -> & A1' & A2').
      f_equal. assert (In (c, w, f) (pre' ++ (c, w', f') :: post')) as Hi1 by (eapply Permutation_in; [exact P|]; rewrite in_app_iff; simpl; auto).
      assert (In (c, w', f') (pre ++ (c, w, f) :: post)) as Hi2 by (eapply Permutation_in; [apply Permutation_sym, P|]; rewrite in_app_iff; simpl; auto).
      apply in_app_iff in Hi1 as [Hi1|[Hi1|Hi1]]; apply in_app_iff in Hi2 as [Hi2|[Hi2|Hi2]];
        try (apply A1 in Hi2); try (apply A2 in Hi2); try (apply A1' in Hi1); try (apply A2' in Hi1); try congruence; lia.
    + destruct B1 as (Hw & pre & post & -> & A1 & A2). assert (w <= 0)%Z; [|lia]. apply (B2 w f).
      eapply Permutation_in; [exact P|]. rewrite in_app_iff; simpl; auto.
    + destruct B2 as (Hw & pre & post & -> & A1 & A2). assert (w' <= 0)%Z; [|lia]. apply (B1 w' f').
      eapply Permutation_in; [apply Permutation_sym, P|]. rewrite in_app_iff; simpl; auto.
Qed.
