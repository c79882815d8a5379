From Coq Require Import Sorting.Permutation Sorting.Sorted.
From Verif Require Import M_Util S_Util.

(** ** string maps *)
Lemma smfind_assign_eq {V} (m : list (string * V)) k v : smfind (smassign m k v) k = Some v.
Proof.
  induction m as [|[k' v'] m IH]; simpl.
  - now rewrite String.eqb_refl.
  - destruct (String.eqb k' k) eqn:E; simpl.
    + now rewrite String.eqb_refl.
    + now rewrite E.
Qed.
Lemma smfind_assign_neq {V} (m : list (string * V)) k k' v : k <> k' -> smfind (smassign m k v) k' = smfind m k'.
Proof.
  intros Hn. induction m as [|[a b] m IH]; simpl.
  - destruct (String.eqb_spec k k'); congruence.
  - destruct (String.eqb_spec a k); simpl; subst.
    + destruct (String.eqb_spec k k'); congruence.
    + destruct (String.eqb a k'); auto.
Qed.

(** a fold of writes *)
Definition wfold {V} (w : list (string * V)) (m : list (string * V)) :=
  fold_left (fun m kv => smassign m (fst kv) (snd kv)) w m.
Lemma wfold_notin {V} (w : list (string * V)) : forall m k,
  ~ In k (map fst w) -> smfind (wfold w m) k = smfind m k.
Proof.
  induction w as [|[a b] w IH]; intros m k Hn; simpl in *; auto.
  rewrite IH by tauto. apply smfind_assign_neq. tauto.
Qed.
Lemma wfold_app {V} (a b : list (string * V)) m : wfold (a ++ b) m = wfold b (wfold a m).
Proof. unfold wfold. apply fold_left_app. Qed.
Lemma wfold_last {V} (w : list (string * V)) m k v : last_write w k v -> smfind (wfold w m) k = Some v.
Proof.
  intros (a & b & -> & Hn). rewrite wfold_app. cbn [wfold fold_left fst snd].
  change (smfind (wfold b (smassign (wfold a m) k v)) k = Some v).
  rewrite wfold_notin by auto. apply smfind_assign_eq.
Qed.
Lemma last_write_exists {V} (w : list (string * V)) k : In k (map fst w) -> exists v, last_write w k v.
Proof.
  induction w as [|[a b] w IH]; simpl; [tauto|]. intros H.
  destruct (in_dec string_dec k (map fst w)) as [Hi|Hn].
  - destruct (IH Hi) as (v & x & y & -> & Hy). exists v, ((a, b) :: x), y. auto.
  - destruct H as [<-|H]; [|tauto]. exists b, [], w. auto.
Qed.

Lemma ps_run_writes {I R} (ops : list (psop I R)) : ps_run ops = wfold (writes ops) [].
Proof.
  unfold ps_run. generalize (@nil (string * pvalue I R)). induction ops as [|o ops IH]; intros m; simpl; auto.
  rewrite IH, wfold_app. f_equal. destruct o as [k v|k v|l|l]; simpl; auto.
  - revert m. induction l as [|[k v] l IHl]; intros m; simpl; auto.
  - revert m. induction l as [|[k v] l IHl]; intros m; simpl; auto.
Qed.

Lemma store_spec {I R} (ops : list (psop I R)) (k : string) (di : I) (dr : R) :
  (forall i, last_write (writes ops) k (VInt i) ->
     ps_get_int (ps_run ops) k di = Got i /\ ps_get_real (ps_run ops) k dr = BadAccess) /\
  (forall r, last_write (writes ops) k (VReal r) ->
     ps_get_real (ps_run ops) k dr = Got r /\ ps_get_int (ps_run ops) k di = BadAccess) /\
  (ps_contains (ps_run ops) k = true <-> In k (map fst (writes ops))) /\
  (~ In k (map fst (writes ops)) ->
     ps_get_int (ps_run ops) k di = Got di /\ ps_get_real (ps_run ops) k dr = Got dr).
Proof.
  rewrite ps_run_writes. unfold ps_get_int, ps_get_real, ps_contains. repeat split.
  - now rewrite (wfold_last _ _ _ _ H).
  - now rewrite (wfold_last _ _ _ _ H).
  - now rewrite (wfold_last _ _ _ _ H).
  - now rewrite (wfold_last _ _ _ _ H).
  - destruct (in_dec string_dec k (map fst (writes ops))); auto. now rewrite wfold_notin by auto.
  - intros H. destruct (last_write_exists _ _ H) as (v & Hv). now rewrite (wfold_last _ _ _ _ Hv).
  - now rewrite wfold_notin by auto.
  - now rewrite wfold_notin by auto.
Qed.

(** ** callbacks *)
Lemma call_all_fold {S} (l : list (S -> S)) s : call_all l s = fold_left (fun s f => f s) l s.
Proof. revert s; induction l; simpl; auto. Qed.
Lemma cb_fold_handler {S} (ops : list (cbop S)) : forall h s,
  fst (fold_left cb_step ops (h, s)) =
  mkHandler (pre_funcs h ++ registered_pre ops) (post_funcs h ++ registered_post ops).
Proof.
  induction ops as [|o ops IH]; intros [p q] s; simpl.
  - now rewrite !app_nil_r.
  - destruct o; cbn [cb_step]; rewrite IH; simpl; rewrite <- ?app_assoc; reflexivity.
Qed.
Lemma cb_run_snoc {S} (ops : list (cbop S)) s o :
  cb_run (ops ++ [o]) s = snd (cb_step (mkHandler (registered_pre ops) (registered_post ops), cb_run ops s) o).
Proof.
  unfold cb_run. rewrite fold_left_app. cbn [fold_left].
  pose proof (cb_fold_handler ops (mkHandler [] []) s) as H.
  destruct (fold_left cb_step ops (mkHandler [] [], s)) as [h s']. simpl in H. subst h. reflexivity.
Qed.
Lemma callbacks_spec {S} (ops : list (cbop S)) (s : S) :
  cb_run (ops ++ [FirePre]) s = fold_left (fun s f => f s) (registered_pre ops) (cb_run ops s) /\
  cb_run (ops ++ [FirePost]) s = fold_left (fun s f => f s) (registered_post ops) (cb_run ops s) /\
  (forall f, cb_run (ops ++ [RegPre f]) s = cb_run ops s) /\
  (forall f, cb_run (ops ++ [RegPost f]) s = cb_run ops s).
Proof.
  rewrite !cb_run_snoc. simpl. unfold call_pre, call_post. rewrite !call_all_fold.
  repeat split; intros; rewrite cb_run_snoc; reflexivity.
Qed.

(** ** field index map *)
Lemma fim_build_app names : forall i m, fim_build names i m = wfold (combine names (map (fun j => i + Z.of_nat j)%Z (seq 0 (length names)))) m.
Proof.
  induction names as [|n r IH]; intros i m; simpl; auto.
  rewrite IH. cbn [wfold fold_left fst snd]. unfold wfold. rewrite Z.add_0_r. f_equal.
  f_equal. rewrite <- seq_shift, map_map. apply map_ext. intros; lia.
Qed.
Lemma combine_nth_last names : forall i,
  forall n k, nth_error names k = Some n -> (forall k', (k < k')%nat -> nth_error names k' <> Some n) ->
  last_write (combine names (map (fun j => i + Z.of_nat j)%Z (seq 0 (length names)))) n (i + Z.of_nat k)%Z.
Proof.
  induction names as [|a r IH]; intros i n k Hk Hl; [destruct k; discriminate|].
  simpl. rewrite <- seq_shift, map_map.
  assert (E : map (fun x => (i + Z.of_nat (S x))%Z) (seq 0 (length r)) = map (fun x => ((i + 1) + Z.of_nat x)%Z) (seq 0 (length r))).
  { apply map_ext; intros; lia. }
  rewrite E. destruct k as [|k].
  - simpl in Hk. injection Hk as ->. exists [], (combine r (map (fun x => ((i + 1) + Z.of_nat x)%Z) (seq 0 (length r)))).
    split; [reflexivity|].
    intros Hin. apply in_map_iff in Hin as ([x y] & Hx & Hin). simpl in Hx; subst x.
    apply in_combine_l in Hin. apply In_nth_error in Hin as (j & Hj). exact (Hl (S j) ltac:(lia) Hj).
  - destruct (IH (i + 1)%Z n k Hk) as (x & y & Hxy & Hy).
    { intros k' Hk' H. exact (Hl (S k') ltac:(lia) H). }
    exists ((a, (i + Z.of_nat 0)%Z) :: x), y. rewrite Hxy. split; [|exact Hy]. simpl. do 3 f_equal. f_equal. lia.
Qed.
Lemma fim_find_last names n k :
  nth_error names k = Some n -> (forall k', (k < k')%nat -> nth_error names k' <> Some n) ->
  smfind (fim_make names) n = Some (Z.of_nat k).
Proof.
  intros H1 H2. unfold fim_make. rewrite fim_build_app. rewrite (wfold_last _ _ _ _ (combine_nth_last names 0%Z n k H1 H2)).
  reflexivity.
Qed.
Lemma fim_find_none names n : ~ In n names -> smfind (fim_make names) n = None.
Proof.
  intros H. unfold fim_make. rewrite fim_build_app, wfold_notin; auto.
  intros Hi. apply in_map_iff in Hi as ([x y] & Hx & Hin). simpl in Hx; subst. apply in_combine_l in Hin. auto.
Qed.
Lemma last_occurrence (names : list string) n : In n names ->
  exists k, nth_error names k = Some n /\ forall k', (k < k')%nat -> nth_error names k' <> Some n.
Proof.
  induction names as [|a r IH]; [simpl; tauto|]. intros H.
  destruct (in_dec string_dec n r) as [Hi|Hn].
  - destruct (IH Hi) as (k & H1 & H2). exists (S k). split; auto.
    intros [|k'] Hk; [lia|]. apply H2. lia.
  - destruct H as [->|H]; [|tauto]. exists O. split; auto. intros [|k'] Hk; [lia|]. simpl. intros E. apply nth_error_In in E. auto.
Qed.
Lemma fim_spec (names : list string) (n : string) :
  (In n names -> exists k, nth_error names k = Some n /\
      (forall k', (k < k')%nat -> nth_error names k' <> Some n) /\
      fim_get_idx (fim_make names) n = Z.of_nat k /\ fim_at (fim_make names) n = Some (Z.of_nat k)) /\
  (~ In n names -> fim_get_idx (fim_make names) n = (-1)%Z /\ fim_at (fim_make names) n = None).
Proof.
  split.
  - intros H. destruct (last_occurrence names n H) as (k & H1 & H2). exists k. unfold fim_get_idx, fim_at.
    rewrite (fim_find_last names n k H1 H2). auto.
  - intros H. unfold fim_get_idx, fim_at. rewrite (fim_find_none names n H). auto.
Qed.

(** ** sizes *)
Lemma mult_le_cancel N L q0 r q : (0 < L)%Z -> (N = L * q0 + r)%Z -> (0 < r)%Z -> (N <= q * L)%Z -> ((q0 + 1) * L <= q * L)%Z.
Proof.
  intros HL HN Hr Hq. apply Z.mul_le_mono_nonneg_r; [lia|].
  destruct (Z.le_gt_cases (q0 + 1) q); auto. exfalso.
  assert (q * L <= q0 * L)%Z by (apply Z.mul_le_mono_nonneg_r; lia). lia.
Qed.
Lemma global_size_spec N L : (0 <= N)%Z -> (0 < L)%Z -> least_multiple_above L N (get_global_size N L).
Proof.
  intros HN HL. unfold get_global_size, least_multiple_above.
  rewrite Z.quot_div_nonneg, Z.rem_mod_nonneg by lia.
  pose proof (Z.div_mod N L ltac:(lia)) as D. pose proof (Z.mod_pos_bound N L HL) as B.
  set (q := (N / L)%Z) in *. set (r := (N mod L)%Z) in *.
  destruct (Z.eqb_spec r 0); (split; [eexists; reflexivity|split]).
  - lia.
  - intros; lia.
  - lia.
  - intros q' H. eapply mult_le_cancel; eauto. lia.
Qed.
Lemma pad_spec VL L : (0 < VL)%Z -> (0 <= L)%Z -> least_multiple_above VL L (pad_to_vector_length VL L).
Proof.
  intros HV HL. unfold pad_to_vector_length, least_multiple_above.
  rewrite Z.rem_mod_nonneg by lia.
  pose proof (Z.div_mod L VL ltac:(lia)) as D. pose proof (Z.mod_pos_bound L VL HV) as B.
  set (q := (L / VL)%Z) in *. set (r := (L mod VL)%Z) in *.
  destruct (Z.eqb_spec r 0).
  - split; [exists q; lia|split; [lia|intros; lia]].
  - split; [exists (q + 1)%Z; lia|split; [lia|]]. intros q' H.
    pose proof (mult_le_cancel L VL q r q' HV D ltac:(lia) H). lia.
Qed.

(** ** cell ids *)
Definition keys_sorted {V} (m : list (Z * V)) := StronglySorted Z.lt (map fst m).

Lemma zassign_keys {V} (m : list (Z * V)) k v x : In x (map fst (zassign m k v)) <-> x = k \/ In x (map fst m).
Proof.
  induction m as [|[a b] m IH]; simpl; [firstorder|].
  destruct (Z.eqb_spec k a); [subst; simpl; firstorder|].
  destruct (Z.ltb k a); simpl; firstorder.
Qed.
Lemma zassign_sorted {V} (m : list (Z * V)) k v : keys_sorted m -> keys_sorted (zassign m k v).
Proof.
  unfold keys_sorted. induction m as [|[a b] m IH]; simpl; intros H.
  - repeat constructor.
  - apply StronglySorted_inv in H as [H1 H2].
    destruct (Z.eqb_spec k a); [subst; simpl; constructor; auto|].
    destruct (Z.ltb_spec k a); simpl.
    + constructor; [constructor; auto|]. constructor; auto.
      eapply Forall_impl; [|exact H2]. simpl; intros; lia.
    + constructor; auto. rewrite Forall_forall in *. intros x Hx. apply zassign_keys in Hx as [->|Hx]; [lia|auto].
Qed.
Lemma zassign_perm {V} (m : list (Z * V)) k v : ~ In k (map fst m) -> Permutation (zassign m k v) ((k, v) :: m).
Proof.
  induction m as [|[a b] m IH]; simpl; intros H; auto.
  destruct (Z.eqb_spec k a); [subst; tauto|]. destruct (Z.ltb k a); auto.
  rewrite IH by tauto. apply perm_swap.
Qed.
Lemma zassign_all_sorted {V} (l : list (Z * V)) : forall m, keys_sorted m -> keys_sorted (zassign_all l m).
Proof. induction l; simpl; intros; auto. apply IHl. now apply zassign_sorted. Qed.
Lemma zassign_all_perm {V} (l : list (Z * V)) : forall m, NoDup (map fst (l ++ m)) -> Permutation (zassign_all l m) (l ++ m).
Proof.
  induction l as [|[a b] l IH]; simpl; intros m H; auto.
  inversion_clear H.
  assert (Hn : ~ In a (map fst m)). { intros Hi; apply H0. rewrite map_app, in_app_iff; auto. }
  rewrite IH.
  - rewrite (zassign_perm m a b Hn). symmetry. apply Permutation_middle.
  - eapply Permutation_NoDup; [|exact (NoDup_cons a H0 H1)].
    rewrite !map_app. rewrite (zassign_perm m a b Hn). simpl. apply Permutation_middle.
Qed.

Lemma cm_loop_spec geoms : forall mn mx ids tys,
  Forall (fun kg => fst kg = fst (snd kg)) geoms ->
  cm_loop geoms mn mx ids tys =
  Some (fold_left Z.min (map fst geoms) mn, fold_left Z.max (map fst geoms) mx,
        ids ++ map fst geoms, tys ++ map (fun kg => snd (snd kg)) geoms).
Proof.
  induction geoms as [|[k [id ty]] r IH]; intros mn mx ids tys H; simpl.
  - now rewrite !app_nil_r.
  - inversion_clear H. simpl in H0. subst id. rewrite Z.eqb_refl, IH by auto.
    rewrite <- !app_assoc. reflexivity.
Qed.
Lemma cm_loop_ids geoms : forall mn mx ids tys r, cm_loop geoms mn mx ids tys = Some r ->
  Forall (fun kg => fst kg = fst (snd kg)) geoms.
Proof.
  induction geoms as [|[k [id ty]] g IH]; intros mn mx ids tys r H; [constructor|].
  simpl in H. destruct (Z.eqb_spec k id); [|discriminate]. constructor; simpl; eauto.
Qed.
Lemma fold_min_le l : forall a, (fold_left Z.min l a <= a)%Z /\ Forall (fun x => fold_left Z.min l a <= x)%Z l.
Proof.
  induction l as [|x l IH]; intros a; simpl; [split; [lia|constructor]|].
  destruct (IH (Z.min a x)) as [H1 H2]. split; [lia|]. constructor; [lia|]. auto.
Qed.
Lemma fold_max_ge l : forall a, (a <= fold_left Z.max l a)%Z /\ Forall (fun x => x <= fold_left Z.max l a)%Z l.
Proof.
  induction l as [|x l IH]; intros a; simpl; [split; [lia|constructor]|].
  destruct (IH (Z.max a x)) as [H1 H2]. split; [lia|]. constructor; [lia|]. auto.
Qed.
Lemma fold_min_in l : forall a, fold_left Z.min l a = a \/ In (fold_left Z.min l a) l.
Proof.
  induction l as [|x l IH]; intros a; simpl; auto.
  destruct (IH (Z.min a x)) as [H|H]; [|auto]. rewrite H. destruct (Z.min_spec a x) as [[_ ->]|[_ ->]]; auto.
Qed.
Lemma fold_max_in l : forall a, fold_left Z.max l a = a \/ In (fold_left Z.max l a) l.
Proof.
  induction l as [|x l IH]; intros a; simpl; auto.
  destruct (IH (Z.max a x)) as [H|H]; [|auto]. rewrite H. destruct (Z.max_spec a x) as [[_ ->]|[_ ->]]; auto.
Qed.

Lemma upd_some {A} (l : list A) i x : (i < length l)%nat -> exists l', upd l i x = Some l' /\
  length l' = length l /\ nth_error l' i = Some x /\ forall j, j <> i -> nth_error l' j = nth_error l j.
Proof.
  revert i; induction l as [|a l IH]; intros [|i] H; simpl in *; try lia.
  - eexists; repeat split; simpl; auto. intros [|j] Hj; simpl; congruence.
  - destruct (IH i ltac:(lia)) as (l' & -> & H1 & H2 & H3). exists (a :: l'). simpl.
    repeat split; auto. intros [|j] Hj; simpl; auto.
Qed.
Lemma updZ_some {A} (l : list A) i x : (0 <= i < Z.of_nat (length l))%Z -> exists l', updZ l i x = Some l' /\
  length l' = length l /\ nth_error l' (Z.to_nat i) = Some x /\ forall j, j <> Z.to_nat i -> nth_error l' j = nth_error l j.
Proof.
  intros H. unfold updZ. destruct (Z.ltb_spec i 0); [lia|]. apply upd_some. lia.
Qed.
Lemma cm_fill_spec ids : forall shift ex buf,
  NoDup ids -> Forall (fun id => 0 <= id - shift < Z.of_nat (length buf))%Z ids ->
  exists b, cm_fill ids shift ex buf = Some b /\ length b = length buf /\
   (forall i id, nth_error ids i = Some id -> nth_error b (Z.to_nat (id - shift)) = Some (Some (ex + Z.of_nat i)%Z)) /\
   (forall j, (forall id, In id ids -> j <> Z.to_nat (id - shift)) -> nth_error b j = nth_error buf j).
Proof.
  induction ids as [|a r IH]; intros shift ex buf Hn Hf; simpl.
  - exists buf. repeat split; auto. intros [|i] id; discriminate.
  - inversion_clear Hn. inversion_clear Hf.
    destruct (updZ_some buf (a - shift) (Some ex) H1) as (b1 & E1 & L1 & N1 & O1). rewrite E1.
    destruct (IH shift (ex + 1)%Z b1 H0) as (b & E & L & N & O).
    { rewrite L1. exact H2. }
    exists b. split; [exact E|]. split; [congruence|]. split.
    + intros [|i] id Hi; simpl in Hi.
      * injection Hi as <-. rewrite O. { rewrite N1. do 2 f_equal. lia. }
        intros id Hid He. rewrite Forall_forall in H2. specialize (H2 id Hid).
        assert (a = id) by lia. subst; auto.
      * rewrite (N i id Hi). do 2 f_equal. lia.
    + intros j Hj. rewrite O. { apply O1. apply Hj. now left. } intros id Hid. apply Hj. now right.
Qed.

Lemma sorted_nodup l : StronglySorted Z.lt l -> NoDup l.
Proof.
  induction 1; constructor; auto. intros Hi. rewrite Forall_forall in H0. specialize (H0 a Hi). lia.
Qed.

Lemma construct_spec (geoms : list (Z * geom)) :
  keys_sorted geoms -> geoms <> [] ->
  Forall (fun kg => fst kg = fst (snd kg)) geoms ->
  Forall (fun kg => 0 <= fst kg < INT_MAX)%Z geoms ->
  exists c, construct_maps geoms = Some c /\
    map_to_nektar c = map fst geoms /\
    map_to_geom_type c = map (fun kg => snd (snd kg)) geoms /\
    (forall i id, nth_error (map_to_nektar c) i = Some id <-> translate c id = Some (Z.of_nat i)) /\
    (forall id v, translate c id = Some v -> (0 <= v < Z.of_nat (length geoms))%Z).
Proof.
  intros Hs Hne Hk Hr. unfold construct_maps. rewrite (cm_loop_spec geoms _ _ _ _ Hk). simpl app.
  set (ids := map fst geoms).
  assert (Hr' : Forall (fun x => 0 <= x < INT_MAX)%Z ids) by (unfold ids; rewrite Forall_map; exact Hr).
  destruct (fold_min_le ids INT_MAX) as [M1 M2]. destruct (fold_max_ge ids INT_MIN) as [X1 X2].
  assert (Hids : ids <> []). { unfold ids. destruct geoms; simpl; congruence. }
  assert (Mn : In (fold_left Z.min ids INT_MAX) ids).
  { destruct (fold_min_in ids INT_MAX) as [E|]; auto. rewrite E in M2. destruct ids as [|x l]; [congruence|].
    inversion M2; inversion Hr'; subst; lia. }
  assert (Mx : In (fold_left Z.max ids INT_MIN) ids).
  { destruct (fold_max_in ids INT_MIN) as [E|]; auto. rewrite E in X2. destruct ids as [|x l]; [congruence|].
    inversion X2; inversion Hr'; subst. unfold INT_MIN in *; lia. }
  set (mn := fold_left Z.min ids INT_MAX) in *. set (mx := fold_left Z.max ids INT_MIN) in *.
  rewrite Forall_forall in Hr', M2, X2.
  assert (B1 := Hr' _ Mn). assert (B2 := Hr' _ Mx). assert (B3 := M2 _ Mx).
  assert (Ein : in_int (mx - mn) && in_int (mx - mn + 1) = true).
  { unfold in_int, INT_MAX, INT_MIN in *. rewrite !andb_true_iff, !Z.leb_le. lia. }
  cbv zeta. fold ids. fold mn. fold mx. rewrite Ein.
  assert (Hnd : NoDup ids) by (apply sorted_nodup; exact Hs).
  destruct (cm_fill_spec ids mn 0%Z (repeat None (Z.to_nat (mx - mn + 1))) Hnd) as (b & E & L & N & O).
  { rewrite Forall_forall. intros id Hid. rewrite repeat_length. specialize (M2 _ Hid). specialize (X2 _ Hid). lia. }
  rewrite E. eexists; split; [reflexivity|]. simpl. split; [reflexivity|]. split; [reflexivity|].
  assert (T : forall id v, translate (mkCellIds ids (map (fun kg => snd (snd kg)) geoms) b mn) id = Some v ->
                exists i, nth_error ids i = Some id /\ v = Z.of_nat i).
  { intros id v. unfold translate. simpl. destruct (Z.ltb_spec (id - mn) 0); [discriminate|].
    destruct (in_dec Z.eq_dec id ids) as [Hi|Hn].
    - apply In_nth_error in Hi as (i & Hi). rewrite (N i id Hi). intros X; injection X as <-. exists i. split; auto.
    - rewrite O.
      + destruct (nth_error (repeat None (Z.to_nat (mx - mn + 1))) (Z.to_nat (id - mn))) as [o|] eqn:Eo; [|discriminate].
        apply nth_error_In, repeat_spec in Eo. subst o. discriminate.
      + intros id' Hid' Ej. specialize (M2 _ Hid'). assert (id = id') by lia. subst; auto. }
  split.
  - intros i id. split.
    + intros Hi. unfold translate. simpl. specialize (M2 id (nth_error_In _ _ Hi)).
      destruct (Z.ltb_spec (id - mn) 0); [lia|]. rewrite (N i id Hi). reflexivity.
    + intros Ht. destruct (T id _ Ht) as (i' & Hi' & Ev). assert (i = i') by lia. subst; auto.
  - intros id v Ht. destruct (T id v Ht) as (i & Hi & ->).
    assert (i < length ids)%nat by (apply nth_error_Some; congruence). unfold ids in *. rewrite map_length in *. lia.
Qed.

Lemma keys_sorted_nil {V} : @keys_sorted V []. Proof. constructor. Qed.

(** Statement used for both dimensions: [merged] is what get_all_elements produced from [all]. *)
Definition translation_ok (all merged : list (Z * geom)) : Prop :=
  exists c, construct_maps merged = Some c /\
    Permutation (map_to_nektar c) (map fst all) /\
    Permutation (combine (map_to_nektar c) (map_to_geom_type c)) (map snd all) /\
    (forall i id, nth_error (map_to_nektar c) i = Some id <-> translate c id = Some (Z.of_nat i)) /\
    (forall id v, translate c id = Some v -> (0 <= v < Z.of_nat (length all))%Z).

Lemma translation_from_merged all merged :
  keys_sorted merged -> Permutation merged all -> all <> [] ->
  Forall (fun kg => fst kg = fst (snd kg)) all ->
  Forall (fun kg => 0 <= fst kg < INT_MAX)%Z all ->
  translation_ok all merged.
Proof.
  intros Hs Hp Hne Hk Hr.
  destruct (construct_spec merged Hs) as (c & E & E1 & E2 & E3 & E4).
  - intros ->. apply Permutation_nil in Hp. auto.
  - eapply Permutation_Forall; [symmetry; exact Hp|exact Hk].
  - eapply Permutation_Forall; [symmetry; exact Hp|exact Hr].
  - exists c. split; [exact E|]. rewrite E1, E2 in *. split; [now apply Permutation_map|]. split.
    + assert (X : combine (map fst merged) (map (fun kg => snd (snd kg)) merged) = map snd merged).
      { assert (Hk' : Forall (fun kg => fst kg = fst (snd kg)) merged)
          by (eapply Permutation_Forall; [symmetry; exact Hp|exact Hk]).
        clear -Hk'. induction Hk' as [|[k [id ty]] l H _ IH]; simpl; auto. simpl in H. subst. now rewrite IH. }
      rewrite X. now apply Permutation_map.
    + split; [exact E3|]. intros id v Hv. rewrite <- (Permutation_length Hp). eauto.
Qed.
Lemma nodup_prefix {A} (a b : list A) : NoDup (a ++ b) -> NoDup a.
Proof.
  induction a as [|x a IH]; simpl; intros H; [constructor|]. inversion_clear H. constructor; auto.
  intros Hi. apply H0, in_or_app; auto.
Qed.
Lemma perm_rot {A} (a b : list A) : Permutation (a ++ b) (b ++ a). Proof. apply Permutation_app_comm. Qed.
Lemma elements_2d_perm tris quads : NoDup (map fst (tris ++ quads)) ->
  Permutation (get_all_elements_2d tris quads) (tris ++ quads) /\ keys_sorted (get_all_elements_2d tris quads).
Proof.
  intros H. unfold get_all_elements_2d. split.
  - assert (Ht : Permutation (zassign_all tris []) tris).
    { rewrite zassign_all_perm; rewrite app_nil_r; auto. rewrite map_app in H. apply nodup_prefix in H. auto. }
    rewrite zassign_all_perm.
    + rewrite Ht. apply perm_rot.
    + eapply Permutation_NoDup; [|exact H]. apply Permutation_map. rewrite Ht. apply perm_rot.
  - apply zassign_all_sorted, zassign_all_sorted, keys_sorted_nil.
Qed.
Lemma elements_3d_perm a b c d : NoDup (map fst (a ++ b ++ c ++ d)) ->
  Permutation (get_all_elements_3d a b c d) (a ++ b ++ c ++ d) /\ keys_sorted (get_all_elements_3d a b c d).
Proof.
  intros H. unfold get_all_elements_3d. split.
  - assert (St : forall (l m base : list (Z * geom)), Permutation m base -> NoDup (map fst (base ++ l)) ->
               Permutation (zassign_all l m) (base ++ l)).
    { intros l m base Hm Hn. rewrite zassign_all_perm.
      - rewrite Hm. apply perm_rot.
      - eapply Permutation_NoDup; [|exact Hn]. apply Permutation_map. rewrite Hm. apply perm_rot. }
    rewrite !app_assoc in *. 
    assert (H3 : NoDup (map fst ((a ++ b) ++ c))). { rewrite map_app in H. apply nodup_prefix in H. auto. }
    assert (H2 : NoDup (map fst (a ++ b))). { rewrite map_app in H3. apply nodup_prefix in H3. auto. }
    assert (H1 : NoDup (map fst a)). { rewrite map_app in H2. apply nodup_prefix in H2. auto. }
    apply St; auto. apply St; auto. apply St; auto. apply (St a [] []); auto.
  - do 4 apply zassign_all_sorted. apply keys_sorted_nil.
Qed.
