From Coq Require Import Sorting.Permutation Sorting.Sorted ZArith Reals Lia Bool.
From Verif Require Import M_Bytes M_Pack2D M_RemoteGeom M_Transport M_Exchange S_Exchange M_MeshIf S_Grid S_MeshIf M_Halo S_Halo.
From Verif Require Import M_Util L_Util L_Bytes L_Pack2D L_Grid L_MeshIf L_MeshIf2 L_Transport L_Exchange L_ExchangeMesh L_ExchangeEnd L_HaloCells L_ListX.
From Coq Require Import List.
Import ListNotations.
Local Open Scope Z_scope.

(** ** maps of vectors *)
Lemma mget_assign {V} (mp : list (Z * list V)) k l k' : mget (zassign mp k l) k' = if k' =? k then l else mget mp k'.
Proof. unfold mget. rewrite zget_zassign. destruct (k' =? k); auto. Qed.
Lemma mget_push {V} (mp : list (Z * list V)) k v k' : mget (mpush mp k v) k' = mget mp k' ++ (if k' =? k then [v] else []).
Proof.
  unfold mpush. rewrite mget_assign. destruct (Z.eqb_spec k' k) as [->|]; [|now rewrite app_nil_r]. unfold mget. destruct (zget mp k); auto.
Qed.
Lemma mpush_sorted {V} (mp : list (Z * list V)) k v : keys_sorted mp -> keys_sorted (mpush mp k v).
Proof. apply zassign_sorted. Qed.
Lemma mget_key {V} (mp : list (Z * list V)) k : mget mp k <> [] -> In k (map fst mp).
Proof. unfold mget. intros H. apply zget_key. destruct (zget mp k); eauto. congruence. Qed.

(** ** requests *)
Definition asks (size me : Z) (owner : Z -> Z) (c : Z) : bool := (0 <=? owner c) && (owner c <? size) && negb (owner c =? me).
Lemma rank_cells_gen size me owner cells : forall mp, keys_sorted mp -> (forall k, In k (map fst mp) -> mget mp k <> []) ->
  let mp' := fold_left (fun mp c => let r := owner c in
      if (0 <=? r) && (r <? size) && negb (r =? me) then mpush mp r c else mp) cells mp in
  keys_sorted mp' /\ (forall k, In k (map fst mp') -> mget mp' k <> []) /\
  forall b, mget mp' b = mget mp b ++ filter (fun c => asks size me owner c && (owner c =? b)) cells.
Proof.
  induction cells as [|c cells IH]; intros mp Hs Hk; cbn zeta; cbn [fold_left].
  - split; auto. split; auto. intros b. simpl. now rewrite app_nil_r.
  - set (mp1 := if (0 <=? owner c) && (owner c <? size) && negb (owner c =? me) then mpush mp (owner c) c else mp).
    destruct (IH mp1) as (H1 & H2 & H3).
    + unfold mp1. destruct (_ && _); auto. now apply mpush_sorted.
    + unfold mp1. destruct (_ && _); auto. intros k Hk'. rewrite mget_push. destruct (Z.eqb_spec k (owner c)) as [->|Hne]; [now destruct (mget mp (owner c))|].
      rewrite app_nil_r. apply Hk. apply zget_key in Hk' as (v & Ev). unfold mpush in Ev. rewrite zget_zassign in Ev.
      apply Z.eqb_neq in Hne. rewrite Hne in Ev. apply zget_key. eauto.
    + split; [exact H1|]. split; [exact H2|]. intros b. cbn [filter].
      transitivity (mget mp1 b ++ filter (fun c0 => asks size me owner c0 && (owner c0 =? b)) cells); [apply H3|].
      unfold mp1. fold (asks size me owner c). destruct (asks size me owner c); simpl; auto.
      rewrite mget_push, <- app_assoc. f_equal. rewrite (Z.eqb_sym b). destruct (owner c =? b); auto.
Qed.
Lemma rank_cells_spec size me owner cells : let req := halo_rank_cells size me owner cells in
  keys_sorted req /\ (forall b, In b (map fst req) <-> 0 <= b < size /\ b <> me /\ exists c, In c cells /\ owner c = b) /\
  (forall b c, In c (mget req b) <-> In c cells /\ owner c = b /\ 0 <= b < size /\ b <> me).
Proof.
  intros req. destruct (rank_cells_gen size me owner cells []) as (H1 & H2 & H3); [constructor|intros k []|].
  assert (Hc : forall b c, In c (mget req b) <-> In c cells /\ owner c = b /\ 0 <= b < size /\ b <> me).
  { intros b c. assert (E : mget req b = filter (fun c => asks size me owner c && (owner c =? b)) cells) by exact (H3 b). rewrite E. rewrite filter_In. unfold asks.
    rewrite !andb_true_iff, negb_true_iff, Z.leb_le, Z.ltb_lt, Z.eqb_neq, Z.eqb_eq. split; intros; intuition; subst; auto; lia. }
  split; [exact H1|]. split; [|exact Hc]. intros b. split.
  - intros Hb. assert (Hne : mget req b <> []) by exact (H2 b Hb). destruct (mget req b) as [|c l] eqn:E; [congruence|].
    destruct (proj1 (Hc b c)) as (A1 & A2 & A3 & A4); [rewrite E; simpl; auto|]. split; [auto|]. split; [auto|]. exists c. auto.
  - intros (Hb & Hm & c & A1 & A2). apply mget_key. intros E. assert (In c (mget req b)) by (apply Hc; auto). rewrite E in H. destruct H.
Qed.

(** ** what the owner receives *)
Lemma filter_key_nodup {V} me (m : list (Z * list V)) : NoDup (map fst m) ->
  map (fun kv => Z.of_nat (length (snd kv))) (filter (fun kv => fst kv =? me) m) =
  if existsb (Z.eqb me) (map fst m) then [Z.of_nat (length (mget m me))] else [].
Proof.
  induction m as [|[k v] m IH]; intros Hn; simpl; auto. inversion Hn; subst. unfold mget. simpl. rewrite (Z.eqb_sym me).
  destruct (Z.eqb_spec k me) as [->|]; simpl; [|apply IH; auto]. f_equal. rewrite IH by auto.
  replace (existsb (Z.eqb me) (map fst m)) with false; auto. symmetry. apply not_true_iff_false. intros H. apply existsb_exists in H as (y & Hy & E).
  apply Z.eqb_eq in E. subst. tauto.
Qed.
Lemma metadata_eq size req me : (forall a, 0 <= a < size -> NoDup (map fst (req a))) ->
  halo_metadata size req me = map (fun a => (a, Z.of_nat (length (mget (req a) me)))) (filter (fun a => existsb (Z.eqb me) (map fst (req a))) (ranks size)).
Proof.
  intros Hn. unfold halo_metadata. assert (Hr : forall a, In a (ranks size) -> 0 <= a < size) by (intros a; apply in_ranks).
  induction (ranks size) as [|a l IH]; simpl; auto. rewrite IH by (intros; apply Hr; simpl; auto).
  pose proof (filter_key_nodup me (req a) (Hn a (Hr a ltac:(simpl; auto)))) as E.
  rewrite <- (map_map (fun kv : Z * list Z => Z.of_nat (length (snd kv))) (fun z => (a, z))). rewrite E.
  destruct (existsb (Z.eqb me) (map fst (req a))); reflexivity.
Qed.
Lemma assign_fold (f : Z -> list Z) (arr : list (Z * Z)) : forall mp a, In a (map fst arr) \/ mget mp a = f a ->
  mget (fold_left (fun mp x => zassign mp (fst x) (f (fst x))) arr mp) a = f a.
Proof.
  induction arr as [|x arr IH]; intros mp a H; simpl in *; [tauto|]. apply IH. rewrite mget_assign.
  destruct (Z.eqb_spec a (fst x)) as [->|]; auto. destruct H as [[|]|]; auto. congruence.
Qed.
Lemma send_cells_spec size req me arrival : 0 <= me < size -> (forall a, 0 <= a < size -> NoDup (map fst (req a))) ->
  (forall a, 0 <= a < size -> In me (map fst (req a)) -> a <> me) -> Permutation arrival (halo_metadata size req me) ->
  exists sr sc, halo_send_cells size req me arrival = HOk (Ok (sr, sc)) /\ NoDup sr /\
    (forall a, In a sr <-> 0 <= a < size /\ In me (map fst (req a))) /\
    (forall a, In a sr -> mget sc a = mget (req a) me).
Proof.
  intros Hme Hn Hself HP. rewrite metadata_eq in HP by auto.
  set (S := filter (fun a => existsb (Z.eqb me) (map fst (req a))) (ranks size)) in *.
  assert (HS : forall a, In a S <-> 0 <= a < size /\ In me (map fst (req a))).
  { intros a. unfold S. rewrite filter_In, in_ranks, existsb_exists. split; intros [H1 H2]; split; auto.
    - destruct H2 as (y & Hy & E). apply Z.eqb_eq in E. now subst.
    - exists me. split; auto. apply Z.eqb_refl. }
  assert (Hmap : Permutation (map fst arrival) S).
  { pose proof (Permutation_map fst HP) as HQ. rewrite map_map in HQ. cbn [fst] in HQ. rewrite map_id in HQ. exact HQ. }
  unfold halo_send_cells. assert (El : length arrival = halo_num_send_ranks size req me).
  { apply Permutation_length in HP. rewrite map_length in HP. exact HP. }
  rewrite El, Nat.eqb_refl. cbn [negb].
  assert (Hin : forall x, In x arrival -> In (fst x) S /\ snd x = Z.of_nat (length (mget (req (fst x)) me))).
  { intros x Hx. apply (Permutation_in _ HP) in Hx. apply in_map_iff in Hx as (a & <- & Ha). auto. }
  assert (E1 : existsb (fun x => negb ((-1 <? fst x) && (fst x <? size) && negb (fst x =? me))) arrival = false).
  { apply not_true_iff_false. intros H. apply existsb_exists in H as (x & Hx & E). destruct (Hin x Hx) as [H1 _]. apply HS in H1 as [H1 H2].
    pose proof (Hself _ H1 H2). apply negb_true_iff in E. apply not_true_iff_false in E. apply E.
    rewrite !andb_true_iff, negb_true_iff, !Z.ltb_lt, Z.eqb_neq. repeat split; auto; lia. }
  rewrite E1.
  assert (E2 : existsb (fun x => snd x <? Z.of_nat (length (mget (req (fst x)) me))) arrival = false).
  { apply not_true_iff_false. intros H. apply existsb_exists in H as (x & Hx & E). destruct (Hin x Hx) as [_ H1]. apply Z.ltb_lt in E. lia. }
  rewrite E2. do 2 eexists. split; [reflexivity|]. split; [|split].
  - eapply Permutation_NoDup; [symmetry; exact Hmap|]. apply NoDup_filter, nodup_ranks.
  - intros a. rewrite (Permutation_in' (eq_refl a) Hmap). apply HS.
  - intros a Ha. apply (assign_fold (fun a => mget (req a) me)). auto.
Qed.
Lemma cells_set_spec sr sc c : In c (halo_send_cells_set sr sc) <-> exists a, In a sr /\ In c (mget sc a).
Proof.
  unfold halo_send_cells_set.
  assert (H1 : forall l s c, In c (fold_left (fun s c => set_insert c s) l s) <-> In c s \/ In c l).
  { induction l as [|x l IH]; intros s c'; simpl; [tauto|]. rewrite IH, in_set_insert. intuition. }
  assert (H : forall l s, In c (fold_left (fun s r => fold_left (fun s c => set_insert c s) (mget sc r) s) l s) <-> In c s \/ exists a, In a l /\ In c (mget sc a)).
  { induction l as [|x l IH]; intros s; simpl; [split; auto; intros [|(? & [] & _)]; auto|]. rewrite IH, H1. split.
    - intros [[|]|(a & ? & ?)]; eauto.
    - intros [|(a & [->|] & ?)]; eauto. }
  rewrite H. simpl. split; [intros [[]|]; auto|auto].
Qed.

(** ** maps of known elements *)
Definition kget (mp : gmap) (k : Z * Z) : option geom2d := zget (rank_elems mp (fst k)) (snd k).
Lemma kget_put mp r id g k : kget (gput mp r id g) k = if key_eqb k (r, id) then Some g else kget mp k.
Proof.
  unfold kget, gput, rank_elems, key_eqb. rewrite zget_zassign. cbn [fst snd]. destruct (Z.eqb_spec (fst k) r) as [->|]; simpl; auto.
  rewrite zget_zassign. destruct (snd k =? id); auto.
Qed.
Lemma key_eqb_eq a b : key_eqb a b = true <-> a = b.
Proof. unfold key_eqb. rewrite andb_true_iff, !Z.eqb_eq. destruct a, b; simpl. split; [intros [-> ->]; auto|intros E; injection E; auto]. Qed.
Lemma kget_fold l : forall mp k g, NoDup (map key_of l) -> (forall x, In x l -> kget mp (key_of x) = None) ->
  (kget (fold_left (fun mp x => gput mp (r2_rank x) (r2_id x) (r2_geom x)) l mp) k = Some g <->
   kget mp k = Some g \/ In (mkRemote2D (fst k) (snd k) g) l).
Proof.
  induction l as [|x l IH]; intros mp k g Hn Hd; cbn [fold_left]; [split; auto; intros [|[]]; auto|].
  simpl in Hn. inversion Hn as [|? ? Hx Hl]; subst. rewrite IH; auto.
  - rewrite kget_put. fold (key_of x). destruct (key_eqb k (key_of x)) eqn:E.
    + apply key_eqb_eq in E. subst k. split.
      * intros [E|Hi]; [injection E as <-; right; left; now destruct x|].
        right. right. exact Hi.
      * intros [E|[E|Hi]].
        -- rewrite Hd in E by (simpl; auto). discriminate.
        -- left. destruct x; simpl in *. injection E as ->. auto.
        -- exfalso. apply Hx. apply (in_map key_of) in Hi. exact Hi.
    + simpl. split; [intros [|]; auto|]. intros [|[E'|]]; auto. exfalso. rewrite <- not_true_iff_false in E. apply E. apply key_eqb_eq.
      destruct k. subst x. reflexivity.
  - intros y Hy. rewrite kget_put. destruct (key_eqb (key_of y) (r2_rank x, r2_id x)) eqn:E; [|apply Hd; simpl; auto].
    exfalso. apply key_eqb_eq in E. apply Hx. change (key_of y = key_of x) in E. rewrite <- E. now apply in_map.
Qed.
Lemma rank_to_geoms_sorted me st : keys_sorted (rank_to_geoms me st).
Proof.
  unfold rank_to_geoms. assert (H : forall l (mp : gmap), keys_sorted mp -> keys_sorted (fold_left (fun mp x => gput mp (r2_rank x) (r2_id x) (r2_geom x)) l mp)).
  { induction l as [|x l IH]; intros mp Hs; simpl; auto. apply IH. unfold gput. now apply zassign_sorted. }
  apply H. repeat constructor.
Qed.
Lemma rank_to_geoms_inner me st r : keys_sorted (rk_own st) -> keys_sorted (rank_elems (rank_to_geoms me st) r).
Proof.
  intros Ho. unfold rank_to_geoms.
  assert (H : forall l (mp : gmap), (forall r, keys_sorted (rank_elems mp r)) -> forall r, keys_sorted (rank_elems (fold_left (fun mp x => gput mp (r2_rank x) (r2_id x) (r2_geom x)) l mp) r)).
  { induction l as [|x l IH]; intros mp Hs r'; simpl; auto. apply IH. intros r''. unfold gput, rank_elems at 1. rewrite zget_zassign.
    destruct (r'' =? r2_rank x); [now apply zassign_sorted|apply Hs]. }
  apply H. intros r'. unfold rank_elems. simpl. destruct (r' =? me); [exact Ho|constructor].
Qed.
Lemma known_spec size elems me st :  StronglySorted Z.lt (map fst (elems me)) -> state_wf size elems me st ->
  forall x, kget (rank_to_geoms me st) (key_of x) = Some (r2_geom x) <-> knows me st x.
Proof.
  intros Hso (Eo & Hc & _ & _ & Hn) x. unfold rank_to_geoms. rewrite kget_fold; auto.
  - unfold knows. unfold kget at 1, rank_elems, key_of. cbn [fst snd zget]. split.
    + intros [H|H]; [left|right; now destruct x]. destruct (Z.eqb_spec (r2_rank x) me) as [E|]; [|discriminate]. split; auto.
      apply zget_in in H; auto. rewrite Eo. now apply sorted_nodup.
    + intros [[E H]|H]; [left|right; now destruct x]. rewrite E, Z.eqb_refl. apply zget_in; auto. rewrite Eo. now apply sorted_nodup.
  - intros y Hy. destruct (Hc y Hy) as (_ & Hne & _). unfold kget, rank_elems, key_of. cbn [fst snd zget].
    apply Z.eqb_neq in Hne. rewrite Hne. reflexivity.
Qed.

(** ** sets of keys *)
Definition key_lt (a b : Z * Z) : Prop := key_ltb a b = true.
Lemma key_lt_iff a b : key_lt a b <-> fst a < fst b \/ (fst a = fst b /\ snd a < snd b).
Proof. unfold key_lt, key_ltb. rewrite orb_true_iff, andb_true_iff, !Z.ltb_lt, Z.eqb_eq. tauto. Qed.
Lemma in_kset k z s : In k (kset_insert z s) <-> k = z \/ In k s.
Proof.
  induction s as [|y s IH]; simpl; [intuition|]. destruct (key_ltb z y); simpl; [intuition|]. destruct (key_eqb z y) eqn:E; simpl.
  - apply key_eqb_eq in E. subst y. intuition.
  - rewrite IH. intuition.
Qed.
Lemma kset_sorted z s : StronglySorted key_lt s -> StronglySorted key_lt (kset_insert z s).
Proof.
  induction s as [|y s IH]; simpl; intros H; [repeat constructor|]. apply StronglySorted_inv in H as [H1 H2]. rewrite Forall_forall in H2.
  destruct (key_ltb z y) eqn:E.
  - constructor; [constructor; auto; now apply Forall_forall|]. apply Forall_forall. intros x [<-|Hx]; [exact E|].
    specialize (H2 x Hx). fold (key_lt z y) in E. rewrite key_lt_iff in *. lia.
  - destruct (key_eqb z y) eqn:E2; [constructor; auto; now apply Forall_forall|]. constructor; auto. apply Forall_forall. intros x Hx.
    apply in_kset in Hx as [->|Hx]; auto. rewrite key_lt_iff. rewrite <- not_true_iff_false in E, E2. fold (key_lt z y) in E. rewrite key_lt_iff in E.
    rewrite key_eqb_eq in E2. destruct z, y; simpl in *. destruct (Z.eq_dec z z1); [|lia]. subst. destruct (Z.eq_dec z0 z2); [subst; congruence|lia].
Qed.
Lemma kset_nodup s : StronglySorted key_lt s -> NoDup s.
Proof.
  induction s as [|y s IH]; intros H; [constructor|]. apply StronglySorted_inv in H as [H1 H2]. constructor; auto.
  intros Hy. rewrite Forall_forall in H2. specialize (H2 y Hy). rewrite key_lt_iff in H2. lia.
Qed.
Lemma reply_set_spec c2g cells : NoDup (reply_set c2g cells) /\ forall k, In k (reply_set c2g cells) <-> exists c, In c cells /\ In k (mget c2g c).
Proof.
  unfold reply_set.
  assert (H1 : forall l s, StronglySorted key_lt s -> StronglySorted key_lt (fold_left (fun s k => kset_insert k s) l s) /\
     forall k, In k (fold_left (fun s k => kset_insert k s) l s) <-> In k s \/ In k l).
  { induction l as [|x l IH]; intros s Hs; simpl; [split; auto; intros; tauto|]. destruct (IH _ (kset_sorted x s Hs)) as [A B]. split; auto.
    intros k. rewrite B, in_kset. intuition. }
  assert (H : forall l s, StronglySorted key_lt s -> let f := fold_left (fun s c => fold_left (fun s k => kset_insert k s) (mget c2g c) s) l s in
     StronglySorted key_lt f /\ forall k, In k f <-> In k s \/ exists c, In c l /\ In k (mget c2g c)).
  { induction l as [|x l IH]; intros s Hs; cbn zeta; cbn [fold_left].
    - split; auto. intros k. split; auto. intros [|(c & [] & _)]; auto.
    - destruct (H1 (mget c2g x) s Hs) as [A B]. destruct (IH _ A) as [C D]. split; auto. intros k. rewrite D, B. split.
      + intros [[|]|(c & ? & ?)]; [auto|right; exists x; simpl; auto|right; exists c; simpl; auto].
      + intros [|(c & [->|] & ?)]; eauto. }
  destruct (H cells [] ltac:(constructor)) as [A B]. split; [now apply kset_nodup|]. intros k. rewrite B. simpl. split; [intros [[]|]; auto|auto].
Qed.

(** ** cells to elements *)
Lemma c2g_spec m bx (known : gmap) cells c k : In k (mget (cells_to_geoms m bx known cells) c) <->
  In c cells /\ exists r l id g, In (r, l) known /\ In (id, g) l /\ k = (r, g2_id g) /\ touches m c (bx g) = true.
Proof.
  unfold cells_to_geoms.
  set (f1 := fun (r : Z) (g : geom2d) acc (cv : Z * R) => if existsb (Z.eqb (fst cv)) cells then mpush acc (fst cv) (r, g2_id g) else acc).
  assert (H1 : forall r g (l : list (Z * R)) acc, In k (mget (fold_left (f1 r g) l acc) c) <->
     In k (mget acc c) \/ (In c cells /\ k = (r, g2_id g) /\ existsb (fun cv => c =? fst cv) l = true)).
  { intros r g. induction l as [|cv l IH]; intros acc; cbn [fold_left existsb].
    - split; auto. intros [|(_ & _ & E)]; [auto|discriminate].
    - rewrite IH. unfold f1 at 1. rewrite orb_true_iff, Z.eqb_eq. destruct (existsb (Z.eqb (fst cv)) cells) eqn:E.
      + rewrite mget_push, in_app_iff. apply existsb_exists in E as (y & Hy & E). apply Z.eqb_eq in E. subst y.
        destruct (Z.eqb_spec c (fst cv)) as [->|]; simpl; intuition.
      + split; [intuition|]. intros [|(A & B & [->|D])]; [auto| |auto]. exfalso. rewrite <- not_true_iff_false in E. apply E. apply existsb_exists. exists (fst cv). split; auto. apply Z.eqb_refl. }
  assert (H2 : forall r (l : list (Z * geom2d)) acc,
     In k (mget (fold_left (fun acc kv => fold_left (f1 r (snd kv)) (bounding_box_map m (bx (snd kv)) 0%R) acc) l acc) c) <->
     In k (mget acc c) \/ (In c cells /\ exists id g, In (id, g) l /\ k = (r, g2_id g) /\ touches m c (bx g) = true)).
  { intros r. induction l as [|[id g] l IH]; intros acc; cbn [fold_left snd].
    - split; auto. intros [|(_ & ? & ? & [] & _)]; auto.
    - rewrite IH, H1. fold (touches m c (bx g)). split.
      + intros [[|(A & B & C)]|(A & i & g' & B & C)]; [auto|right; split; auto; exists id, g; simpl; auto|right; split; auto; exists i, g'; simpl; auto].
      + intros [|(A & i & g' & [E|B] & C)]; [auto|injection E as -> ->; tauto|right; split; auto; exists i, g'; auto]. }
  assert (H3 : forall (l : gmap) acc,
     In k (mget (fold_left (fun acc rg => fold_left (fun acc kv => fold_left (f1 (fst rg) (snd kv)) (bounding_box_map m (bx (snd kv)) 0%R) acc) (snd rg) acc) l acc) c) <->
     In k (mget acc c) \/ (In c cells /\ exists r l' id g, In (r, l') l /\ In (id, g) l' /\ k = (r, g2_id g) /\ touches m c (bx g) = true)).
  { induction l as [|[r l'] l IH]; intros acc; cbn [fold_left fst snd].
    - split; auto. intros [|(_ & ? & ? & ? & ? & [] & _)]; auto.
    - rewrite IH, H2. split.
      + intros [[|(A & id & g & B & C)]|(A & r0 & l0 & id & g & B & C)]; [auto|right; split; auto; exists r, l', id, g; simpl; auto|right; split; auto; exists r0, l0, id, g; simpl; auto].
      + intros [|(A & r0 & l0 & id & g & [E|B] & C)]; [auto|injection E as -> ->; left; right; split; auto; exists id, g; auto|right; split; auto; exists r0, l0, id, g; auto]. }
  etransitivity; [exact (H3 known [])|]. simpl. tauto.
Qed.
Lemma reply_geoms_spec known keys : (forall k, In k keys -> exists g, kget known k = Some g) ->
  exists l, reply_geoms known keys = Ok l /\ map key_of l = keys /\ (forall x, In x l -> kget known (key_of x) = Some (r2_geom x)).
Proof.
  induction keys as [|k keys IH]; intros H; simpl; [exists []; repeat split; auto; intros x []|].
  destruct (H k ltac:(simpl; auto)) as (g & E). unfold kget, rank_elems in E. destruct (zget known (fst k)) as [m|] eqn:E1; [|discriminate].
  rewrite E. destruct IH as (l & El & Em & Hl); [intros; apply H; simpl; auto|]. rewrite El. simpl.
  eexists. split; [reflexivity|]. split; [simpl; rewrite Em; unfold key_of; simpl; now destruct k|].
  intros x [<-|Hx]; auto. unfold kget, key_of, rank_elems. simpl. now rewrite E1.
Qed.
