From Coq Require Import Sorting.Permutation Sorting.Sorted ZArith Reals Lia Bool.
From Verif Require Import M_Bytes M_Pack2D M_RemoteGeom M_Transport M_Exchange S_Exchange M_MeshIf S_Grid S_MeshIf M_Halo S_Halo M_Halo3D S_Halo3D M_HaloExt3 S_HaloExt3.
From Verif Require Import M_Util L_Util L_Bytes L_Pack2D L_Grid L_MeshIf L_MeshIf2 L_Transport L_Exchange L_ExchangeMesh L_ExchangeEnd L_HaloCells L_Halo L_Halo2 L_ListX L_Halo3D L_HaloExt3.
From Coq Require Import List.
Import ListNotations.
Local Open Scope Z_scope.


(** ** maps of known 3D elements *)
Lemma mk3_eta x : mk3 (r3_rank x) (r3_id x) (r3_geom x) = x.
Proof. now destruct x. Qed.
Lemma mk3_geom r i g : r3_geom (mk3 r i g) = g.
Proof. now destruct g. Qed.
Lemma kget3_put mp r id g k : kget3 (gput3 mp r id g) k = if key_eqb k (r, id) then Some g else kget3 mp k.
Proof.
  unfold kget3, gput3, rank_elems, key_eqb. rewrite zget_zassign. cbn [fst snd]. destruct (Z.eqb_spec (fst k) r) as [->|]; simpl; auto.
  rewrite zget_zassign. destruct (snd k =? id); auto.
Qed.
Lemma kget3_fold l : forall mp k g, NoDup (map key_of3 l) -> (forall x, In x l -> kget3 mp (key_of3 x) = None) ->
  (kget3 (fold_left (fun mp x => gput3 mp (r3_rank x) (r3_id x) (r3_geom x)) l mp) k = Some g <->
   kget3 mp k = Some g \/ In (mk3 (fst k) (snd k) g) l).
Proof.
  induction l as [|x l IH]; intros mp k g Hn Hd; cbn [fold_left]; [split; auto; intros [|[]]; auto|].
  simpl in Hn. inversion Hn as [|? ? Hx Hl]; subst. rewrite IH; auto.
  - rewrite kget3_put. fold (key_of3 x). destruct (key_eqb k (key_of3 x)) eqn:E.
    + apply key_eqb_eq in E. subst k. split.
      * intros [E|Hi]; [injection E as <-; right; left; now destruct x|].
        right. right. exact Hi.
      * intros [E|[E|Hi]].
        -- rewrite Hd in E by (simpl; auto). discriminate.
        -- left. f_equal. rewrite E. apply mk3_geom.
        -- exfalso. apply Hx. apply (in_map key_of3) in Hi. exact Hi.
    + simpl. split; [intros [|]; auto|]. intros [|[E'|]]; auto. exfalso. rewrite <- not_true_iff_false in E. apply E. apply key_eqb_eq.
      destruct k. subst x. reflexivity.
  - intros y Hy. rewrite kget3_put. destruct (key_eqb (key_of3 y) (r3_rank x, r3_id x)) eqn:E; [|apply Hd; simpl; auto].
    exfalso. apply key_eqb_eq in E. apply Hx. change (key_of3 y = key_of3 x) in E. rewrite <- E. now apply in_map.
Qed.
Lemma rank_to_geoms3_sorted me st : keys_sorted (rank_to_geoms3 me st).
Proof.
  unfold rank_to_geoms3. assert (H : forall l (mp : gmap3), keys_sorted mp -> keys_sorted (fold_left (fun mp x => gput3 mp (r3_rank x) (r3_id x) (r3_geom x)) l mp)).
  { induction l as [|x l IH]; intros mp Hs; simpl; auto. apply IH. unfold gput3. now apply zassign_sorted. }
  apply H. repeat constructor.
Qed.
Lemma rank_to_geoms3_inner me st r : keys_sorted (s3_own st) -> keys_sorted (rank_elems (rank_to_geoms3 me st) r).
Proof.
  intros Ho. unfold rank_to_geoms3.
  assert (H : forall l (mp : gmap3), (forall r, keys_sorted (rank_elems mp r)) -> forall r, keys_sorted (rank_elems (fold_left (fun mp x => gput3 mp (r3_rank x) (r3_id x) (r3_geom x)) l mp) r)).
  { induction l as [|x l IH]; intros mp Hs r'; simpl; auto. apply IH. intros r''. unfold gput3, rank_elems at 1. rewrite zget_zassign.
    destruct (r'' =? r3_rank x); [now apply zassign_sorted|apply Hs]. }
  apply H. intros r'. unfold rank_elems. simpl. destruct (r' =? me); [exact Ho|constructor].
Qed.
Lemma c2g3_spec m bx (known : gmap3) cells c k : In k (mget (cells_to_geoms3 m bx known cells) c) <->
  In c cells /\ exists r l id g, In (r, l) known /\ In (id, g) l /\ k = (r, id) /\ touches m c (bx g) = true.
Proof.
  unfold cells_to_geoms3.
  set (f1 := fun (r id : Z) acc (cv : Z * R) => if existsb (Z.eqb (fst cv)) cells then mpush acc (fst cv) (r, id) else acc).
  assert (H1 : forall r id (l : list (Z * R)) acc, In k (mget (fold_left (f1 r id) l acc) c) <->
     In k (mget acc c) \/ (In c cells /\ k = (r, id) /\ existsb (fun cv => c =? fst cv) l = true)).
  { intros r id. induction l as [|cv l IH]; intros acc; cbn [fold_left existsb].
    - split; auto. intros [|(_ & _ & E)]; [auto|discriminate].
    - rewrite IH. unfold f1 at 1. rewrite orb_true_iff, Z.eqb_eq. destruct (existsb (Z.eqb (fst cv)) cells) eqn:E.
      + rewrite mget_push, in_app_iff. apply existsb_exists in E as (y & Hy & E). apply Z.eqb_eq in E. subst y.
        destruct (Z.eqb_spec c (fst cv)) as [->|]; simpl; intuition.
      + split; [intuition|]. intros [|(A & B & [->|D])]; [auto| |auto]. exfalso. rewrite <- not_true_iff_false in E. apply E. apply existsb_exists. exists (fst cv). split; auto. apply Z.eqb_refl. }
  assert (H2 : forall r (l : list (Z * elem3d)) acc,
     In k (mget (fold_left (fun acc kv => fold_left (f1 r (fst kv)) (bounding_box_map m (bx (snd kv)) 0%R) acc) l acc) c) <->
     In k (mget acc c) \/ (In c cells /\ exists id g, In (id, g) l /\ k = (r, id) /\ touches m c (bx g) = true)).
  { intros r. induction l as [|[id g] l IH]; intros acc; cbn [fold_left fst snd].
    - split; auto. intros [|(_ & ? & ? & [] & _)]; auto.
    - rewrite IH, H1. fold (touches m c (bx g)). split.
      + intros [[|(A & B & C)]|(A & i & g' & B & C)]; [auto|right; split; auto; exists id, g; simpl; auto|right; split; auto; exists i, g'; simpl; auto].
      + intros [|(A & i & g' & [E|B] & C)]; [auto|injection E as -> ->; tauto|right; split; auto; exists i, g'; auto]. }
  assert (H3 : forall (l : gmap3) acc,
     In k (mget (fold_left (fun acc rg => fold_left (fun acc kv => fold_left (f1 (fst rg) (fst kv)) (bounding_box_map m (bx (snd kv)) 0%R) acc) (snd rg) acc) l acc) c) <->
     In k (mget acc c) \/ (In c cells /\ exists r l' id g, In (r, l') l /\ In (id, g) l' /\ k = (r, id) /\ touches m c (bx g) = true)).
  { induction l as [|[r l'] l IH]; intros acc; cbn [fold_left fst snd].
    - split; auto. intros [|(_ & ? & ? & ? & ? & [] & _)]; auto.
    - rewrite IH, H2. split.
      + intros [[|(A & id & g & B & C)]|(A & r0 & l0 & id & g & B & C)]; [auto|right; split; auto; exists r, l', id, g; simpl; auto|right; split; auto; exists r0, l0, id, g; simpl; auto].
      + intros [|(A & r0 & l0 & id & g & [E|B] & C)]; [auto|injection E as -> ->; left; right; split; auto; exists id, g; auto|right; split; auto; exists r0, l0, id, g; auto]. }
  etransitivity; [exact (H3 known [])|]. simpl. tauto.
Qed.
Lemma reply_geoms3_spec known keys : (forall k, In k keys -> exists g, kget3 known k = Some g) ->
  exists l, reply_geoms3 known keys = Ok l /\ map key_of3 l = keys /\ (forall x, In x l -> kget3 known (key_of3 x) = Some (r3_geom x)).
Proof.
  induction keys as [|k keys IH]; intros H; simpl; [exists []; repeat split; auto; intros x []|].
  destruct (H k ltac:(simpl; auto)) as (g & E). rewrite E.
  destruct IH as (l & El & Em & Hl); [intros; apply H; simpl; auto|]. rewrite El. simpl.
  eexists. split; [reflexivity|]. split; [simpl; rewrite Em; unfold key_of3; simpl; now destruct k|].
  intros x [<-|Hx]; auto. rewrite mk3_geom, <- E. f_equal. now destruct k.
Qed.
Lemma unpack3_spec received : forall known out, exists known' new,
  halo_unpack3 known received out = (known', out ++ new) /\ NoDup (map key_of3 new) /\
  (forall x, In x new -> In x received /\ kget3 known (key_of3 x) = None) /\
  (forall k g, kget3 known' k = Some g <-> kget3 known k = Some g \/ In (mk3 (fst k) (snd k) g) new) /\
  (forall x, In x received -> kget3 known' (key_of3 x) <> None).
Proof.
  unfold halo_unpack3. induction received as [|x l IH]; intros known out; cbn [fold_left].
  - exists known, []. rewrite app_nil_r. repeat split; try (intros; tauto); simpl; try tauto; try constructor.
  - cbn [fst snd]. destruct (kget3 known (r3_rank x, r3_id x)) as [g0|] eqn:E.
    + destruct (IH known out) as (k' & new & E1 & H1 & H2 & H3 & H4). exists k', new. split; [exact E1|]. split; [exact H1|]. split.
      * intros y Hy. destruct (H2 y Hy). simpl. auto.
      * split; [exact H3|]. intros y [<-|Hy]; auto.
        assert (Hk : kget3 k' (key_of3 x) = Some g0) by (apply H3; left; exact E). congruence.
    + destruct (IH (gput3 known (r3_rank x) (r3_id x) (r3_geom x)) (out ++ [x])) as (k' & new & E1 & H1 & H2 & H3 & H4).
      exists k', (x :: new). rewrite E1. split; [now rewrite <- app_assoc|]. split; [|split; [|split]].
      * simpl. constructor; auto. intros Hi. apply in_map_iff in Hi as (y & Ey & Hy). destruct (H2 y Hy) as [_ Hk].
        rewrite kget3_put in Hk. rewrite (proj2 (key_eqb_eq (key_of3 y) (r3_rank x, r3_id x)) Ey) in Hk. discriminate.
      * intros y [<-|Hy]; [split; [simpl; auto|exact E]|]. destruct (H2 y Hy) as [Hin Hk]. split; [simpl; auto|].
        rewrite kget3_put in Hk. destruct (key_eqb (key_of3 y) (r3_rank x, r3_id x)); [discriminate|auto].
      * intros k g. rewrite H3, kget3_put. destruct (key_eqb k (r3_rank x, r3_id x)) eqn:Ek.
        -- apply key_eqb_eq in Ek. subst k. cbn [fst snd]. split.
           ++ intros [Eg|Hi]; [injection Eg as <-; right; left; now destruct x|right; right; auto].
           ++ intros [Eg|[Eg|Hi]]; [congruence| |auto]. left. f_equal. rewrite Eg. apply mk3_geom.
        -- simpl. split; [intros [|]; auto|]. intros [|[Eg|]]; auto. exfalso. rewrite <- not_true_iff_false in Ek. apply Ek. apply key_eqb_eq. destruct k. now subst x.
      * intros y [<-|Hy]; auto.
        assert (Hk : kget3 k' (key_of3 x) = Some (r3_geom x)).
        { apply H3. left. rewrite kget3_put. now rewrite (proj2 (key_eqb_eq (key_of3 x) (r3_rank x, r3_id x)) eq_refl). }
        congruence.
Qed.
Lemma known3_spec size faces elems me st :  StronglySorted Z.lt (map fst (elems me)) -> state_wf3 size faces elems me st ->
  forall x, kget3 (rank_to_geoms3 me st) (key_of3 x) = Some (r3_geom x) <-> knows3 me st x.
Proof.
  intros Hso (_ & Eo & Hc & Hn & _) x. unfold rank_to_geoms3. rewrite kget3_fold; auto.
  - unfold knows3. unfold kget3 at 1, rank_elems, key_of3. cbn [fst snd zget]. rewrite mk3_eta. split.
    + intros [H|H]; [left|right; auto]. destruct (Z.eqb_spec (r3_rank x) me) as [E|]; [|discriminate]. split; auto.
      apply zget_in in H; auto. rewrite Eo. now apply sorted_nodup.
    + intros [[E H]|H]; [left|right; auto]. rewrite E, Z.eqb_refl. apply zget_in; auto. rewrite Eo. now apply sorted_nodup.
  - intros y Hy. destruct (Hc y Hy) as (_ & Hne & _). unfold kget3, rank_elems, key_of3. cbn [fst snd zget].
    apply Z.eqb_neq in Hne. rewrite Hne. reflexivity.
Qed.

(** ** the sets of a reply *)
Lemma faces_fold r (fs : list geom2d) : forall s, StronglySorted key_lt s ->
  let s' := fold_left (fun f g => kset_insert (r, g2_id g) f) fs s in
  StronglySorted key_lt s' /\ forall k, In k s' <-> In k s \/ exists g, In g fs /\ k = (r, g2_id g).
Proof.
  induction fs as [|g fs IH]; intros s Hs; cbn zeta; cbn [fold_left].
  - split; auto. intros k. split; auto. intros [|(g & [] & _)]; auto.
  - destruct (IH _ (kset_sorted (r, g2_id g) s Hs)) as [A B]. split; [exact A|]. intros k. etransitivity; [apply B|]. rewrite in_kset. split.
    + intros [[|]|(g' & ? & ?)]; [right; exists g; simpl; auto|auto|right; exists g'; simpl; auto].
    + intros [|(g' & [->|] & ?)]; eauto.
Qed.
Definition set_spec (known3 : gmap3) (src : key2 -> Prop) (s0 s : list key2 * list key2) : Prop :=
  (StronglySorted key_lt (fst s) /\ StronglySorted key_lt (snd s)) /\
  (forall k, In k (fst s) <-> In k (fst s0) \/ src k) /\
  (forall k, In k (snd s) <-> In k (snd s0) \/ exists k' e g, src k' /\ kget3 known3 k' = Some e /\ In g (snd e) /\ k = (fst k', g2_id g)).
Lemma reply_set3_inner known3 keys : (forall k, In k keys -> exists e, kget3 known3 k = Some e) ->
  forall s0, StronglySorted key_lt (fst s0) -> StronglySorted key_lt (snd s0) ->
  exists s, fold_left (fun acc k => obind acc (fun s =>
      match kget3 known3 k with
      | None => AssertFail
      | Some e => Ok (kset_insert k (fst s), fold_left (fun f g => kset_insert (fst k, g2_id g) f) (snd e) (snd s))
      end)) keys (Ok s0) = Ok s /\ set_spec known3 (fun k => In k keys) s0 s.
Proof.
  induction keys as [|k keys IH]; intros Hk s0 S1 S2; cbn [fold_left].
  - exists s0. split; auto. split; [auto|]. split; intros k; (split; [auto|]); [intros [|[]]; auto|intros [|(? & ? & ? & [] & _)]; auto].
  - destruct (Hk k ltac:(simpl; auto)) as (e & E). cbn [obind]. rewrite E.
    destruct (faces_fold (fst k) (snd e) (snd s0) S2) as [F1 F2]. cbv zeta in F1, F2.
    set (s1 := (kset_insert k (fst s0), fold_left (fun f g => kset_insert (fst k, g2_id g) f) (snd e) (snd s0))).
    destruct (IH ltac:(intros; apply Hk; simpl; auto) s1) as (s & Es & Hs1 & A & B).
    + apply kset_sorted; auto.
    + exact F1.
    + exists s. split; [exact Es|]. split; [exact Hs1|]. split.
      * intros q. rewrite A. cbn [s1 fst]. rewrite in_kset. simpl. intuition (subst; auto).
      * intros q. rewrite B. cbn [s1 snd]. rewrite F2. split.
        -- intros [[|(g & G1 & G2)]|(k' & e' & g & G1 & G2)]; [auto|right; exists k, e, g; simpl; auto|right; exists k', e', g; simpl; tauto].
        -- intros [|(k' & e' & g & [<-|G1] & G2 & G3 & G4)]; [auto| |right; exists k', e', g; auto].
           left. right. exists g. rewrite E in G2. injection G2 as <-. auto.
Qed.
Lemma reply_set3_spec known3 c2g cells : (forall c k, In c cells -> In k (mget c2g c) -> exists e, kget3 known3 k = Some e) ->
  exists s, reply_set3 known3 c2g cells = Ok s /\ NoDup (fst s) /\ NoDup (snd s) /\
    (forall k, In k (fst s) <-> exists c, In c cells /\ In k (mget c2g c)) /\
    (forall k, In k (snd s) <-> exists k' e g, In k' (fst s) /\ kget3 known3 k' = Some e /\ In g (snd e) /\ k = (fst k', g2_id g)).
Proof.
  unfold reply_set3.
  assert (H : forall l s0, (forall c k, In c l -> In k (mget c2g c) -> exists e, kget3 known3 k = Some e) ->
     StronglySorted key_lt (fst s0) -> StronglySorted key_lt (snd s0) ->
     exists s, fold_left (fun acc c => fold_left (fun acc k => obind acc (fun s =>
      match kget3 known3 k with
      | None => AssertFail
      | Some e => Ok (kset_insert k (fst s), fold_left (fun f g => kset_insert (fst k, g2_id g) f) (snd e) (snd s))
      end)) (mget c2g c) acc) l (Ok s0) = Ok s /\ set_spec known3 (fun k => exists c, In c l /\ In k (mget c2g c)) s0 s).
  { induction l as [|c l IH]; intros s0 Hk S1 S2; cbn [fold_left].
    - exists s0. split; auto. split; [auto|]. split; intros k; (split; [auto|]); [intros [|(? & [] & _)]; auto|intros [|(? & ? & ? & (? & [] & _) & _)]; auto].
    - destruct (reply_set3_inner known3 (mget c2g c) ltac:(intros k Hi; apply (Hk c k); simpl; auto) s0 S1 S2) as (s1 & E1 & (T1 & T2) & A1 & B1).
      rewrite E1. destruct (IH s1 ltac:(intros c' k Hc; apply Hk; simpl; auto) T1 T2) as (s & Es & Ts & A & B).
      exists s. split; [exact Es|]. split; [exact Ts|]. split.
      + intros k. rewrite A, A1. split.
        * intros [[|]|(c' & ? & ?)]; [auto|right; exists c; simpl; auto|right; exists c'; simpl; auto].
        * intros [|(c' & [->|] & ?)]; eauto.
      + intros k. rewrite B, B1. split.
        * intros [[|(k' & e & g & G1 & G2)]|(k' & e & g & (c' & G1 & G1') & G2)]; [auto|right; exists k', e, g; split; [exists c; simpl; auto|auto]|right; exists k', e, g; split; [exists c'; simpl; auto|auto]].
        * intros [|(k' & e & g & (c' & [->|G1] & G1') & G2)]; [auto|left; right; exists k', e, g; auto|right; exists k', e, g; split; [exists c'; auto|auto]]. }
  intros Hk. destruct (H cells ([], []) Hk ltac:(constructor) ltac:(constructor)) as (s & Es & (T1 & T2) & A & B).
  exists s. split; [exact Es|]. split; [now apply kset_nodup|]. split; [now apply kset_nodup|].
  assert (A' : forall k, In k (fst s) <-> exists c, In c cells /\ In k (mget c2g c)) by (intros k; rewrite A; simpl; tauto).
  split; [exact A'|]. intros k. rewrite B. cbn [snd]. split.
  - intros [[]|(k' & e & g & G1 & G2)]. exists k', e, g. rewrite A'. auto.
  - intros (k' & e & g & G1 & G2). right. exists k', e, g. rewrite <- A'. auto.
Qed.
