From Coq Require Import Sorting.Permutation Sorting.Sorted ZArith Reals Lia Bool.
From Verif Require Import M_Bytes M_Pack2D M_RemoteGeom M_Transport M_Exchange S_Exchange M_MeshIf S_Grid S_MeshIf M_Halo S_Halo.
From Verif Require Import M_Util L_Util L_Bytes L_Pack2D L_Grid L_MeshIf L_MeshIf2 L_Transport L_Exchange L_ExchangeMesh L_ExchangeEnd L_HaloCells L_Halo L_ListX.
From Coq Require Import List.
Import ListNotations.
Local Open Scope Z_scope.

Lemma concat_len_incl {A} (f : A -> list Z) l : forall L, NoDup l -> incl l L ->
  (length (concat (map f l)) <= length (concat (map f L)))%nat.
Proof.
  induction l as [|x l IH]; intros L Hn Hi; simpl; [lia|]. inversion Hn; subst.
  destruct (in_split x L (Hi x ltac:(simpl; auto))) as (L1 & L2 & ->).
  rewrite map_app, concat_app. simpl. rewrite !app_length. specialize (IH (L1 ++ L2) H2).
  rewrite map_app, concat_app, app_length in IH. enough (incl l (L1 ++ L2)) by (specialize (IH H); lia).
  intros y Hy. specialize (Hi y ltac:(simpl; auto)). rewrite !in_app_iff in *. simpl in Hi. destruct Hi as [|[->|]]; auto. tauto.
Qed.
Lemma pack_len_incl l L : NoDup l -> incl l L -> (length (pack_geoms2d l) <= length (pack_geoms2d L))%nat.
Proof.
  intros Hn Hi. unfold pack_geoms2d. rewrite !app_length.
  pose proof (concat_len_incl (fun r => pack_geom2d (r2_rank r) (r2_id r) (r2_geom r)) l L Hn Hi).
  assert (E : forall z, length (enc_int z) = 4%nat) by reflexivity. rewrite !E. lia.
Qed.

Lemma unpack_spec received : forall known out, exists known' new,
  halo_unpack known received out = (known', out ++ new) /\ NoDup (map key_of new) /\
  (forall x, In x new -> In x received /\ kget known (key_of x) = None) /\
  (forall k g, kget known' k = Some g <-> kget known k = Some g \/ In (mkRemote2D (fst k) (snd k) g) new) /\
  (forall x, In x received -> kget known' (key_of x) <> None).
Proof.
  unfold halo_unpack. induction received as [|x l IH]; intros known out; cbn [fold_left].
  - exists known, []. rewrite app_nil_r. repeat split; try (intros; tauto); simpl; try tauto; try constructor.
  - cbn [fst snd]. destruct (zget (rank_elems known (r2_rank x)) (r2_id x)) as [g0|] eqn:E.
    + destruct (IH known out) as (k' & new & E1 & H1 & H2 & H3 & H4). exists k', new. split; [exact E1|]. split; [exact H1|]. split.
      * intros y Hy. destruct (H2 y Hy). simpl. auto.
      * split; [exact H3|]. intros y [<-|Hy]; auto.
        assert (Hk : kget k' (key_of x) = Some g0) by (apply H3; left; exact E). congruence.
    + destruct (IH (gput known (r2_rank x) (r2_id x) (r2_geom x)) (out ++ [x])) as (k' & new & E1 & H1 & H2 & H3 & H4).
      exists k', (x :: new). rewrite E1. split; [now rewrite <- app_assoc|]. split; [|split; [|split]].
      * simpl. constructor; auto. intros Hi. apply in_map_iff in Hi as (y & Ey & Hy). destruct (H2 y Hy) as [_ Hk].
        rewrite kget_put in Hk. rewrite (proj2 (key_eqb_eq (key_of y) (r2_rank x, r2_id x)) Ey) in Hk. discriminate.
      * intros y [<-|Hy]; [split; [simpl; auto|exact E]|]. destruct (H2 y Hy) as [Hin Hk]. split; [simpl; auto|].
        rewrite kget_put in Hk. destruct (key_eqb (key_of y) (r2_rank x, r2_id x)); [discriminate|auto].
      * intros k g. rewrite H3, kget_put. destruct (key_eqb k (r2_rank x, r2_id x)) eqn:Ek.
        -- apply key_eqb_eq in Ek. subst k. cbn [fst snd]. split.
           ++ intros [Eg|Hi]; [injection Eg as <-; right; left; now destruct x|right; right; auto].
           ++ intros [Eg|[Eg|Hi]]; [unfold kget in Eg; cbn [fst snd] in Eg; congruence| |auto]. left. destruct x; simpl in *. injection Eg as ->. auto.
        -- simpl. split; [intros [|]; auto|]. intros [|[Eg|]]; auto. exfalso. rewrite <- not_true_iff_false in Ek. apply Ek. apply key_eqb_eq. destruct k. now subst x.
      * intros y [<-|Hy]; auto.
        assert (Hk : kget k' (key_of x) = Some (r2_geom x)).
        { apply H3. left. rewrite kget_put. now rewrite (proj2 (key_eqb_eq (key_of x) (r2_rank x, r2_id x)) eq_refl). }
        congruence.
Qed.

Section Call.
  Context (size : Z) (m : mhier) (bx : geom2d -> box) (owner : Z -> Z) (owned unowned : Z -> list Z) (w : Z) (pbc : bool).
  Context (elems : Z -> list (Z * geom2d)) (sts : Z -> rank_state).
  Hypothesis Hm : mh_ok m.
  Hypothesis He : elems_wf size m bx elems.
  Hypothesis Hst : forall a, 0 <= a < size -> state_wf size elems a (sts a) /\ sendable size a (sts a).
  Hypothesis Hcells : forall a g, 0 <= a < size -> In g (owned a ++ unowned a) -> exists t, cell_at m g t.
  Hypothesis Hw : width_ok m w.
  Context (req : Z -> list (Z * list Z)).
  Hypothesis Hreq : forall a, 0 <= a < size -> exists cells, halo_cells m w pbc (owned a) (unowned a) = Ok cells /\
       req a = halo_rank_cells size a owner cells.

  Definition reply_to (b a : Z) (x : remote2d) : Prop :=
    knows b (sts b) x /\ exists c, owner c = b /\ halo_cell m w pbc (owned a) (unowned a) c /\ overlaps m bx c x.
  Lemma req_facts a : 0 <= a < size -> keys_sorted (req a) /\
    (forall b, In b (map fst (req a)) -> 0 <= b < size /\ b <> a) /\
    (forall b c, In c (mget (req a) b) <-> 0 <= b < size /\ b <> a /\ owner c = b /\ halo_cell m w pbc (owned a) (unowned a) c).
  Proof.
    intros Ha. destruct (Hreq a Ha) as (cells & Ec & ->). destruct (halo_cells_spec m w pbc (owned a) (unowned a) Hm Hw (fun g => Hcells a g Ha)) as (s & Es & _ & Hs).
    rewrite Ec in Es. injection Es as <-. destruct (rank_cells_spec size a owner cells) as (H1 & H2 & H3). split; [exact H1|]. split.
    - intros b Hb. apply H2 in Hb. tauto.
    - intros b c. rewrite H3, Hs. unfold halo_cell. tauto.
  Qed.
  Lemma knows_facts b x : 0 <= b < size -> knows b (sts b) x -> 0 <= r2_rank x < size /\ In (r2_id x, r2_geom x) (elems (r2_rank x)).
  Proof.
    intros Hb [[E H]|H]; destruct (Hst b Hb) as [(Eo & Hc & _) _].
    - rewrite E. rewrite Eo in H. auto.
    - destruct (Hc x H) as (A & _ & B). auto.
  Qed.
  Lemma knows_geom b x : 0 <= b < size -> knows b (sts b) x -> g2_id (r2_geom x) = r2_id x /\ (is_tri (r2_geom x) = true \/ is_quad (r2_geom x) = true) /\ length (bx (r2_geom x)) = mh_ndim m.
  Proof. intros Hb Hk. destruct (knows_facts b x Hb Hk) as [H1 H2]. destruct (He _ H1) as [_ H]. eapply H; eauto. Qed.
  Lemma touches_overlaps b c x : 0 <= b < size -> knows b (sts b) x -> (touches m c (bx (r2_geom x)) = true <-> overlaps m bx c x).
  Proof. intros Hb Hk. apply touches_iff; auto. apply (knows_geom b x Hb Hk). Qed.
  Lemma knows_eq a b x y : 0 <= a < size -> 0 <= b < size -> knows a (sts a) x -> knows b (sts b) y -> key_of x = key_of y -> x = y.
  Proof.
    intros Ha Hb Hx Hy E. destruct (knows_facts a x Ha Hx) as [X1 X2]. destruct (knows_facts b y Hb Hy) as [Y1 Y2].
    destruct x as [r i g], y as [r' i' g']. unfold key_of in E. simpl in *. injection E as -> ->. f_equal.
    destruct (He r' X1) as [S _]. apply sorted_nodup in S. apply (zget_in (elems r') i' g S) in X2. apply (zget_in (elems r') i' g' S) in Y2. congruence.
  Qed.
  Lemma own_sorted b : 0 <= b < size -> keys_sorted (rk_own (sts b)).
  Proof. intros Hb. destruct (Hst b Hb) as [(-> & _) _]. apply He; auto. Qed.
  Lemma known_iff b x : 0 <= b < size -> (kget (rank_to_geoms b (sts b)) (key_of x) = Some (r2_geom x) <-> knows b (sts b) x).
  Proof. intros Hb. apply (known_spec size elems); [apply He; auto|apply Hst; auto]. Qed.
  Lemma in_known b r l id g : 0 <= b < size -> In (r, l) (rank_to_geoms b (sts b)) -> In (id, g) l -> knows b (sts b) (mkRemote2D r id g).
  Proof.
    intros Hb H1 H2. apply known_iff; auto. unfold kget, key_of, rank_elems. cbn [fst snd r2_rank r2_id r2_geom].
    apply (zget_in _ _ _ (keys_sorted_nodup _ (rank_to_geoms_sorted b (sts b)))) in H1.
    pose proof (rank_to_geoms_inner b (sts b) r (own_sorted b Hb)) as Hs. unfold rank_elems in Hs. rewrite H1 in *.
    apply zget_in; auto. now apply keys_sorted_nodup.
  Qed.
  Lemma known_in b x : 0 <= b < size -> knows b (sts b) x -> exists l, In (r2_rank x, l) (rank_to_geoms b (sts b)) /\ In (r2_id x, r2_geom x) l.
  Proof.
    intros Hb Hk. apply known_iff in Hk; auto. unfold kget, key_of, rank_elems in Hk. cbn [fst snd] in Hk.
    destruct (zget (rank_to_geoms b (sts b)) (r2_rank x)) as [l|] eqn:E; [|discriminate]. exists l.
    pose proof (rank_to_geoms_inner b (sts b) (r2_rank x) (own_sorted b Hb)) as Hs. unfold rank_elems in Hs. rewrite E in Hs.
    split; [apply zget_in; auto; apply keys_sorted_nodup, rank_to_geoms_sorted|]. apply zget_in in Hk; auto. now apply keys_sorted_nodup.
  Qed.
  (** the reply of b to one requester *)
  Lemma one_reply b a cells sc_cells : 0 <= b < size -> (forall c, In c cells <-> owner c = b /\ halo_cell m w pbc (owned a) (unowned a) c) ->
    (forall c, In c cells -> In c sc_cells) ->
    exists l, reply_geoms (rank_to_geoms b (sts b)) (reply_set (cells_to_geoms m bx (rank_to_geoms b (sts b)) sc_cells) cells) = Ok l /\
      NoDup (map key_of l) /\ forall x, In x l <-> reply_to b a x.
  Proof.
    intros Hb Hc Hsc. set (known := rank_to_geoms b (sts b)). destruct (reply_set_spec (cells_to_geoms m bx known sc_cells) cells) as [Hn Hi].
    assert (Hk : forall k, In k (reply_set (cells_to_geoms m bx known sc_cells) cells) <-> exists x, reply_to b a x /\ key_of x = k).
    { intros k. rewrite Hi. split.
      - intros (c & H1 & H2). apply c2g_spec in H2 as (H2 & r & l & id & g & H3 & H4 & -> & H5).
        pose proof (in_known b r l id g Hb H3 H4) as Kn. exists (mkRemote2D r id g). pose proof (knows_geom _ _ Hb Kn) as (Eid & _). cbn [r2_geom r2_id] in Eid.
        split; [|unfold key_of; cbn [r2_rank r2_id]; congruence]. split; auto. exists c. apply Hc in H1 as [A B]. split; [auto|]. split; [auto|]. eapply touches_overlaps; eauto.
      - intros (x & [Kn (c & A & B & C)] & <-). exists c. assert (Hcc : In c cells) by (apply Hc; auto). split; auto. apply c2g_spec. split; auto.
        destruct (known_in b x Hb Kn) as (l & H1 & H2). exists (r2_rank x), l, (r2_id x), (r2_geom x). pose proof (knows_geom _ _ Hb Kn) as (Eid & _).
        repeat split; auto; [unfold key_of; now rewrite Eid|]. eapply touches_overlaps; eauto. }
    destruct (reply_geoms_spec known (reply_set (cells_to_geoms m bx known sc_cells) cells)) as (l & El & Em & Hl).
    { intros k Hk'. apply Hk in Hk' as (x & [Kn _] & <-). exists (r2_geom x). now apply known_iff. }
    exists l. split; [exact El|]. split; [now rewrite Em|]. intros x. split.
    - intros Hx. pose proof (Hl x Hx) as Kx. apply known_iff in Kx; auto. assert (Hkx : In (key_of x) (map key_of l)) by now apply in_map.
      rewrite Em in Hkx. apply Hk in Hkx as (y & Ry & Ey). assert (y = x) by (eapply (knows_eq b b); eauto; apply Ry). now subst.
    - intros Rx. assert (Hkx : In (key_of x) (map key_of l)) by (rewrite Em; apply Hk; eauto). apply in_map_iff in Hkx as (y & Ey & Hy).
      assert (y = x) by (eapply (knows_eq b b); eauto; [apply known_iff; auto|apply Rx]). now subst.
  Qed.
  Lemma replies_spec b sc sc_cells : 0 <= b < size -> forall sr, NoDup sr ->
    (forall a, In a sr -> (forall c, In c (mget sc a) <-> owner c = b /\ halo_cell m w pbc (owned a) (unowned a) c) /\ (forall c, In c (mget sc a) -> In c sc_cells)) ->
    exists rep, halo_replies (rank_to_geoms b (sts b)) (cells_to_geoms m bx (rank_to_geoms b (sts b)) sc_cells) sc sr = Ok rep /\
      forall a, In a sr -> exists l, NoDup (map key_of l) /\ (forall x, In x l <-> reply_to b a x) /\
        mget (fst rep) a = filter (fun x => is_tri (r2_geom x)) l /\
        mget (snd rep) a = filter (fun x => negb (is_tri (r2_geom x)) && is_quad (r2_geom x)) l.
  Proof.
    intros Hb. induction sr as [|a sr IH]; intros Hn H; cbn [halo_replies].
    - exists ([], []). split; auto. intros a [].
    - inversion Hn; subst. destruct (H a ltac:(simpl; auto)) as [Ha1 Ha2]. destruct (one_reply b a (mget sc a) sc_cells Hb Ha1 Ha2) as (l & El & Hl1 & Hl2).
      rewrite El. cbn [obind]. destruct IH as (rep & Er & Hr); auto; [intros; apply H; simpl; auto|]. rewrite Er. cbn [obind].
      eexists. split; [reflexivity|]. intros a' Ha'. cbn [fst snd]. rewrite !mget_assign. destruct (Z.eqb_spec a' a) as [->|Hne].
      + exists l. auto.
      + destruct Ha' as [|Ha']; [congruence|auto].
  Qed.
  Lemma serve_spec b arrival : 0 <= b < size -> Permutation arrival (halo_metadata size req b) ->
    exists rep, halo_serve size m bx req b (sts b) arrival = HOk (Ok rep) /\
      forall a, 0 <= a < size -> In b (map fst (req a)) -> exists l, NoDup (map key_of l) /\ (forall x, In x l <-> reply_to b a x) /\
        mget (fst rep) a = filter (fun x => is_tri (r2_geom x)) l /\
        mget (snd rep) a = filter (fun x => negb (is_tri (r2_geom x)) && is_quad (r2_geom x)) l.
  Proof.
    intros Hb HP. destruct (send_cells_spec size req b arrival Hb) as (sr & sc & E & Hn & Hsr & Hsc).
    - intros a Ha. apply keys_sorted_nodup. apply req_facts; auto.
    - intros a Ha Hi. apply req_facts in Hi; auto. intros ->. tauto.
    - exact HP.
    - unfold halo_serve. rewrite E.
      destruct (replies_spec b sc (halo_send_cells_set sr sc) Hb sr Hn) as (rep & Er & Hr).
      + intros a Ha. destruct (proj1 (Hsr a) Ha) as [Ra Ka]. rewrite (Hsc a Ha). destruct (req_facts a Ra) as (_ & F1 & F2). split.
        * intros c. rewrite F2. specialize (F1 b Ka). split; [tauto|]. intros [A B]. tauto.
        * intros c Hc. apply cells_set_spec. exists a. rewrite Hsc by auto. auto.
      + rewrite Er. exists rep. split; auto. intros a Ra Ka. apply Hr. apply Hsr. auto.
  Qed.
  Lemma reply_sendable b a l (p : remote2d -> bool) : 0 <= b < size -> NoDup (map key_of l) -> (forall x, In x l <-> reply_to b a x) ->
    Forall (fun x => remote2d_okb x = true) (filter p l) /\ Z.of_nat (length (pack_geoms2d (filter p l))) * size < 2 ^ 31.
  Proof.
    intros Hb Hn Hl. destruct (Hst b Hb) as [_ [S1 S2]].
    assert (Hi : incl (filter p l) (remotes b (rk_own (sts b)) ++ rk_tris (sts b) ++ rk_quads (sts b))).
    { intros x Hx. apply filter_In in Hx as [Hx _]. apply Hl in Hx as [[[E H]|H] _]; apply in_app_iff; auto. left. apply in_remotes. auto. }
    split.
    - rewrite Forall_forall in *. intros x Hx. apply S1. apply Hi; auto.
    - pose proof (pack_len_incl (filter p l) _ (NoDup_filter _ (NoDup_map_inv _ _ Hn)) Hi). nia.
  Qed.
  Context (rep : Z -> list (Z * list remote2d) * list (Z * list remote2d)).
  Hypothesis Hrep : forall b a, 0 <= b < size -> 0 <= a < size -> In b (map fst (req a)) -> exists l, NoDup (map key_of l) /\ (forall x, In x l <-> reply_to b a x) /\
        mget (fst (rep b)) a = filter (fun x => is_tri (r2_geom x)) l /\
        mget (snd (rep b)) a = filter (fun x => negb (is_tri (r2_geom x)) && is_quad (r2_geom x)) l.
  Definition got (a : Z) (x : remote2d) : Prop := exists b, 0 <= b < size /\ b <> a /\ reply_to b a x.
  Lemma in_received a (sel : (list (Z * list remote2d) * list (Z * list remote2d)) -> list (Z * list remote2d)) (p : remote2d -> bool) : 0 <= a < size ->
    (forall b, 0 <= b < size -> In b (map fst (req a)) -> exists l, NoDup (map key_of l) /\ (forall x, In x l <-> reply_to b a x) /\ mget (sel (rep b)) a = filter p l) ->
    forall x, In x (concat (map (fun b => mget (sel (rep b)) a) (map fst (req a)))) <-> got a x /\ p x = true.
  Proof.
    intros Ha H x. rewrite in_concat. split.
    - intros (y & Hy & Hx). apply in_map_iff in Hy as (b & <- & Hb). destruct (req_facts a Ha) as (_ & F1 & _). destruct (F1 b Hb) as [B1 B2].
      destruct (H b B1 Hb) as (l & _ & Hl & E). rewrite E in Hx. apply filter_In in Hx as [Hx Hp]. split; auto. exists b. split; [auto|]. split; [auto|]. now apply Hl.
    - intros [(b & B1 & B2 & R) Hp]. assert (Hb : In b (map fst (req a))).
      { destruct R as [_ (c & C1 & C2 & _)]. apply mget_key. intros En. destruct (req_facts a Ha) as (_ & _ & F2).
        assert (Hc : In c (mget (req a) b)) by (apply F2; auto). rewrite En in Hc. destruct Hc. }
      exists (mget (sel (rep b)) a). split; [apply in_map_iff; eauto|]. destruct (H b B1 Hb) as (l & _ & Hl & E). rewrite E. apply filter_In. split; auto. now apply Hl.
  Qed.
  Lemma receive_spec a (sel : (list (Z * list remote2d) * list (Z * list remote2d)) -> list (Z * list remote2d)) (p : remote2d -> bool) order : 0 <= a < size ->
    (forall b, 0 <= b < size -> In b (map fst (req a)) -> exists l, NoDup (map key_of l) /\ (forall x, In x l <-> reply_to b a x) /\ mget (sel (rep b)) a = filter p l) ->
    Permutation order (seq 0 (length (req a))) ->
    halo_receive (map fst (req a)) (fun b => pack_geoms2d (mget (sel (rep b)) a)) order = XOk (Ok (concat (map (fun b => mget (sel (rep b)) a) (map fst (req a))))).
  Proof.
    intros Ha H HO. unfold halo_receive. rewrite (exchange_recv_spec _ (fun b => mget (sel (rep b)) a)).
    - f_equal. f_equal. rewrite map_map. cbn [fst]. reflexivity.
    - rewrite !map_length. reflexivity.
    - rewrite !map_length. exact HO.
    - apply Forall_forall. intros ss Hi. apply in_map_iff in Hi as (b & <- & Hb). cbn [fst snd]. split; auto.
      destruct (req_facts a Ha) as (_ & F1 & _). destruct (F1 b Hb) as [B1 _]. destruct (H b B1 Hb) as (l & Hn & Hl & E). rewrite E.
      destruct (reply_sendable b a l p B1 Hn Hl) as [R1 R2]. split; [exact R1|]. rewrite !map_length.
      eapply Z.le_lt_trans; [|exact R2]. apply Z.mul_le_mono_nonneg_l; [lia|].
      assert (Hle : (length (map fst (req a)) <= length (ranks size))%nat).
      { apply NoDup_incl_length; [apply keys_sorted_nodup, req_facts; auto|]. intros c Hc. apply in_ranks. apply F1; auto. }
      unfold ranks in Hle. rewrite !map_length, seq_length in Hle. lia.
  Qed.
  Definition new_ok (a : Z) (st' : rank_state) : Prop :=
    state_wf size elems a st' /\
    exists nt nq, rk_tris st' = rk_tris (sts a) ++ nt /\ rk_quads st' = rk_quads (sts a) ++ nq /\
      forall x, In x (nt ++ nq) <-> got a x /\ ~ knows a (sts a) x.
  Lemma got_facts a x : got a x -> exists b, 0 <= b < size /\ knows b (sts b) x.
  Proof. intros (b & Hb & _ & Hk & _). eauto. Qed.
  Lemma finish_spec a torder qorder : 0 <= a < size -> Permutation torder (seq 0 (length (req a))) -> Permutation qorder (seq 0 (length (req a))) ->
    exists st', halo_finish a (sts a) (map fst (req a)) (fun b => pack_geoms2d (mget (fst (rep b)) a)) (fun b => pack_geoms2d (mget (snd (rep b)) a)) torder qorder = HOk (Ok st') /\
      new_ok a st'.
  Proof.
    intros Ha HT HQ. unfold halo_finish.
    set (pt := fun x => is_tri (r2_geom x)). set (pq := fun x => negb (is_tri (r2_geom x)) && is_quad (r2_geom x)).
    assert (RT : forall b, 0 <= b < size -> In b (map fst (req a)) -> exists l, NoDup (map key_of l) /\ (forall x, In x l <-> reply_to b a x) /\ mget (fst (rep b)) a = filter pt l).
    { intros b B1 B2. destruct (Hrep b a B1 Ha B2) as (l & A & B & C & _). exists l. auto. }
    assert (RQ : forall b, 0 <= b < size -> In b (map fst (req a)) -> exists l, NoDup (map key_of l) /\ (forall x, In x l <-> reply_to b a x) /\ mget (snd (rep b)) a = filter pq l).
    { intros b B1 B2. destruct (Hrep b a B1 Ha B2) as (l & A & B & _ & C). exists l. auto. }
    rewrite (receive_spec a fst pt torder Ha RT HT), (receive_spec a snd pq qorder Ha RQ HQ).
    pose proof (in_received a fst pt Ha RT) as IT. pose proof (in_received a snd pq Ha RQ) as IQ.
    set (rt := concat (map (fun b => mget (fst (rep b)) a) (map fst (req a)))) in *.
    set (rq := concat (map (fun b => mget (snd (rep b)) a) (map fst (req a)))) in *.
    destruct (unpack_spec rt (rank_to_geoms a (sts a)) (rk_tris (sts a))) as (k1 & nt & E1 & N1 & A1 & B1 & C1).
    rewrite E1. cbn [fst snd].
    destruct (unpack_spec rq k1 (rk_quads (sts a))) as (k2 & nq & E2 & N2 & A2 & B2 & C2). rewrite E2. cbn [fst snd].
    eexists. split; [reflexivity|].
    assert (Ht : forall x, In x nt -> got a x /\ is_tri (r2_geom x) = true) by (intros x Hx; apply IT; apply A1; auto).
    assert (Hq : forall x, In x nq -> got a x /\ pq x = true) by (intros x Hx; apply IQ; apply A2; auto).
    assert (Hkn : forall x, got a x -> (kget (rank_to_geoms a (sts a)) (key_of x) <> None <-> knows a (sts a) x)).
    { intros x Gx. destruct (got_facts a x Gx) as (b & Hb & Kb). split.
      - intros Hne. destruct (kget (rank_to_geoms a (sts a)) (key_of x)) as [g|] eqn:E; [|congruence].
        assert (Ky : knows a (sts a) (mkRemote2D (r2_rank x) (r2_id x) g)) by (apply known_iff; auto).
        rewrite (knows_eq b a x _ Hb Ha Kb Ky eq_refl). exact Ky.
      - intros Kx. apply known_iff in Kx; auto. congruence. }
    assert (Hkn1 : forall x, got a x -> (kget k1 (key_of x) <> None <-> knows a (sts a) x \/ In x nt)).
    { intros x Gx. destruct (got_facts a x Gx) as (b & Hb & Kb). split.
      - intros Hne. destruct (kget k1 (key_of x)) as [g|] eqn:E; [|congruence]. apply B1 in E as [E|E].
        + left. apply Hkn; auto. congruence.
        + right. cbn [key_of fst snd] in E. destruct (Ht _ E) as [Gy _]. destruct (got_facts a _ Gy) as (b' & Hb' & Kb').
          rewrite (knows_eq b b' x _ Hb Hb' Kb Kb' eq_refl). exact E.
      - intros [Kx|Hx].
        + apply known_iff in Kx; auto. assert (E : kget k1 (key_of x) = Some (r2_geom x)) by (apply B1; auto). congruence.
        + assert (E : kget k1 (key_of x) = Some (r2_geom x)) by (apply B1; right; now destruct x). congruence. }
    assert (Hin : forall x, In x (nt ++ nq) <-> got a x /\ ~ knows a (sts a) x).
    { intros x. rewrite in_app_iff. split.
      - intros [Hx|Hx].
        + destruct (Ht x Hx) as [Gx _]. split; auto. intros Kx. apply Hkn in Kx; auto. apply Kx. apply A1. auto.
        + destruct (Hq x Hx) as [Gx _]. split; auto. intros Kx. destruct (A2 x Hx) as [_ E]. apply (proj2 (Hkn1 x Gx)); auto.
      - intros [Gx Kx]. destruct (got_facts a x Gx) as (b & Hb & Kb). destruct (is_tri (r2_geom x)) eqn:Et.
        + left. assert (Hr : In x rt) by (apply IT; auto). pose proof (C1 x Hr) as Hne. apply Hkn1 in Hne as [|]; auto. tauto.
        + assert (Hp : pq x = true).
          { unfold pq. rewrite Et. simpl. destruct (knows_geom b x Hb Kb) as (_ & [|] & _); [congruence|auto]. }
          assert (Hr : In x rq) by (apply IQ; auto). pose proof (C2 x Hr) as Hne.
          destruct (kget k2 (key_of x)) as [g|] eqn:E; [|congruence]. apply B2 in E as [E|E].
          * assert (H : kget k1 (key_of x) <> None) by congruence. apply Hkn1 in H as [|]; auto. tauto.
          * right. cbn [key_of fst snd] in E. destruct (Hq _ E) as [Gy _]. destruct (got_facts a _ Gy) as (b' & Hb' & Kb').
            rewrite (knows_eq b b' x _ Hb Hb' Kb Kb' eq_refl). exact E. }
    split; [|exists nt, nq; auto].
    destruct (Hst a Ha) as [(W1 & W2 & W3 & W4 & W5) _].
    assert (Hold : forall x, In x (rk_tris (sts a) ++ rk_quads (sts a)) -> knows a (sts a) x) by (intros; right; auto).
    split; [exact W1|]. cbn [rk_tris rk_quads rk_own]. split; [|split; [|split]].
    - intros x Hx. assert (Hc : In x (rk_tris (sts a) ++ rk_quads (sts a)) \/ In x (nt ++ nq)) by (rewrite !in_app_iff in *; tauto).
      destruct Hc as [Hc|Hc]; [auto|]. apply Hin in Hc as [Gx Kx]. destruct (got_facts a x Gx) as (b & Hb & Kb).
      destruct (knows_facts b x Hb Kb) as [F1 F2]. split; [auto|]. split; [|auto]. intros Er. apply Kx. left. rewrite W1, <- Er. auto.
    - intros x Hx. apply in_app_iff in Hx as [|Hx]; auto. apply Ht; auto.
    - intros x Hx. apply in_app_iff in Hx as [|Hx]; auto. destruct (Hq x Hx) as [_ Hp]. unfold pq in Hp. apply andb_true_iff in Hp. tauto.
    - assert (Hdis : NoDup (map key_of ((rk_tris (sts a) ++ rk_quads (sts a)) ++ (nt ++ nq)))).
      { rewrite map_app. apply NoDup_app_intro; auto.
        - rewrite map_app. apply NoDup_app_intro; auto. intros k K1 K2. apply in_map_iff in K1 as (x & <- & Hx). apply in_map_iff in K2 as (y & Ey & Hy).
          destruct (A2 y Hy) as [_ E]. rewrite Ey in E. assert (Gx : got a x) by apply (Ht x Hx). apply (proj2 (Hkn1 x Gx)); auto.
        - intros k K1 K2. apply in_map_iff in K1 as (x & <- & Hx). apply in_map_iff in K2 as (y & Ey & Hy). apply Hin in Hy as [Gy Ky].
          destruct (got_facts a y Gy) as (b & Hb & Kb). apply Ky. rewrite (knows_eq b a y x Hb Ha Kb (Hold x Hx) Ey). auto. }
      eapply Permutation_NoDup; [|exact Hdis]. apply Permutation_map. rewrite <- !app_assoc. apply Permutation_app_head.
      rewrite !app_assoc. apply Permutation_app_tail. apply Permutation_app_comm.
  Qed.
End Call.
