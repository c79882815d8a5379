From Coq Require Import Sorting.Permutation Sorting.Sorted ZArith Reals Lia Bool.
From Verif Require Import M_Bytes M_Pack2D M_RemoteGeom M_Transport M_Exchange S_Exchange M_MeshIf S_Grid S_MeshIf M_Halo S_Halo M_Halo3D S_Halo3D M_HaloExt3 S_HaloExt3.
From Verif Require Import M_Util L_Util L_Bytes L_Pack2D L_Grid L_MeshIf L_MeshIf2 L_Transport L_Exchange L_ExchangeMesh L_ExchangeEnd L_HaloCells L_Halo L_Halo2 L_ListX L_Halo3D L_HaloExt3 L_HaloExt3b.
From Coq Require Import List.
Import ListNotations.
Local Open Scope Z_scope.

Section Call.
  Context (size : Z) (m : mhier) (bx : elem3d -> box) (owner : Z -> Z) (owned unowned : Z -> list Z) (w : Z) (pbc : bool).
  Context (faces : Z -> list (Z * geom2d)) (elems : Z -> list (Z * elem3d)) (sts : Z -> rank_state3).
  Hypothesis Hm : mh_ok m.
  Hypothesis He : mesh3_wf size m bx faces elems.
  Hypothesis Hst : halo_ready3 size faces elems sts.
  Hypothesis Hcells : forall a g, 0 <= a < size -> In g (owned a ++ unowned a) -> exists t, cell_at m g t.
  Hypothesis Hw : width_ok m w.
  Context (req : Z -> list (Z * list Z)).
  Hypothesis Hreq : forall a, 0 <= a < size -> exists cells, halo_cells m w pbc (owned a) (unowned a) = Ok cells /\
       req a = halo_rank_cells size a owner cells.
  Let bx2 (_ : geom2d) : box := repeat (0%R, 0%R) (mh_ndim m).
  Let sts2 a := s3_2d (sts a).
  Lemma faces_wf : elems_wf size m bx2 faces.
  Proof.
    intros a Ha. destruct (He a Ha) as [[S F] _]. split; auto. intros id g Hi. destruct (F id g Hi). split; auto. split; auto. unfold bx2. apply repeat_length.
  Qed.
  Lemma sts2_ok a : 0 <= a < size -> state_wf size faces a (sts2 a) /\ sendable size a (sts2 a).
  Proof. intros Ha. destruct (Hst a Ha) as [W S]. split; [apply W|apply S]. Qed.
  Definition reply_to3 (b a : Z) (x : remote3d) : Prop :=
    knows3 b (sts b) x /\ exists c, owner c = b /\ halo_cell m w pbc (owned a) (unowned a) c /\ overlaps3 m bx c x.
  Definition freply (b a : Z) (f : remote2d) : Prop := exists x, reply_to3 b a x /\ face_of x f.
  Lemma knows3_facts b x : 0 <= b < size -> knows3 b (sts b) x -> 0 <= r3_rank x < size /\ In (r3_id x, r3_geom x) (elems (r3_rank x)).
  Proof.
    intros Hb [[E H]|H]; destruct (Hst b Hb) as [(_ & Eo & Hc & _) _].
    - rewrite E. rewrite Eo in H. auto.
    - destruct (Hc x H) as (A & _ & B). auto.
  Qed.
  Lemma knows3_geom b x : 0 <= b < size -> knows3 b (sts b) x ->
    elem3d_ok (r3_geom x) /\ (forall f, In f (r3_faces x) -> In (g2_id f, f) (faces (r3_rank x))) /\ length (bx (r3_geom x)) = mh_ndim m.
  Proof. intros Hb Hk. destruct (knows3_facts b x Hb Hk) as [H1 H2]. destruct (He _ H1) as [_ [_ H]]. apply (H _ _ H2). Qed.
  Lemma knows3_face b x f : 0 <= b < size -> knows3 b (sts b) x -> face_of x f -> knows b (sts2 b) f.
  Proof.
    intros Hb Hk Hf. destruct (knows3_geom b x Hb Hk) as (_ & G & _). destruct (Hst b Hb) as [(W & Eo & _ & _ & Hcf) _].
    destruct Hk as [[E H]|H]; [left|right; eapply Hcf; eauto]. destruct Hf as (F1 & F2 & F3). split; [congruence|].
    destruct W as (W & _). unfold sts2. rewrite W, <- E, F3. apply G. auto.
  Qed.
  Lemma knows3_eq a b x y : 0 <= a < size -> 0 <= b < size -> knows3 a (sts a) x -> knows3 b (sts b) y -> key_of3 x = key_of3 y -> x = y.
  Proof.
    intros Ha Hb Hx Hy E. destruct (knows3_facts a x Ha Hx) as [X1 X2]. destruct (knows3_facts b y Hb Hy) as [Y1 Y2].
    rewrite <- (mk3_eta x), <- (mk3_eta y). unfold key_of3 in E. injection E as E1 E2. rewrite E1, E2 in *. f_equal.
    destruct (He _ Y1) as [_ [S _]]. apply sorted_nodup in S. apply (zget_in _ _ _ S) in X2. apply (zget_in _ _ _ S) in Y2. congruence.
  Qed.
  Lemma known3_iff b x : 0 <= b < size -> (kget3 (rank_to_geoms3 b (sts b)) (key_of3 x) = Some (r3_geom x) <-> knows3 b (sts b) x).
  Proof. intros Hb. apply (known3_spec size faces elems); [apply He; auto|apply Hst; auto]. Qed.
  Lemma own3_sorted b : 0 <= b < size -> keys_sorted (s3_own (sts b)).
  Proof. intros Hb. destruct (Hst b Hb) as [(_ & -> & _) _]. apply He; auto. Qed.
  Lemma in_known3 b r l id g : 0 <= b < size -> In (r, l) (rank_to_geoms3 b (sts b)) -> In (id, g) l -> knows3 b (sts b) (mk3 r id g).
  Proof.
    intros Hb H1 H2. apply known3_iff; auto. rewrite mk3_geom. unfold kget3, key_of3, rank_elems, mk3. cbn [fst snd r3_rank r3_id].
    apply (zget_in _ _ _ (keys_sorted_nodup _ (rank_to_geoms3_sorted b (sts b)))) in H1.
    pose proof (rank_to_geoms3_inner b (sts b) r (own3_sorted b Hb)) as Hs. unfold rank_elems in Hs. rewrite H1 in *.
    apply zget_in; auto. now apply keys_sorted_nodup.
  Qed.
  Lemma known3_in b x : 0 <= b < size -> knows3 b (sts b) x -> exists l, In (r3_rank x, l) (rank_to_geoms3 b (sts b)) /\ In (r3_id x, r3_geom x) l.
  Proof.
    intros Hb Hk. apply known3_iff in Hk; auto. unfold kget3, key_of3, rank_elems in Hk. cbn [fst snd] in Hk.
    destruct (zget (rank_to_geoms3 b (sts b)) (r3_rank x)) as [l|] eqn:E; [|discriminate]. exists l.
    pose proof (rank_to_geoms3_inner b (sts b) (r3_rank x) (own3_sorted b Hb)) as Hs. unfold rank_elems in Hs. rewrite E in Hs.
    split; [apply zget_in; auto; apply keys_sorted_nodup, rank_to_geoms3_sorted|]. apply zget_in in Hk; auto. now apply keys_sorted_nodup.
  Qed.
  (** the reply of b to one requester *)
  Lemma one_reply3 b a cells sc_cells : 0 <= b < size -> (forall c, In c cells <-> owner c = b /\ halo_cell m w pbc (owned a) (unowned a) c) ->
    (forall c, In c cells -> In c sc_cells) ->
    exists s l2 l3, reply_set3 (rank_to_geoms3 b (sts b)) (cells_to_geoms3 m bx (rank_to_geoms3 b (sts b)) sc_cells) cells = Ok s /\
      reply_geoms (rank_to_geoms b (sts2 b)) (snd s) = Ok l2 /\ reply_geoms3 (rank_to_geoms3 b (sts b)) (fst s) = Ok l3 /\
      NoDup (map key_of l2) /\ (forall x, In x l2 <-> freply b a x) /\ NoDup (map key_of3 l3) /\ forall x, In x l3 <-> reply_to3 b a x.
  Proof.
    intros Hb Hc Hsc. set (known := rank_to_geoms3 b (sts b)).
    assert (Hkk : forall c k, In c cells -> In k (mget (cells_to_geoms3 m bx known sc_cells) c) -> exists e, kget3 known k = Some e).
    { intros c k _ H2. apply c2g3_spec in H2 as (H2 & r & l & id & g & H3 & H4 & -> & H5). exists g.
      pose proof (in_known3 b r l id g Hb H3 H4) as Kn. apply known3_iff in Kn; auto. rewrite mk3_geom in Kn. exact Kn. }
    destruct (reply_set3_spec known (cells_to_geoms3 m bx known sc_cells) cells Hkk) as (s & Es & N3 & N2 & Hi & Hf).
    assert (Hk : forall k, In k (fst s) <-> exists x, reply_to3 b a x /\ key_of3 x = k).
    { intros k. rewrite Hi. split.
      - intros (c & H1 & H2). apply c2g3_spec in H2 as (H2 & r & l & id & g & H3 & H4 & -> & H5).
        pose proof (in_known3 b r l id g Hb H3 H4) as Kn. exists (mk3 r id g). split; [|reflexivity]. split; auto. exists c. apply Hc in H1 as [A B].
        split; [auto|]. split; [auto|]. apply touches_iff in H5; auto; [|pose proof (knows3_geom _ _ Hb Kn) as (_ & _ & Hl); now rewrite mk3_geom in Hl].
        unfold overlaps3. rewrite mk3_geom. exact H5.
      - intros (x & [Kn (c & A & B & C)] & <-). exists c. assert (Hcc : In c cells) by (apply Hc; auto). split; auto. apply c2g3_spec. split; auto.
        destruct (known3_in b x Hb Kn) as (l & H1 & H2). exists (r3_rank x), l, (r3_id x), (r3_geom x).
        split; [auto|]. split; [auto|]. split; [auto|]. apply touches_iff; auto. apply (knows3_geom _ _ Hb Kn). }
    destruct (reply_geoms3_spec known (fst s)) as (l3 & El & Em & Hl).
    { intros k Hk'. apply Hk in Hk' as (x & [Kn _] & <-). exists (r3_geom x). now apply known3_iff. }
    assert (Hl3 : forall x, In x l3 <-> reply_to3 b a x).
    { intros x. split.
      - intros Hx. pose proof (Hl x Hx) as Kx. apply known3_iff in Kx; auto. assert (Hkx : In (key_of3 x) (map key_of3 l3)) by now apply in_map.
        rewrite Em in Hkx. apply Hk in Hkx as (y & Ry & Ey). assert (y = x) by (eapply (knows3_eq b b); eauto; apply Ry). now subst.
      - intros Rx. assert (Hkx : In (key_of3 x) (map key_of3 l3)) by (rewrite Em; apply Hk; eauto). apply in_map_iff in Hkx as (y & Ey & Hy).
        assert (y = x) by (eapply (knows3_eq b b); eauto; [apply known3_iff; auto|apply Rx]). now subst. }
    assert (Hk2 : forall k, In k (snd s) <-> exists f, freply b a f /\ key_of f = k).
    { intros k. rewrite Hf. split.
      - intros (k' & e & g & H1 & H2 & H3 & ->). apply Hk in H1 as (x & Rx & <-). exists (mkRemote2D (r3_rank x) (g2_id g) g). split; [|reflexivity].
        exists x. split; auto. split; [reflexivity|]. cbn [r2_geom r2_id]. split; auto. destruct Rx as [Kx _]. apply known3_iff in Kx; auto.
        fold known in Kx. rewrite Kx in H2. injection H2 as <-. exact H3.
      - intros (f & (x & Rx & F1 & F2 & F3) & <-). exists (key_of3 x), (r3_geom x), (r2_geom f). split; [apply Hk; eauto|]. split; [apply known3_iff; auto; apply Rx|].
        split; [exact F2|]. unfold key_of, key_of3. cbn [fst]. congruence. }
    assert (Kf : forall f, freply b a f -> knows b (sts2 b) f) by (intros f (x & [Kx _] & Fx); eapply knows3_face; eauto).
    destruct (reply_geoms_spec (rank_to_geoms b (sts2 b)) (snd s)) as (l2 & El2 & Em2 & Hl2).
    { intros k Hk'. apply Hk2 in Hk' as (f & Rf & <-). exists (r2_geom f). apply (known_iff size m bx2 faces sts2 faces_wf sts2_ok); auto. }
    exists s, l2, l3. split; [exact Es|]. split; [exact El2|]. split; [exact El|]. split; [now rewrite Em2|]. split; [|split; [now rewrite Em|exact Hl3]].
    intros x. split.
    - intros Hx. pose proof (Hl2 x Hx) as Kx. apply (known_iff size m bx2 faces sts2 faces_wf sts2_ok) in Kx; auto. assert (Hkx : In (key_of x) (map key_of l2)) by now apply in_map.
      rewrite Em2 in Hkx. apply Hk2 in Hkx as (y & Ry & Ey). assert (y = x) by (eapply (knows_eq size m bx2 faces sts2 faces_wf sts2_ok b b); eauto). now subst.
    - intros Rx. assert (Hkx : In (key_of x) (map key_of l2)) by (rewrite Em2; apply Hk2; eauto). apply in_map_iff in Hkx as (y & Ey & Hy).
      assert (y = x); [|now subst]. eapply (knows_eq size m bx2 faces sts2 faces_wf sts2_ok b b); eauto. apply (known_iff size m bx2 faces sts2 faces_wf sts2_ok); auto.
  Qed.
  Definition replied (b a : Z) (rep : reply3) : Prop := exists l2 l3,
    NoDup (map key_of l2) /\ (forall x, In x l2 <-> freply b a x) /\ NoDup (map key_of3 l3) /\ (forall x, In x l3 <-> reply_to3 b a x) /\
    mget (p3_tris rep) a = filter (fun x => is_tri (r2_geom x)) l2 /\
    mget (p3_quads rep) a = filter (fun x => negb (is_tri (r2_geom x)) && is_quad (r2_geom x)) l2 /\
    mget (p3_ints rep) a = stream3 l3.
  Lemma replies3_spec b sc sc_cells : 0 <= b < size -> forall sr, NoDup sr ->
    (forall a, In a sr -> (forall c, In c (mget sc a) <-> owner c = b /\ halo_cell m w pbc (owned a) (unowned a) c) /\ (forall c, In c (mget sc a) -> In c sc_cells)) ->
    exists rep, halo_replies3 (rank_to_geoms b (sts2 b)) (rank_to_geoms3 b (sts b)) (cells_to_geoms3 m bx (rank_to_geoms3 b (sts b)) sc_cells) sc sr = Ok rep /\
      forall a, In a sr -> replied b a rep.
  Proof.
    intros Hb. induction sr as [|a sr IH]; intros Hn H; cbn [halo_replies3].
    - eexists. split; [reflexivity|]. intros a [].
    - inversion Hn; subst. destruct (H a ltac:(simpl; auto)) as [Ha1 Ha2]. destruct (one_reply3 b a (mget sc a) sc_cells Hb Ha1 Ha2) as (s & l2 & l3 & E1 & E2 & E3 & Q).
      rewrite E1. cbn [obind]. rewrite E2. cbn [obind]. rewrite E3. cbn [obind]. destruct IH as (rep & Er & Hr); auto; [intros; apply H; simpl; auto|]. rewrite Er. cbn [obind].
      eexists. split; [reflexivity|]. intros a' Ha'. unfold replied. cbn [p3_tris p3_quads p3_ints]. destruct (Z.eq_dec a' a) as [->|Hne].
      + exists l2, l3. rewrite !mget_assign, Z.eqb_refl. tauto.
      + destruct Ha' as [|Ha']; [congruence|]. destruct (Hr a' Ha') as (l2' & l3' & R). exists l2', l3'. rewrite !mget_assign, (proj2 (Z.eqb_neq _ _) Hne). exact R.
  Qed.
  Lemma serve3_spec b arrival : 0 <= b < size -> Permutation arrival (halo_metadata size req b) ->
    exists rep, halo_serve3 size m bx req b (sts b) arrival = HOk (Ok rep) /\
      forall a, 0 <= a < size -> In b (map fst (req a)) -> replied b a rep.
  Proof.
    intros Hb HP. pose proof (fun a Ha => req_facts size m owner owned unowned w pbc Hm Hcells Hw req Hreq a Ha) as RF.
    destruct (send_cells_spec size req b arrival Hb) as (sr & sc & E & Hn & Hsr & Hsc).
    - intros a Ha. apply keys_sorted_nodup. apply RF; auto.
    - intros a Ha Hi. apply RF in Hi; auto. intros ->. tauto.
    - exact HP.
    - unfold halo_serve3. rewrite E.
      destruct (replies3_spec b sc (halo_send_cells_set sr sc) Hb sr Hn) as (rep & Er & Hr).
      + intros a Ha. destruct (proj1 (Hsr a) Ha) as [Ra Ka]. rewrite (Hsc a Ha). destruct (RF a Ra) as (_ & F1 & F2). split.
        * intros c. rewrite F2. specialize (F1 b Ka). split; [tauto|]. intros [A B]. tauto.
        * intros c Hc. apply cells_set_spec. exists a. rewrite Hsc by auto. auto.
      + exists rep. split; [f_equal; exact Er|]. intros a Ra Ka. apply Hr. apply Hsr. auto.
  Qed.
  Context (rep : Z -> reply3).
  Hypothesis Hrep : forall b a, 0 <= b < size -> 0 <= a < size -> In b (map fst (req a)) -> replied b a (rep b).
  Definition got3 (a : Z) (x : remote3d) : Prop := exists b, 0 <= b < size /\ b <> a /\ reply_to3 b a x.
  Lemma reply_asked a b x : 0 <= a < size -> 0 <= b < size -> b <> a -> reply_to3 b a x -> In b (map fst (req a)).
  Proof.
    intros Ha Hb Hne [_ (c & C1 & C2 & _)]. apply mget_key. intros En.
    destruct (req_facts size m owner owned unowned w pbc Hm Hcells Hw req Hreq a Ha) as (_ & _ & F2).
    assert (Hc : In c (mget (req a) b)) by (apply F2; auto). rewrite En in Hc. destruct Hc.
  Qed.
  Lemma stream3_len l : Z.of_nat (length (stream3 l)) = fold_right Z.add 0 (map (fun x => 3 + Z.of_nat (length (r3_faces x))) l).
  Proof.
    unfold stream3. induction l as [|x l IH]; [reflexivity|]. cbn [map concat fold_right]. rewrite app_length, Nat2Z.inj_add, IH.
    unfold deconstruct_base. cbn [length]. rewrite !map_length. lia.
  Qed.
  Lemma stream3_incl l L : NoDup l -> incl l L -> (length (stream3 l) <= length (stream3 L))%nat.
  Proof. intros. unfold stream3. now apply concat_len_incl. Qed.
  Lemma stream_small b a : 0 <= a < size -> In b (map fst (req a)) -> Z.of_nat (length (mget (p3_ints (rep b)) a)) * size < 2 ^ 31.
  Proof.
    intros Ha Hi. destruct (req_facts size m owner owned unowned w pbc Hm Hcells Hw req Hreq a Ha) as (_ & F1 & _). destruct (F1 b Hi) as [Hb _].
    destruct (Hrep b a Hb Ha Hi) as (l2 & l3 & _ & _ & N3 & H3 & _ & _ & ->). destruct (Hst b Hb) as [_ [_ S]].
    rewrite <- stream3_len in S. eapply Z.le_lt_trans; [|exact S]. apply Z.mul_le_mono_nonneg_r; [lia|]. apply inj_le. apply stream3_incl.
    - now apply NoDup_map_inv in N3.
    - intros x Hx. apply H3 in Hx as [[[E H]|H] _]; apply in_app_iff; auto. left. apply in_remotes3. split; auto.
  Qed.
  Lemma knows3_dec a x : 0 <= a < size -> (exists b, 0 <= b < size /\ knows3 b (sts b) x) -> knows3 a (sts a) x \/ ~ knows3 a (sts a) x.
  Proof.
    intros Ha (b & Hb & Kb). destruct (kget3 (rank_to_geoms3 a (sts a)) (key_of3 x)) as [g|] eqn:E.
    - left. assert (Ky : knows3 a (sts a) (mk3 (r3_rank x) (r3_id x) g)) by (apply known3_iff; auto; rewrite mk3_geom; exact E).
      rewrite (knows3_eq b a x _ Hb Ha Kb Ky eq_refl). exact Ky.
    - right. intros Kx. apply known3_iff in Kx; auto. congruence.
  Qed.
  Definition new_ok3 (a : Z) (st' : rank_state3) : Prop :=
    state_wf3 size faces elems a st' /\
    exists nt nq ne, rk_tris (s3_2d st') = rk_tris (s3_2d (sts a)) ++ nt /\ rk_quads (s3_2d st') = rk_quads (s3_2d (sts a)) ++ nq /\ s3_elems st' = s3_elems (sts a) ++ ne /\
      (forall x, In x ne <-> got3 a x /\ ~ knows3 a (sts a) x) /\
      (forall f, In f (nt ++ nq) <-> (exists x, In x ne /\ face_of x f) /\ ~ knows a (s3_2d (sts a)) f).
  Lemma finish3_spec a torder qorder sorder : 0 <= a < size -> Permutation torder (seq 0 (length (req a))) -> Permutation qorder (seq 0 (length (req a))) -> Permutation sorder (seq 0 (length (req a))) ->
    exists st', halo_finish3 a (sts a) (map fst (req a)) (fun b => pack_geoms2d (mget (p3_tris (rep b)) a)) (fun b => pack_geoms2d (mget (p3_quads (rep b)) a))
       (fun b => mget (p3_ints (rep b)) a) torder qorder sorder = HOk (Ok st') /\ new_ok3 a st'.
  Proof.
    intros Ha HT HQ HS. set (rv := map fst (req a)).
    destruct (req_facts size m owner owned unowned w pbc Hm Hcells Hw req Hreq a Ha) as (F0 & F1 & F2). fold rv in F1.
    assert (Hnd : NoDup rv) by (apply keys_sorted_nodup; auto).
    assert (Hlen : length rv = length (req a)) by apply map_length.
    rewrite <- Hlen in HT, HQ, HS.
    assert (Hrp : forall b f, In b rv -> freply b a f -> knows b (sts2 b) f) by (intros b f Hb (x & [Kx _] & Fx); eapply knows3_face; eauto; apply F1; auto).
    destruct (f_finish size m bx2 faces sts2 faces_wf sts2_ok a rv (fun b => freply b a) (fun b => mget (p3_tris (rep b)) a) (fun b => mget (p3_quads (rep b)) a) Ha Hnd
       (fun b Hb => proj1 (F1 b Hb)) Hrp) with (torder := torder) (qorder := qorder) as (rt & rq & k1 & k2 & nt & nq & E1 & E2 & E3 & E4 & W & Hf & Hk2); auto.
    { intros b Hb. destruct (Hrep b a (proj1 (F1 b Hb)) Ha Hb) as (l2 & l3 & A1 & A2 & _ & _ & A3 & A4 & _). exists l2. auto. }
    unfold halo_finish3. rewrite E1, E2. change (s3_2d (sts a)) with (sts2 a). rewrite E3. cbn [fst snd]. rewrite E4. cbn [fst snd].
    (* the total size *)
    assert (Htot : fold_right Z.add 0 (map (fun b => Z.of_nat (length (mget (p3_ints (rep b)) a))) rv) < 2 ^ 31).
    { assert (Hsz : Z.of_nat (length rv) <= size).
      { assert (Hle : (length rv <= length (ranks size))%nat) by (apply NoDup_incl_length; auto; intros c Hc; apply in_ranks; apply F1; auto).
        unfold ranks in Hle. rewrite map_length, seq_length in Hle. lia. }
      assert (Hg : forall l, incl l rv -> fold_right Z.add 0 (map (fun b => Z.of_nat (length (mget (p3_ints (rep b)) a))) l) * size <= Z.of_nat (length l) * (2 ^ 31 - 1)).
      { induction l as [|b l IH]; intros Hi; [simpl; lia|]. cbn [map fold_right length]. specialize (IH ltac:(intros y Hy; apply Hi; simpl; auto)).
        pose proof (stream_small b a Ha ltac:(apply Hi; simpl; auto)). lia. }
      specialize (Hg rv ltac:(intros y Hy; auto)). nia. }
    rewrite (proj2 (Z.ltb_lt _ _) Htot). cbn [negb].
    rewrite sendrecv_concat; [|reflexivity|exact HS].
    (* the elements *)
    assert (HL : exists L, concat (map (fun b => mget (p3_ints (rep b)) a) rv) = stream3 L /\ forall x, In x L <-> exists b, In b rv /\ reply_to3 b a x).
    { assert (Hg : forall l, incl l rv -> exists L, concat (map (fun b => mget (p3_ints (rep b)) a) l) = stream3 L /\ forall x, In x L <-> exists b, In b l /\ reply_to3 b a x).
      { induction l as [|b l IH]; intros Hi.
        - exists []. split; [reflexivity|]. intros x. split; [intros []|intros (? & [] & _)].
        - destruct IH as (L & EL & HL); [intros y Hy; apply Hi; simpl; auto|]. assert (Hb : In b rv) by (apply Hi; simpl; auto).
          destruct (Hrep b a (proj1 (F1 b Hb)) Ha Hb) as (l2 & l3 & _ & _ & _ & A2 & _ & _ & A3). exists (l3 ++ L). split.
          + cbn [map concat]. rewrite EL, A3. unfold stream3. now rewrite map_app, concat_app.
          + intros x. rewrite in_app_iff, HL, A2. split.
            * intros [|(b' & ? & ?)]; [exists b; simpl; auto|exists b'; simpl; auto].
            * intros (b' & [->|] & ?); eauto. }
      apply Hg. intros y Hy. auto. }
    destruct HL as (L & EL & HL). rewrite EL.
    assert (HLk : forall x, In x L -> exists b, In b rv /\ 0 <= b < size /\ knows3 b (sts b) x /\ reply_to3 b a x).
    { intros x Hx. apply HL in Hx as (b & Hb & R). exists b. split; auto. split; [apply F1; auto|]. split; auto. apply R. }
    assert (HLg : forall x, In x L <-> got3 a x).
    { intros x. rewrite HL. split; intros (b & Hb).
      - destruct Hb as [Hb R]. exists b. destruct (F1 b Hb). auto.
      - destruct Hb as (Hb & Hne & R). exists b. split; auto. apply (reply_asked a b x); auto. }
    assert (Hface : forall x g, In x L -> In g (r3_faces x) -> face_at k2 (r3_rank x) (g2_id g) = Some g).
    { intros x g Hx Hg. apply HL in Hx as (b & Hb & R). apply (Hk2 (mkRemote2D (r3_rank x) (g2_id g) g)). exists b. split; auto. exists x. split; auto. split; auto. }
    assert (ES : stream3 L = concat (map (fun e => deconstruct_base (e3_rank e) (e3_id e) (e3_shape e) (e3_faces e))
       (map (fun x => mkElem3 (r3_rank x) (r3_id x) (r3_shape x) (map face2_of (r3_faces x))) L))).
    { unfold stream3. rewrite map_map. reflexivity. }
    rewrite ES, reconstruct_complete.
    2:{ apply Forall_forall. intros e Hi. apply in_map_iff in Hi as (x & <- & Hx). destruct (HLk x Hx) as (b & _ & Hb & Kx & _).
        apply (elem_ok_b (r3_rank x) (r3_id x) (r3_geom x)). apply (knows3_geom b x Hb Kx). }
    2:{ intros e f Hi Hfe. apply in_map_iff in Hi as (x & <- & Hx). cbn [e3_faces e3_rank] in *. apply in_map_iff in Hfe as (g & <- & Hg).
        cbn [f2_id face2_of]. rewrite (Hface x g Hx Hg). reflexivity. }
    rewrite map_map.
    assert (EM : map (fun x => with_geoms k2 (mkElem3 (r3_rank x) (r3_id x) (r3_shape x) (map face2_of (r3_faces x)))) L = L).
    { rewrite <- (map_id L) at 2. apply map_ext_in. intros x Hx. unfold with_geoms. cbn [e3_rank e3_id e3_shape e3_faces].
      rewrite flat_map_concat_map, map_map, <- flat_map_concat_map. cbn [f2_id face2_of].
      rewrite (flat_map_some (fun g => face_at k2 (r3_rank x) (g2_id g)) (fun g => g)); [rewrite map_id; now destruct x|]. intros g Hg. apply Hface; auto. }
    rewrite EM. destruct (unpack3_spec L (rank_to_geoms3 a (sts a)) (s3_elems (sts a))) as (k3 & ne & U1 & U2 & U3 & U4 & U5). rewrite U1. cbn [snd].
    eexists. split; [reflexivity|].
    assert (Hne : forall x, In x ne <-> got3 a x /\ ~ knows3 a (sts a) x).
    { intros x. split.
      - intros Hx. destruct (U3 x Hx) as [A B]. split; [apply HLg; auto|]. intros Kx. apply known3_iff in Kx; auto. congruence.
      - intros [Gx Kx]. apply HLg in Gx. pose proof (U5 x Gx) as Hn. destruct (kget3 k3 (key_of3 x)) as [g|] eqn:E; [|congruence].
        destruct (HLk x Gx) as (b & _ & Hb & Kb & _). apply U4 in E as [E|E].
        + exfalso. apply Kx. assert (Ky : knows3 a (sts a) (mk3 (r3_rank x) (r3_id x) g)) by (apply known3_iff; auto; rewrite mk3_geom; exact E).
          rewrite (knows3_eq b a x _ Hb Ha Kb Ky eq_refl). exact Ky.
        + cbn [key_of3 fst snd] in E. destruct (U3 _ E) as [Hy _]. destruct (HLk _ Hy) as (b' & _ & Hb' & Kb' & _).
          rewrite (knows3_eq b b' x _ Hb Hb' Kb Kb' eq_refl). exact E. }
    assert (Hfin : forall f, In f (nt ++ nq) <-> (exists x, In x ne /\ face_of x f) /\ ~ knows a (sts2 a) f).
    { intros f. rewrite Hf. split; intros [H1 H2]; (split; [|exact H2]).
      - destruct H1 as (b & Hb & x & R & Fx). exists x. split; auto. apply Hne. assert (Gx : got3 a x) by (exists b; destruct (F1 b Hb); auto).
        split; auto. intros Kx. apply H2. eapply knows3_face; eauto.
      - destruct H1 as (x & Hx & Fx). apply Hne in Hx as [Gx _]. apply HLg in Gx. apply HL in Gx as (b & Hb & R). exists b. split; auto. exists x. auto. }
    split; [|exists nt, nq, ne; cbn [s3_2d rk_tris rk_quads s3_elems]; auto].
    destruct (Hst a Ha) as [(W1 & W2 & W3 & W4 & W5) _].
    split; [exact W|]. cbn [s3_own s3_elems s3_2d rk_tris rk_quads]. split; [exact W2|].
    assert (Hold : forall x, In x (s3_elems (sts a)) -> knows3 a (sts a) x) by (intros; right; auto).
    split; [|split].
    - intros x Hx. apply in_app_iff in Hx as [Hx|Hx]; [auto|]. apply Hne in Hx as [(b & Hb & _ & Kb & _) Kx].
      destruct (knows3_facts b x Hb Kb) as [G1 G2]. split; [auto|]. split; [|auto]. intros Er. apply Kx. left. rewrite W2, <- Er. auto.
    - rewrite map_app. apply NoDup_app_intro; auto. intros k K1 K2. apply in_map_iff in K1 as (x & <- & Hx). apply in_map_iff in K2 as (y & Ey & Hy).
      apply Hne in Hy as [(b & Hb & _ & Kb & _) Ky]. apply Ky. rewrite (knows3_eq b a y x Hb Ha Kb (Hold x Hx) Ey). auto.
    - intros x f Hx Fx. assert (Hc : In f (rk_tris (sts2 a) ++ rk_quads (sts2 a)) \/ In f (nt ++ nq)); [|rewrite !in_app_iff in *; tauto].
      apply in_app_iff in Hx as [Hx|Hx]; [left; eapply W5; eauto|].
      pose proof Hx as Hx'. apply Hne in Hx' as [(b & Hb & Hba & Kb & R) Kx]. pose proof (knows3_face b x f Hb Kb Fx) as Kf.
      destruct (kget (rank_to_geoms a (sts2 a)) (key_of f)) as [g|] eqn:E.
      + assert (Ky : knows a (sts2 a) (mkRemote2D (r2_rank f) (r2_id f) g)) by (apply (known_iff size m bx2 faces sts2 faces_wf sts2_ok); auto).
        pose proof (knows_eq size m bx2 faces sts2 faces_wf sts2_ok b a f _ Hb Ha Kf Ky eq_refl) as Ef. rewrite <- Ef in Ky.
        destruct Ky as [[Er _]|Ky]; [|left; exact Ky]. exfalso. apply Kx. left. destruct Fx as (F3 & _). destruct (knows3_facts b x Hb Kb) as [G1 G2].
        split; [congruence|]. rewrite W2. replace a with (r3_rank x) by congruence. auto.
      + right. apply Hfin. split; [exists x; auto|]. intros Ka. apply (known_iff size m bx2 faces sts2 faces_wf sts2_ok) in Ka; auto. congruence.
  Qed.
End Call.
