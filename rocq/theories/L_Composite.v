From Coq Require Import Sorting.Permutation Sorting.Sorted ZArith Lia Bool Reals Lra.
From Verif Require Import M_Bytes M_Transport M_Exchange M_Util M_MeshIf S_Grid S_MeshIf S_Halo M_LinePlane M_Composite S_Composite.
From Verif Require Import L_RealBase L_Grid L_Transport L_Exchange L_ListX L_CompCells.
From Coq Require Import List.
Import ListNotations.
Local Open Scope Z_scope.

(** * nearest hit *)
Section Scan.
  Context (p : v3) (test : bgeom -> option v3).
  Lemma hit_dist2_sq i : hit_dist2 p i = sq_dist p i.
  Proof. unfold hit_dist2, sq_dist. cbv zeta. ring. Qed.
  Definition prog (L : delem -> Prop) (st st' : kstate) : Prop :=
    (fst st' <= fst st)%R /\ (forall e i, L e -> test (de_geom e) = Some i -> (fst st' <= sq_dist p i)%R) /\
    (st' = st \/ exists e i, L e /\ test (de_geom e) = Some i /\ is_hit e i (match snd st' with Some h => h | None => mkBhit 0 0 i end) /\
       (exists h, snd st' = Some h) /\ fst st' = sq_dist p i /\ (sq_dist p i < fst st)%R).
  Lemma prog_refl L st : (forall e, ~ L e) -> prog L st st.
  Proof. intros H. split; [lra|]. split; [intros e i He; destruct (H e He)|auto]. Qed.
  Lemma prog_trans (L1 L2 L : delem -> Prop) s1 s2 s3 : (forall e, L e <-> L1 e \/ L2 e) -> prog L1 s1 s2 -> prog L2 s2 s3 -> prog L s1 s3.
  Proof.
    intros HL (A1 & B1 & C1) (A2 & B2 & C2). split; [lra|]. split.
    - intros e i He Ht. apply HL in He as [He|He]; [specialize (B1 e i He Ht); lra|eauto].
    - destruct C2 as [->|(e & i & He & Ht & Hh & Hs & Hd & Hl)].
      + destruct C1 as [->|(e & i & He & C1)]; [auto|]. right. exists e, i. rewrite HL. tauto.
      + right. exists e, i. rewrite HL. repeat (split; auto). lra.
  Qed.
  Lemma consider_prog st e : prog (fun x => x = e) st (consider p test st e).
  Proof.
    unfold consider. destruct (test (de_geom e)) as [i|] eqn:Et.
    - cbv zeta. rewrite hit_dist2_sq. case Rlt_bool_spec; intros H.
      + split; [cbn [fst]; lra|]. split; [intros e' i' -> E; rewrite Et in E; injection E as <-; cbn [fst]; lra|].
        right. exists e, i. cbn [fst snd]. split; auto. split; auto. split; [reflexivity|]. split; [eauto|]. auto.
      + split; [lra|]. split; [intros e' i' -> E; rewrite Et in E; injection E as <-; lra|auto].
    - split; [lra|]. split; [intros e' i' -> E; congruence|auto].
  Qed.
  Lemma fold_prog l : forall st, prog (fun x => In x l) st (fold_left (consider p test) l st).
  Proof.
    induction l as [|e l IH]; intros st; simpl; [apply prog_refl; auto|].
    eapply prog_trans; [|apply consider_prog|apply IH]. intros x. simpl. intuition.
  Qed.
  Lemma scan_prog tree sel cells : forall st,
    prog (fun e => exists c cc, In c cells /\ zget tree c = Some cc /\ In e (sel cc)) st (scan tree sel p test cells st).
  Proof.
    unfold scan. induction cells as [|c cells IH]; intros st; simpl.
    - apply prog_refl. intros e (c & cc & [] & _).
    - destruct (zget tree c) as [cc|] eqn:E.
      + eapply prog_trans; [|apply fold_prog|apply IH]. intros e. cbv beta. split.
        * intros (c' & cc' & [<-|Hc] & Ez & Hi); [rewrite E in Ez; injection Ez as <-; auto|right; eauto 6].
        * intros [Hi|(c' & cc' & Hc & H)]; [exists c, cc; auto|exists c', cc'; auto].
      + eapply prog_trans; [|apply prog_refl with (L := fun _ => False); auto|apply IH]. intros e. cbv beta. split.
        * intros (c' & cc' & [<-|Hc] & Ez & Hi); [congruence|right; eauto 6].
        * intros [[]|(c' & cc' & Hc & H)]; exists c', cc'; auto.
  Qed.
  Lemma scan_nearest tree sel cells :
    nearest p (candidate tree sel test cells) (snd (scan tree sel p test cells (DBL_MAX, None))).
  Proof.
    destruct (scan_prog tree sel cells (DBL_MAX, None)) as (A & B & C). cbn [fst snd] in A, C.
    assert (B' : forall e i, candidate tree sel test cells e i -> (fst (scan tree sel p test cells (DBL_MAX, None)) <= sq_dist p i)%R).
    { intros e i (c & cc & H1 & H2 & H3 & H4). apply (B e i); auto. exists c, cc; auto. }
    destruct C as [C|(e & i & (c & cc & H1 & H2 & H3) & Ht & Hh & [h Hs] & Hd & Hl)].
    - rewrite C in *. cbn [fst snd] in *. exact B'.
    - rewrite Hs in *. exists e, i. split; [exists c, cc; auto|]. split; auto. split; auto. intros e' i' Hc. rewrite <- Hd. eauto.
  Qed.
End Scan.
Lemma no_candidate sel test cells e i : ~ candidate [] sel test cells e i.
Proof. intros (c & cc & _ & H & _). discriminate. Qed.
Lemma nearest_2d tree lli prev cell m p q :
  nearest p (candidate tree cc_segs (lli p q) (scan_cells m prev cell)) (find_intersections_2d tree lli prev cell m p q).
Proof.
  unfold find_intersections_2d. destruct tree; [|apply scan_nearest]. simpl. intros e i H. destruct (no_candidate _ _ _ _ _ H).
Qed.
Lemma sq_dist_sym p i : sq_dist p i = sq_dist i p.
Proof. unfold sq_dist. ring. Qed.
Lemma nearest_3d tree nq nt grid prev cell m p q :
  nearest p (fun e i => candidate tree cc_quads (test_quad nq grid p q) (scan_cells m prev cell) e i \/
                        candidate tree cc_tris (test_tri nt p q) (scan_cells m prev cell) e i)
    (find_intersections_3d tree nq nt grid prev cell m p q).
Proof.
  unfold find_intersections_3d. destruct tree as [|kv tree']; [intros e i [H|H]; destruct (no_candidate _ _ _ _ _ H)|].
  set (tree := kv :: tree'). set (cells := scan_cells m prev cell).
  set (tq := test_quad nq grid p q). set (tt := test_tri nt p q). cbv zeta.
  pose proof (scan_nearest p tq tree cc_quads cells) as HQ. set (quad := snd _) in *.
  set (d0 := match quad with Some h => hit_dist2 (bh_point h) p | None => DBL_MAX end).
  assert (Hd : (d0 <= DBL_MAX)%R /\ (forall e i, candidate tree cc_quads tq cells e i -> (d0 <= sq_dist p i)%R) /\
     match quad with Some h => exists e i, candidate tree cc_quads tq cells e i /\ is_hit e i h /\ d0 = sq_dist p i /\ (d0 < DBL_MAX)%R | None => d0 = DBL_MAX end).
  { unfold d0. destruct quad as [h|]; simpl in HQ.
    - destruct HQ as (e & i & Hc & Hh & Hl & Hm). rewrite hit_dist2_sq, sq_dist_sym. unfold is_hit in Hh. rewrite Hh. cbn [bh_point]. split; [lra|]. split; [auto|].
      exists e, i. split; auto. split; [reflexivity|auto].
    - split; [lra|]. auto. }
  clearbody d0 quad. clear HQ. destruct Hd as (D1 & D2 & D3).
  destruct (scan_prog p tt tree cc_tris cells (d0, None)) as (A & B & C). cbn [fst snd] in A, C.
  set (r := scan tree cc_tris p tt cells (d0, None)) in *. clearbody r.
  assert (B' : forall e i, candidate tree cc_tris tt cells e i -> (fst r <= sq_dist p i)%R).
  { intros e i (c & cc & H1 & H2 & H3 & H4). apply (B e i); auto. exists c, cc; auto. }
  destruct C as [->|(e & i & (c & cc & H1 & H2 & H3) & Ht & Hh & [h Hs] & He & Hl)].
  - cbn [fst snd] in *. destruct quad as [h|].
    + destruct D3 as (e & i & Hc & Hh & E & Hl). exists e, i. split; [auto|]. split; auto. split; [lra|].
      intros e' i' [H|H]; [specialize (D2 _ _ H)|specialize (B' _ _ H)]; lra.
    + intros e i [H|H]; [specialize (D2 _ _ H)|specialize (B' _ _ H)]; lra.
  - rewrite Hs in *. exists e, i. split; [right; exists c, cc; auto|]. split; auto. split; [lra|].
    intros e' i' [H|H]; [specialize (D2 _ _ H)|specialize (B' _ _ H)]; lra.
Qed.

(** * groups *)
Definition listed (groups : list (Z * list Z)) : list Z := flat_map snd groups.
Lemma groups_insert_spec label comps : forall st,
  match groups_insert label comps st with
  | Ok st' => (NoDup (fst st) -> NoDup (fst st')) /\ fst st' = fst st ++ comps /\ (forall c, In c comps -> ~ In c (fst st)) /\ NoDup comps /\
      (forall c, zget (snd st') c = if existsb (Z.eqb c) comps then Some label else zget (snd st) c)
  | AssertFail => ~ (NoDup comps /\ forall c, In c comps -> ~ In c (fst st))
  | _ => False
  end.
Proof.
  induction comps as [|c comps IH]; intros st; simpl.
  - split; auto. split; [now rewrite app_nil_r|]. split; [intros _ []|]. split; [constructor|auto].
  - destruct (existsb (Z.eqb c) (fst st)) eqn:E.
    + intros [_ H]. apply existsb_exists in E as (x & Hx & Ex). apply Z.eqb_eq in Ex. subst x. apply (H c); simpl; auto.
    + assert (Hc : ~ In c (fst st)).
      { intros H. assert (existsb (Z.eqb c) (fst st) = true) by (apply existsb_exists; exists c; split; auto; apply Z.eqb_refl). congruence. }
      specialize (IH (fst st ++ [c], zassign (snd st) c label)). cbn [fst snd] in IH.
      destruct (groups_insert label comps _) as [st'| |]; [| |contradiction].
      * destruct IH as (A & B & C & D & F). split; [|split; [|split; [|split]]].
        -- intros H. apply A. apply NoDup_app_intro; auto; [repeat constructor; simpl; auto|]. intros x Hx [<-|[]]; auto.
        -- rewrite B, <- app_assoc. reflexivity.
        -- intros x [<-|Hx]; auto. intros H. apply (C x Hx). apply in_app_iff; auto.
        -- constructor; auto. intros H. apply (C c H). apply in_app_iff; simpl; auto.
        -- intros x. rewrite F, zget_zassign. destruct (existsb (Z.eqb x) comps) eqn:E1; [now rewrite orb_true_r|]. rewrite orb_false_r. now destruct (x =? c).
      * intros [H1 H2]. inversion H1; subst. apply IH. split; auto. intros x Hx Hi. apply in_app_iff in Hi as [Hi|[->|[]]]; [apply (H2 x); simpl; auto|auto].
Qed.

Lemma in_existsb c l : existsb (Z.eqb c) l = true <-> In c l.
Proof.
  rewrite existsb_exists. split; [intros (x & H & E); apply Z.eqb_eq in E; now subst|]. intros H. exists c. split; auto. apply Z.eqb_refl.
Qed.
Lemma groups_setup_spec groups : forall st, NoDup (fst st) ->
  match groups_setup groups st with
  | Ok st' => NoDup (fst st') /\ fst st' = fst st ++ listed groups /\
      (forall c g, ~ In c (fst st) -> zget (snd st) c = None -> (zget (snd st') c = Some g <-> in_group groups g c)) /\
      (forall c, In c (fst st) -> zget (snd st') c = zget (snd st) c)
  | AssertFail => ~ NoDup (fst st ++ listed groups)
  | _ => False
  end.
Proof.
  induction groups as [|[label comps] groups IH]; intros st Hn; simpl.
  - unfold listed. simpl. rewrite app_nil_r. split; auto. split; auto. split; auto. intros c g _ E. rewrite E. split; [discriminate|]. intros (? & [] & _).
  - pose proof (groups_insert_spec label comps st) as HI. destruct (groups_insert label comps st) as [st1| |]; simpl; [| |auto].
    + destruct HI as (A & B & C & D & F). specialize (IH st1 (A Hn)). destruct (groups_setup groups st1) as [st'| |]; [| |auto].
      * destruct IH as (A1 & B1 & C1 & D1). split; auto. split; [rewrite B1, B, <- app_assoc; reflexivity|]. split.
        -- intros c g Hc Hz. destruct (existsb (Z.eqb c) comps) eqn:E.
           ++ assert (Hin : In c comps) by now apply in_existsb. rewrite D1 by (rewrite B; apply in_app_iff; auto). rewrite F, E. split.
              ** intros [= <-]. exists comps. simpl. auto.
              ** intros (l & [[= <- <-]|Hl] & Hcl); auto. exfalso. rewrite B1 in A1. apply NoDup_app_inv in A1 as (_ & _ & A1). apply (A1 c).
                 { rewrite B. apply in_app_iff; auto. } { apply in_flat_map. exists (g, l). auto. }
           ++ assert (Hin : ~ In c comps) by (rewrite <- in_existsb, E; discriminate). rewrite C1.
              ** split; [intros (l & H1 & H2); exists l; simpl; auto|]. intros (l & [[= <- <-]|Hl] & Hcl); [tauto|exists l; auto].
              ** rewrite B, in_app_iff. tauto.
              ** rewrite F, E. auto.
        -- intros c Hc. rewrite D1 by (rewrite B, in_app_iff; auto). rewrite F. destruct (existsb (Z.eqb c) comps) eqn:E; auto. apply in_existsb in E. destruct (C c E Hc).
      * rewrite B, <- app_assoc in IH. exact IH.
    + intros H. apply HI. unfold listed in H. simpl in H. apply NoDup_app_inv in H as (_ & H & H2). apply NoDup_app_inv in H as (H & _ & _). split; auto.
      intros c Hc Hi. apply (H2 c Hi). apply in_app_iff; auto.
Qed.
Lemma sub_groups_spec groups result n label l : In (label, l) (sub_groups groups result n) ->
  NoDup l /\ forall i, In i l <-> (i < n)%nat /\ exists h, result i = Some h /\ bh_group h = label.
Proof.
  unfold sub_groups. intros H. apply in_map_iff in H as ([g c] & [= -> <-] & Hg). split; [apply NoDup_filter, NoDup_filter, seq_NoDup|].
  intros i. rewrite !filter_In, in_seq. cbn [fst]. destruct (result i) as [h|].
  - rewrite Z.eqb_eq. split; [intros [[H _] E]; split; [lia|eauto]|]. intros [H (h' & [= <-] & E)]. repeat split; auto; lia.
  - split; [intros [[_ H] _]; discriminate|]. intros [_ (h & H & _)]. discriminate.
Qed.
Lemma sub_groups_labels groups result n : map fst (sub_groups groups result n) = map fst groups.
Proof. unfold sub_groups. rewrite map_map. reflexivity. Qed.

(** * collecting *)
Section Collect.
  Context (ndim : nat) (c2g : list (Z * Z)) (contents : Z -> list cgeom).
  Hypothesis Hok : contents_ok ndim c2g contents.
  Lemma with_groups_ok l : (forall x, In x l -> exists g, zget c2g (cg_composite x) = Some g) ->
    exists k, with_groups c2g l = Ok k /\ Forall2 (stored c2g) l k.
  Proof.
    induction l as [|x l IH]; intros H; simpl; [exists []; split; auto; constructor|].
    destruct (H x) as [g Eg]; [simpl; auto|]. rewrite Eg. destruct IH as (k & Ek & Hk); [intros; apply H; simpl; auto|]. rewrite Ek. simpl.
    exists (mkDelem g (cg_geom x) :: k). split; auto. constructor; auto. split; auto.
  Qed.
  Lemma filter_ext_in2 {A} (f g : A -> bool) l : (forall x, In x l -> f x = g x) -> filter f l = filter g l.
  Proof. intros. now apply filter_ext_in. Qed.
  Lemma filter_none {A} (f : A -> bool) l : (forall x, In x l -> f x = false) -> filter f l = [].
  Proof. intros H. induction l as [|x l IH]; simpl; auto. rewrite H by (simpl; auto). apply IH. intros; apply H; simpl; auto. Qed.
  Lemma filter_all {A} (f : A -> bool) l : (forall x, In x l -> f x = true) -> filter f l = l.
  Proof. intros H. induction l as [|x l IH]; simpl; auto. rewrite H by (simpl; auto). f_equal. apply IH. intros; apply H; simpl; auto. Qed.
  Definition kind (k : Z) (l : list cgeom) := filter (fun x => bg_shape (cg_geom x) =? k) l.
  Lemma get_geometry_ok c : get_geometry ndim (contents c) = Ok (kind 4 (contents c), kind 3 (contents c), kind 2 (contents c)).
  Proof.
    destruct Hok as [Hd Hc]. unfold get_geometry. specialize (Hc c). destruct (contents c) as [|x0 l0]; [reflexivity|]. set (l := x0 :: l0) in *. clearbody l.
    destruct Hd as [-> | ->]; unfold shape_ok in Hc.
    - assert (H2 : forall x, In x l -> bg_shape (cg_geom x) = 2) by (intros x Hx; apply Z.eqb_eq; now apply Hc).
      replace (forallb _ l) with true by (symmetry; apply forallb_forall; intros x Hx; apply Z.eqb_eq; auto).
      unfold kind. rewrite (filter_none (fun x => bg_shape (cg_geom x) =? 4) l), (filter_none (fun x => bg_shape (cg_geom x) =? 3) l), (filter_all _ l); auto; intros x Hx; rewrite (H2 x Hx); reflexivity.
    - assert (H2 : forall x, In x l -> bg_shape (cg_geom x) = 3 \/ bg_shape (cg_geom x) = 4).
      { intros x Hx. destruct (Hc x Hx) as [H _]. apply orb_true_iff in H. rewrite !Z.eqb_eq in H. auto. }
      replace (forallb _ l) with true by (symmetry; apply forallb_forall; intros x Hx; apply Hc; auto).
      unfold kind. f_equal. rewrite (filter_none (fun x => bg_shape (cg_geom x) =? 2) l) by (intros x Hx; destruct (H2 x Hx) as [-> | ->]; reflexivity).
      f_equal. f_equal. apply filter_ext_in. intros x Hx. destruct (H2 x Hx) as [-> | ->]; reflexivity.
  Qed.
  Lemma kinds_nil c : kind 4 (contents c) = [] -> kind 3 (contents c) = [] -> kind 2 (contents c) = [] -> contents c = [].
  Proof.
    intros H4 H3 H2. destruct (contents c) as [|x l] eqn:E; auto. destruct Hok as [Hd Hc]. destruct (Hc c x) as [Hs _]; [rewrite E; simpl; auto|].
    exfalso. unfold kind in *. simpl in H4, H3, H2.
    destruct (bg_shape (cg_geom x) =? 4) eqn:E4; [discriminate|]. destruct (bg_shape (cg_geom x) =? 3) eqn:E3; [discriminate|].
    destruct (bg_shape (cg_geom x) =? 2) eqn:E2; [discriminate|]. unfold shape_ok in Hs. rewrite E2, E3, E4 in Hs.
    destruct Hd as [-> | ->]; discriminate.
  Qed.
  (** invariant of one rank *)
  Record cinv (st : cstate) : Prop := mkCinv {
    ci_full : forall c, In c (cs_collected st) -> contents c <> [] -> exists cc, zget (cs_tree st) c = Some cc /\ stores c2g (contents c) cc;
    ci_tree : forall c cc, zget (cs_tree st) c = Some cc -> In c (cs_collected st) /\ contents c <> [] }.
  Lemma collect_cell_ok st c : cinv st -> In c (cs_local st) -> exists st', collect_cell ndim c2g contents st c = Ok st' /\ cinv st' /\
    cs_held st' = cs_held st /\ cs_local st' = cs_local st /\ (forall x, In x (cs_collected st') <-> x = c \/ In x (cs_collected st)) /\
    (forall x cc, zget (cs_tree st) x = Some cc -> zget (cs_tree st') x = Some cc).
  Proof.
    intros [H1 H2] Hl. unfold collect_cell. destruct (existsb (Z.eqb c) (cs_collected st)) eqn:E.
    { apply in_existsb in E. exists st. split; auto. split; [split; auto|]. repeat split; auto; intros. destruct H as [->|]; auto. }
    rewrite (proj2 (in_existsb c (cs_local st)) Hl). cbn [negb]. cbv zeta. rewrite get_geometry_ok. cbn [obind fst snd].
    assert (Hnc : ~ In c (cs_collected st)) by (rewrite <- in_existsb, E; discriminate).
    destruct Hok as [Hd Hc]. assert (Hg : forall k x, In x (kind k (contents c)) -> exists g, zget c2g (cg_composite x) = Some g).
    { intros k x Hx. apply filter_In in Hx as [Hx _]. now apply (Hc c x). }
    destruct (with_groups_ok _ (Hg 4)) as (q & Eq & Hq). destruct (with_groups_ok _ (Hg 3)) as (t & Et & Htt). destruct (with_groups_ok _ (Hg 2)) as (s & Es & Hs).
    rewrite Eq, Et, Es. cbn [obind].
    set (tr := match q, t, s with [], [], [] => cs_tree st | _, _, _ => zassign (cs_tree st) c (mkColl q t s) end).
    eexists. split; [reflexivity|]. cbn [cs_held cs_local cs_collected cs_tree].
    assert (Htr : (contents c = [] /\ tr = cs_tree st) \/ (contents c <> [] /\ tr = zassign (cs_tree st) c (mkColl q t s))).
    { destruct (contents c) as [|x0 l0] eqn:Ec.
      - left. split; auto. inversion Hq; inversion Htt; inversion Hs; subst. reflexivity.
      - right. split; [discriminate|]. rewrite <- Ec in *. unfold tr. destruct q; [|reflexivity]. destruct t; [|reflexivity]. destruct s; [|reflexivity].
        exfalso. assert (contents c = []) by (apply kinds_nil; [inversion Hq|inversion Htt|inversion Hs]; auto). congruence. }
    assert (Hst : stores c2g (contents c) (mkColl q t s)) by (split; [|split]; assumption).
    assert (Hnone : zget (cs_tree st) c = None).
    { destruct (zget (cs_tree st) c) as [cc|] eqn:Ez; auto. destruct (H2 c cc Ez). contradiction. }
    clearbody tr. split.
    - split; cbn [cs_collected cs_tree].
      + intros x Hx Hne. apply in_set_insert in Hx as [->|Hx].
        * destruct Htr as [[? _]|[_ ->]]; [congruence|]. exists (mkColl q t s). rewrite zget_zassign, Z.eqb_refl. auto.
        * destruct (H1 x Hx Hne) as (cc & Ez & Hcc). exists cc. split; auto. destruct Htr as [[_ ->]|[_ ->]]; auto.
          rewrite zget_zassign. destruct (Z.eqb_spec x c) as [->|]; auto. congruence.
      + intros x cc Hx. rewrite in_set_insert. destruct Htr as [[_ ->]|[Hne ->]]; [destruct (H2 x cc Hx); auto|].
        rewrite zget_zassign in Hx. destruct (Z.eqb_spec x c) as [->|]; auto. destruct (H2 x cc Hx); auto.
    - split; auto. split; auto. split; [intros x; apply in_set_insert|]. intros x cc Hx. destruct Htr as [[_ ->]|[_ ->]]; auto.
      rewrite zget_zassign. destruct (Z.eqb_spec x c) as [->|]; auto. congruence.
  Qed.
  Lemma collect_cells_ok cells : forall st, cinv st -> (forall c, In c cells -> In c (cs_local st)) -> exists st', collect_cells ndim c2g contents st cells = Ok st' /\ cinv st' /\
    cs_held st' = cs_held st /\ cs_local st' = cs_local st /\ (forall x, In x (cs_collected st') <-> In x cells \/ In x (cs_collected st)) /\
    (forall x cc, zget (cs_tree st) x = Some cc -> zget (cs_tree st') x = Some cc).
  Proof.
    induction cells as [|c cells IH]; intros st Hi Hl; simpl; [exists st; split; auto; split; auto; split; auto; split; auto; split; auto; intros x; tauto|].
    destruct (collect_cell_ok st c Hi (Hl c (or_introl eq_refl))) as (st1 & E1 & I1 & A1 & B1 & C1 & D1). rewrite E1. cbn [obind].
    destruct (IH st1 I1) as (st2 & E2 & I2 & A2 & B2 & C2 & D2); [intros x Hx; rewrite B1; apply Hl; simpl; auto|].
    exists st2. split; auto. split; auto. split; [congruence|]. split; [congruence|]. split; [|auto].
    intros x. rewrite C2, C1. intuition.
  Qed.
  (** all ranks, all histories *)
  Definition rinv (asked : list Z) (st : cstate) : Prop :=
    cinv st /\ (forall c, In c (cs_held st) <-> In c asked) /\ (forall c, In c (cs_collected st) <-> In c asked) /\ (forall c, In c (cs_held st) -> In c (cs_local st)).
  Lemma new_cells_in st req c : In c (new_cells st req) <-> In c req /\ ~ In c (cs_held st).
  Proof. unfold new_cells. rewrite filter_In, negb_true_iff, <- not_true_iff_false, in_existsb. tauto. Qed.
  Lemma not_entered size sts reqs a : gather_entered size sts reqs = false -> 0 <= a < size -> new_cells (sts a) (reqs a) = [].
  Proof.
    unfold gather_entered. intros H Ha. apply negb_false_iff, Z.eqb_eq in H.
    set (l := map _ _) in H. destruct (L_Util.fold_max_ge l (-1)) as [_ HF]. rewrite Forall_forall in HF.
    specialize (HF (Z.of_nat (length (new_cells (sts a) (reqs a))))). rewrite H in HF.
    assert (Z.of_nat (length (new_cells (sts a) (reqs a))) <= 0) by (apply HF; unfold l; apply in_map_iff; exists a; split; auto; now apply in_ranks).
    destruct (new_cells (sts a) (reqs a)); auto. simpl in *. lia.
  Qed.
  Lemma collect_step size sts reqs a asked : 0 <= a < size -> rinv asked (sts a) -> exists st', collect_geometry size ndim c2g contents sts reqs a = Ok st' /\
    rinv (asked ++ reqs a) st' /\ (forall x cc, zget (cs_tree (sts a)) x = Some cc -> zget (cs_tree st') x = Some cc).
  Proof.
    intros Ha (I & H1 & H2 & H3). unfold collect_geometry. set (en := gather_entered size sts reqs).
    assert (Hen : en = false -> new_cells (sts a) (reqs a) = []) by (intros E; now apply (not_entered size sts reqs a)).
    clearbody en. set (t0 := transport_collect en (sts a) (reqs a)).
    assert (Hh : forall c, In c (cs_held t0) <-> In c (asked ++ reqs a)).
    { intros c. unfold t0, transport_collect. cbn [cs_held]. rewrite fold_insert_in, new_cells_in, in_app_iff, <- H1.
      destruct (in_dec Z.eq_dec c (cs_held (sts a))); tauto. }
    assert (Hl : forall c, In c (cs_held t0) -> In c (cs_local t0)).
    { intros c Hc. unfold t0, transport_collect in *. cbn [cs_held cs_local] in *. destruct en.
      - rewrite fold_insert_in in *. intuition.
      - rewrite Hen in Hc by auto. simpl in Hc. auto. }
    destruct (collect_cells_ok (reqs a) t0) as (st' & E & I' & A & B & C & D).
    - split; apply I.
    - intros c Hc. apply Hl, Hh, in_app_iff. auto.
    - exists st'. split; auto. split; [|exact D]. split; auto. rewrite A, B. split; auto. split; auto.
      intros c. rewrite C. unfold t0, transport_collect. cbn [cs_collected]. rewrite H2, in_app_iff. tauto.
  Qed.
  Lemma cinv_init : rinv [] cs_init.
  Proof. split; [split; [intros c []|intros c cc; discriminate]|]. repeat split; auto. Qed.
  Lemma asked_app hist reqs a : asked_by (hist ++ [reqs]) a = asked_by hist a ++ reqs a.
  Proof. unfold asked_by. rewrite flat_map_app. simpl. now rewrite app_nil_r. Qed.
  Lemma history_inv size hist sts : collect_history size ndim c2g contents hist sts -> forall a, 0 <= a < size -> rinv (asked_by hist a) (sts a).
  Proof.
    induction 1 as [|hist sts reqs sts' H IH Hs]; intros a Ha; [apply cinv_init|].
    rewrite asked_app. destruct (collect_step size sts reqs a _ Ha (IH a Ha)) as (st' & E & Hr & _). rewrite Hs in E by auto. injection E as <-. auto.
  Qed.
  Lemma rinv_collected asked st : rinv asked st -> holds_cells c2g contents asked st.
  Proof.
    intros ([F T] & H1 & H2 & H3). split; auto. split; [intros c Hc; apply F; now apply H2|]. intros c cc Hc. destruct (T c cc Hc) as [A B]. split; auto. now apply H2.
  Qed.
  Lemma history_step size hist sts reqs : collect_history size ndim c2g contents hist sts ->
    exists sts', (forall a, 0 <= a < size -> collect_geometry size ndim c2g contents sts reqs a = Ok (sts' a)) /\
      collect_history size ndim c2g contents (hist ++ [reqs]) sts' /\
      forall a, 0 <= a < size -> forall c cc, zget (cs_tree (sts a)) c = Some cc -> zget (cs_tree (sts' a)) c = Some cc.
  Proof.
    intros H. exists (fun a => match collect_geometry size ndim c2g contents sts reqs a with Ok s => s | _ => cs_init end).
    assert (G : forall a, 0 <= a < size -> exists st', collect_geometry size ndim c2g contents sts reqs a = Ok st' /\
       forall x cc, zget (cs_tree (sts a)) x = Some cc -> zget (cs_tree st') x = Some cc).
    { intros a Ha. destruct (collect_step size sts reqs a _ Ha (history_inv size hist sts H a Ha)) as (st' & E & _ & T). eauto. }
    assert (G1 : forall a, 0 <= a < size -> collect_geometry size ndim c2g contents sts reqs a = Ok (match collect_geometry size ndim c2g contents sts reqs a with Ok s => s | _ => cs_init end)).
    { intros a Ha. destruct (G a Ha) as (st' & E & _). now rewrite E. }
    split; [exact G1|]. split; [econstructor; eauto|]. intros a Ha. destruct (G a Ha) as (st' & E & T). now rewrite E.
  Qed.
  Lemma held_nothing_new size hist sts a req : collect_history size ndim c2g contents hist sts -> 0 <= a < size ->
    (forall c, In c req -> In c (asked_by hist a)) -> new_cells (sts a) req = [].
  Proof.
    intros H Ha Hr. destruct (history_inv size hist sts H a Ha) as (_ & H1 & _). unfold new_cells. apply filter_none. intros c Hc.
    apply negb_false_iff, in_existsb, H1. auto.
  Qed.
End Collect.
