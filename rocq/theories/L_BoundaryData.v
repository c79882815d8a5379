From Coq Require Import Reals Psatz Sorting.Permutation.
From Verif Require Import M_Bytes M_Transport M_Exchange M_Util M_MeshIf M_LinePlane M_Composite M_BoundaryData.
From Verif Require Import S_Composite S_BoundaryData L_Exchange.
From Coq Require Import List.
Import ListNotations.
Local Open Scope Z_scope.

(** ** previous positions *)
Lemma mem_nat_in i l : mem_nat i l = true <-> In i l.
Proof.
  unfold mem_nat. rewrite existsb_exists. split.
  - intros (x & H & E). apply Nat.eqb_eq in E. now subst.
  - intros H. exists i. split; auto. apply Nat.eqb_refl.
Qed.
Lemma grun_app ndim ncomp init a : forall b st, grun ndim ncomp init (a ++ b) st = obind (grun ndim ncomp init a st) (grun ndim ncomp init b).
Proof.
  induction a as [|o r IH]; intros b st; cbn [grun app obind]. { reflexivity. }
  destruct (gstep ndim ncomp init o st) as [s'| |]; cbn [obind]; auto.
Qed.
Lemma grun_ok ndim init ops : forall st, exists st', grun ndim ndim init ops st = Ok st' /\
  gs_pos st' = position_after ops (gs_pos st) /\
  (forall i d p, not_saved i ops -> gs_prev st = Some p -> exists p', gs_prev st' = Some p' /\ p' i d = p i d).
Proof.
  induction ops as [|o r IH]; intros st.
  - exists st. cbn. split; auto. split; auto. intros i d p _ H. exists p. auto.
  - destruct o as [s|q]; cbn [grun gstep].
    + unfold pre_integration. rewrite Nat.eqb_refl. cbn [obind].
      set (st1 := mkGstate _ _). destruct (IH st1) as (st' & E & P & Q). exists st'. split; auto. split; auto.
      intros i d p [Hi Hr] Hp. unfold st1 in Q. cbn [gs_prev] in Q.
      destruct (Q i d _ Hr eq_refl) as (p' & E' & V). exists p'. split; auto. rewrite V, Hp.
      destruct (mem_nat i s) eqn:M; auto. apply mem_nat_in in M. contradiction.
    + cbn [obind]. set (st1 := mkGstate _ _). destruct (IH st1) as (st' & E & P & Q). exists st'. split; auto.
Qed.

(** ** normals *)
Lemma push_normals_ok ndim l : forall ids data ids' data', push_normals ndim l (ids, data) = Ok (ids', data') ->
  exists ns, Forall2 (fun x n => element_normal ndim (cg_geom x) = Ok n) l ns /\ ids' = ids ++ map cg_id l /\ data' = data ++ concat ns.
Proof.
  induction l as [|x r IH]; intros ids data ids' data' H; cbn [push_normals] in H.
  - inversion H. subst. exists []. rewrite !app_nil_r. auto.
  - destruct (element_normal ndim (cg_geom x)) as [n| |] eqn:E; cbn [obind] in H; try discriminate.
    cbn [fst snd] in H. destruct (IH _ _ _ _ H) as (ns & F & -> & ->). exists (n :: ns).
    split; [constructor; auto|]. cbn [map concat]. rewrite <- !app_assoc. auto.
Qed.
Lemma read_from_app a : forall n b, read_from (a ++ n ++ b) (length a) (length n) = Ok n.
Proof.
  intros n. revert a. induction n as [|x n IH]; intros a b; cbn [length read_from]. { reflexivity. }
  rewrite nth_error_app2, Nat.sub_diag by lia. cbn [nth_error app].
  replace (a ++ x :: n ++ b) with ((a ++ [x]) ++ n ++ b) by (now rewrite <- app_assoc).
  replace (S (length a)) with (length (a ++ [x])) by (rewrite app_length; cbn; lia). rewrite IH. reflexivity.
Qed.
Lemma concat_len {A} (k : nat) (l : list (list A)) : Forall (fun x => length x = k) l -> length (concat l) = (k * length l)%nat.
Proof. induction 1; cbn [concat length]. { lia. } rewrite app_length, IHForall. lia. Qed.
Lemma read_concat k ns ix n : Forall (fun x => length x = k) ns -> nth_error ns ix = Some n ->
  read_from (concat ns) (k * ix) k = Ok n.
Proof.
  intros F H. destruct (nth_error_split _ _ H) as (a & b & -> & <-).
  rewrite concat_app. cbn [concat]. apply Forall_app in F. destruct F as [Fa Fb]. inversion Fb. subst.
  rewrite <- (concat_len _ _ Fa). apply read_from_app.
Qed.
Lemma element_normal_len ndim g n : ndim = 2%nat \/ ndim = 3%nat -> element_normal ndim g = Ok n -> length n = ndim.
Proof.
  intros [->| ->] H; cbn [element_normal] in H.
  - destruct (bg_verts g) as [|a [|b [|]]]; try discriminate. destruct (normal_1d _ _ _); inversion H; reflexivity.
  - destruct (normal_2d _ _); inversion H; reflexivity.
Qed.
Lemma add_normals_get stride data ids : forall ix m id p, zget (add_normals stride data ids ix m) id = Some p ->
  zget m id = Some p \/ exists j, nth_error ids j = Some id /\ p = (data, (stride * (ix + j))%nat).
Proof.
  induction ids as [|a r IH]; intros ix m id p H; cbn [add_normals] in H. { now left. }
  apply IH in H. destruct H as [H|(j & Hj & ->)].
  - rewrite zget_zassign in H. destruct (Z.eqb_spec id a).
    + inversion H. subst. right. exists 0%nat. split; [reflexivity|]. now rewrite Nat.add_0_r.
    + now left.
  - right. exists (S j). split; [exact Hj|]. f_equal. f_equal. lia.
Qed.
Lemma add_normals_keys stride data ids : forall ix m id, zget m id <> None \/ In id ids -> zget (add_normals stride data ids ix m) id <> None.
Proof.
  induction ids as [|a r IH]; intros ix m id H; cbn [add_normals]. { destruct H as [H|[]]; auto. }
  apply IH. rewrite zget_zassign. destruct (Z.eqb_spec id a).
  - left. discriminate.
  - destruct H as [H|[H|H]]; try (now left); try (now right); congruence.
Qed.

Definition ninv (ndim : nat) (contents : Z -> list cgeom) (st : cstate * list (Z * nptr)) : Prop :=
  (forall id p, zget (snd st) id = Some p -> exists c x n, In x (contents c) /\ cg_id x = id /\
     element_normal ndim (cg_geom x) = Ok n /\ read_from (fst p) (snd p) ndim = Ok n) /\
  (forall c cc e, zget (cs_tree (fst st)) c = Some cc -> In e (cc_quads cc) \/ In e (cc_tris cc) \/ In e (cc_segs cc) ->
     exists x, In x (contents c) /\ de_geom e = cg_geom x /\ zget (snd st) (cg_id x) <> None).

Lemma with_groups_in c2g l : forall r, with_groups c2g l = Ok r -> forall e, In e r -> exists x, In x l /\ de_geom e = cg_geom x.
Proof.
  induction l as [|x l IH]; intros r H e He; cbn [with_groups] in H.
  - inversion H. subst. destruct He.
  - destruct (zget c2g (cg_composite x)); try discriminate. destruct (with_groups c2g l) as [r'| |]; cbn [obind] in H; try discriminate.
    inversion H. subst. destruct He as [<-|He].
    + exists x. split; [now left|reflexivity].
    + destruct (IH r' eq_refl e He) as (y & Hy & E). exists y. split; [now right|exact E].
Qed.
Lemma get_geometry_cases ndim l q t s : get_geometry ndim l = Ok (q, t, s) ->
  (forall x, In x (q ++ t ++ s) -> In x l) /\
  (l = [] /\ q = [] /\ t = [] /\ s = [] \/ ndim = 3%nat /\ s = [] \/ ndim = 2%nat /\ q = [] /\ t = [] /\ s <> []).
Proof.
  intros H. unfold get_geometry in H. destruct l as [|a l0].
  - inversion H. subst. split; [intros x []|]. now left.
  - set (l := a :: l0) in *. destruct ndim as [|[|[|[|]]]]; try discriminate.
    + destruct (forallb _ l); inversion H. subst. split; [auto|]. right. right. repeat split; auto. discriminate.
    + destruct (forallb _ l); [|discriminate]. assert (Hl : l <> []) by discriminate. clearbody l. inversion H. subst. split; [|right; left; auto].
      intros x Hx. rewrite app_nil_r in Hx. apply in_app_or in Hx. destruct Hx as [Hx|Hx]; eapply (fun f H => proj1 (proj1 (filter_In f x l) H)); exact Hx.
Qed.
Lemma collect_cell_tree ndim c2g contents st c st' : collect_cell ndim c2g contents st c = Ok st' ->
  existsb (Z.eqb c) (cs_collected st) = false ->
  exists q t s q' t' s', get_geometry ndim (contents c) = Ok (q, t, s) /\
    with_groups c2g q = Ok q' /\ with_groups c2g t = Ok t' /\ with_groups c2g s = Ok s' /\
    cs_tree st' = match q', t', s' with [], [], [] => cs_tree st | _, _, _ => zassign (cs_tree st) c (mkColl q' t' s') end.
Proof.
  intros H E. unfold collect_cell in H. rewrite E in H. destruct (negb _); try discriminate.
  destruct (get_geometry ndim (contents c)) as [[[q t] s]| |]; cbn [obind fst snd] in H; try discriminate.
  destruct (with_groups c2g q) as [q'| |] eqn:Eq; cbn [obind] in H; try discriminate.
  destruct (with_groups c2g t) as [t'| |] eqn:Et; cbn [obind] in H; try discriminate.
  destruct (with_groups c2g s) as [s'| |] eqn:Es; cbn [obind] in H; try discriminate.
  inversion H. subst. exists q, t, s, q', t', s'. cbn [cs_tree]. auto.
Qed.
Lemma collect_cell_same ndim c2g contents st c st' : collect_cell ndim c2g contents st c = Ok st' ->
  existsb (Z.eqb c) (cs_collected st) = true -> st' = st.
Proof. intros H E. unfold collect_cell in H. rewrite E in H. now inversion H. Qed.
Lemma Forall2_nth {A B} (P : A -> B -> Prop) l r : Forall2 P l r -> forall i a, nth_error l i = Some a -> exists b, nth_error r i = Some b /\ P a b.
Proof. induction 1; intros [|i] a H'; cbn in H'; try discriminate; cbn; eauto. inversion H'. subst. eauto. Qed.

Lemma ninv_step ndim c2g contents st c st' : ndim = 2%nat \/ ndim = 3%nat -> ninv ndim contents st ->
  collect_cell_n ndim c2g contents st c = Ok st' -> ninv ndim contents st'.
Proof.
  intros Hd [I1 I2] H. unfold collect_cell_n in H.
  destruct (collect_cell ndim c2g contents (fst st) c) as [s1| |] eqn:C; cbn [obind] in H; try discriminate.
  destruct (existsb (Z.eqb c) (cs_collected (fst st))) eqn:E.
  { apply collect_cell_same in C; auto. inversion H. subst. split; auto. }
  destruct (collect_cell_tree _ _ _ _ _ _ C E) as (q & t & s & q' & t' & s' & G & Gq & Gt & Gs & T). rewrite G in H. cbn [obind fst snd] in H.
  destruct (push_normals ndim (q ++ t ++ s) ([], [])) as [[ids data]| |] eqn:P; cbn [obind fst snd] in H; try discriminate.
  destruct (push_normals_ok _ _ _ _ _ _ P) as (ns & F & Hids & Hdata). cbn [app] in Hids, Hdata.
  destruct (get_geometry_cases _ _ _ _ _ G) as [Gin Gk].
  set (nm := match q, t, s with [], [], [] => snd st | _, _, _ => add_normals (normal_stride s) data ids 0 (snd st) end) in H.
  assert (NM : (q ++ t ++ s = [] /\ nm = snd st) \/ (q ++ t ++ s <> [] /\ nm = add_normals (normal_stride s) data ids 0 (snd st))).
  { unfold nm. destruct q; [destruct t; [destruct s|]|]; cbn; try (left; split; reflexivity); right; split; try reflexivity; discriminate. }
  assert (STR : q ++ t ++ s <> [] -> normal_stride s = ndim).
  { intros Hne. destruct Gk as [(_ & -> & -> & ->)|[[-> ->]|(-> & -> & -> & Hs)]]; [exfalso; now apply Hne|reflexivity|]. destruct s; [congruence|reflexivity]. }
  inversion H. subst st'. unfold ninv. cbn [fst snd]. fold nm. split.
  - intros id p Hp. destruct NM as [[_ E1]|[Hne E1]]; rewrite E1 in Hp. { now apply I1. }
    apply add_normals_get in Hp. destruct Hp as [Hp|(j & Hj & ->)]. { now apply I1. }
    rewrite Hids, nth_error_map in Hj. destruct (nth_error (q ++ t ++ s) j) as [x|] eqn:Ex; cbn in Hj; [|discriminate].
    inversion Hj. destruct (Forall2_nth _ _ _ F _ _ Ex) as (n & Hn & En). exists c, x, n.
    split; [apply Gin; apply (nth_error_In _ _ Ex)|]. split; auto. split; auto. cbn [fst snd].
    rewrite (STR Hne), Hdata, Nat.add_0_l. apply read_concat; auto.
    clear - F Hd. induction F; constructor; auto. now apply (element_normal_len ndim (cg_geom x)).
  - intros c0 cc e Hc He.
    assert (Old : forall id, zget (snd st) id <> None -> zget nm id <> None).
    { intros id Hid. destruct NM as [[_ ->]|[_ ->]]; auto. apply add_normals_keys. now left. }
    assert (Cases : zget (cs_tree (fst st)) c0 = Some cc \/ (c0 = c /\ cc = mkColl q' t' s')).
    { rewrite T in Hc. destruct q' as [|? ?]; [destruct t' as [|? ?]; [destruct s' as [|? ?]; [now left|]|]|];
      rewrite zget_zassign in Hc; destruct (Z.eqb_spec c0 c); auto; right; inversion Hc; auto. }
    destruct Cases as [Hc'|[-> ->]].
    + destruct (I2 _ _ _ Hc' He) as (x & Hx & Eg & Hn). exists x. auto.
    + cbn [cc_quads cc_tris cc_segs] in He.
      assert (X : exists x, In x (q ++ t ++ s) /\ de_geom e = cg_geom x).
      { destruct He as [He|[He|He]];
        [destruct (with_groups_in _ _ _ Gq _ He) as (x & Hx & Ex)|destruct (with_groups_in _ _ _ Gt _ He) as (x & Hx & Ex)|destruct (with_groups_in _ _ _ Gs _ He) as (x & Hx & Ex)];
        exists x; split; auto; rewrite !in_app_iff; auto. }
      destruct X as (x & Hx & Ex). exists x. split; [now apply Gin|]. split; auto.
      destruct NM as [[Hnil _]|[_ ->]]; [rewrite Hnil in Hx; destruct Hx|].
      apply add_normals_keys. right. rewrite Hids. now apply in_map.
Qed.
Lemma nreach_inv ndim c2g contents st : ndim = 2%nat \/ ndim = 3%nat -> nreach ndim c2g contents st -> ninv ndim contents st.
Proof.
  intros Hd H. induction H.
  - split; cbn; intros; discriminate.
  - eapply ninv_step; eauto.
  - destruct IHnreach as [A B]. split; cbn [fst snd]; auto. rewrite H1. exact B.
Qed.
Lemma nreach_normal ndim c2g contents st e : ndim = 2%nat \/ ndim = 3%nat -> ids_unique contents -> nreach ndim c2g contents st ->
  collected_element (cs_tree (fst st)) e ->
  exists n, element_normal ndim (de_geom e) = Ok n /\ read_normal ndim (snd st) (bg_id (de_geom e)) = Ok n.
Proof.
  intros Hd U R (c & cc & Hc & He). destruct (nreach_inv _ _ _ _ Hd R) as [A B].
  destruct (B _ _ _ Hc He) as (x & Hx & Eg & Hn). unfold read_normal. rewrite Eg. unfold cg_id in Hn.
  destruct (zget (snd st) (bg_id (cg_geom x))) as [p|] eqn:E; [|congruence].
  destruct (A _ _ E) as (c' & x' & n & Hx' & Ei & En & Er). exists n.
  rewrite (U c c' x x' Hx Hx' (eq_sym Ei)). auto.
Qed.
Lemma scaled_unit n s : (0 < s)%R -> (s * s = dot n n)%R ->
  (vx n * (1 / s) * (vx n * (1 / s)) + vy n * (1 / s) * (vy n * (1 / s)) + vz n * (1 / s) * (vz n * (1 / s)) = 1)%R.
Proof. intros P E. unfold dot in E. transitivity ((vx n * vx n + vy n * vy n + vz n * vz n) / (s * s))%R; [field; lra|]. rewrite <- E. field. lra. Qed.
Lemma element_normal_unit ndim g n : ndim = 2%nat \/ ndim = 3%nat -> element_normal ndim g = Ok n -> unit_normal ndim g n.
Proof.
  intros [->| ->] H; cbn [element_normal unit_normal] in *.
  - destruct (bg_verts g) as [|a [|b [|]]]; try discriminate. exists a, b. split; auto. unfold normal_1d in H. cbn [fst snd] in H.
    set (dx := (vx b - vx a)%R) in *. set (dy := (vy b - vy a)%R) in *.
    destruct (Flocq.Core.Raux.Req_bool_spec (- dy * - dy + dx * dx) 0) as [Z0|Z0].
    + inversion H. right. split; auto. assert (X : (dx * dx = 0)%R) by nra. assert (Y : (dy * dy = 0)%R) by nra.
      apply Rmult_integral in X, Y. unfold dx, dy in *. split; lra.
    + inversion H. left. eexists _, _. split; [reflexivity|].
      assert (P : (0 < - dy * - dy + dx * dx)%R) by (destruct (Rtotal_order (- dy * - dy + dx * dx) 0) as [?|[?|?]]; nra).
      pose proof (sqrt_lt_R0 _ P) as Q. pose proof (sqrt_sqrt _ (Rlt_le _ _ P)) as Q2.
      split; [|field; lra].
      transitivity ((- dy * - dy + dx * dx) / (sqrt (- dy * - dy + dx * dx) * sqrt (- dy * - dy + dx * dx)))%R; [field; lra|].
      rewrite Q2. field. lra.
  - unfold normal_2d in H. destruct (bg_verts g) as [|v0 [|v1 r]] eqn:Ev; try discriminate.
    set (v2 := last (v0 :: v1 :: r) v0) in *. set (nt := cross (vsub v1 v0) (vsub v2 v0)) in *.
    destruct (Flocq.Core.Raux.Req_bool_spec (dot nt nt) 0) as [Z0|Z0]; [discriminate|].
    assert (P : (0 < dot nt nt)%R) by (unfold dot in *; destruct (Rtotal_order (vx nt * vx nt + vy nt * vy nt + vz nt * vz nt) 0) as [?|[?|?]]; nra).
    pose proof (sqrt_lt_R0 _ P) as Q. pose proof (sqrt_sqrt _ (Rlt_le _ _ P)) as Q2.
    assert (O : forall w, w = v1 \/ w = v2 -> (vx nt * (vx w - vx v0) + vy nt * (vy w - vy v0) + vz nt * (vz w - vz v0) = 0)%R).
    { intros w Hw. unfold nt, cross, vsub. cbn [vx vy vz]. destruct Hw as [-> | ->]; ring. }
    clearbody nt. injection H as <-. eexists _, _, _, v0, v1, r. split; [reflexivity|]. split; [|split; [reflexivity|]].
    + apply scaled_unit; auto.
    + intros w Hw. specialize (O w Hw).
      transitivity ((vx nt * (vx w - vx v0) + vy nt * (vy w - vy v0) + vz nt * (vz w - vz v0)) * (1 / sqrt (dot nt nt)))%R; [cbn [vx vy vz]; ring|].
      rewrite O. ring.
Qed.
