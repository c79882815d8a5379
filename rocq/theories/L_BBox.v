(** Lemmas for C86. *)
From Verif Require Import M_RealBase L_RealBase M_Loop S_Loop L_Loop S_Bary L_Bary S_Coord M_Coord L_Coord M_Generic3D M_BBox S_Newton S_Generic3D L_Generic3D L_Generic3D2 S_BBox L_Coarse2 L_Sol.
From Coq Require Import List Permutation.
Import ListNotations.
Open Scope R_scope.

Lemma bb_sample_ok s x d gs f gid loc : good_xmap s x -> written s x d ->
  bb_sample d gs (f, gid, loc) = Some (elem_X s x (to_loc3 s (bb_eta gs f gid)) 0, elem_X s x (to_loc3 s (bb_eta gs f gid)) 1, elem_X s x (to_loc3 s (bb_eta gs f gid)) 2).
Proof.
  intros Hg W. unfold bb_sample. rewrite (wr_shape _ _ _ W). destruct (generic3 s (bb_eta gs f gid)) as [_ ->].
  destruct (resid_ok s x d (to_loc3 s (bb_eta gs f gid)) (0, 0, 0) loc Hg W) as (l & E & _). rewrite E. cbn [bind fst snd comp].
  f_equal. apply pair3; ring.
Qed.
Definition Xat (s : shape3) (x : xmap) (gs : nat) (a : nat) (it : nat * nat) : R := elem_X s x (to_loc3 s (bb_eta gs (fst it) (snd it))) a.
Lemma bb_run_ok s x d gs : good_xmap s x -> written s x d -> forall items lo hi,
  bb_run d gs items (lo, hi) = Some
    ((fold_left fmin (map (Xat s x gs 0) (map fst items)) (comp lo 0), fold_left fmin (map (Xat s x gs 1) (map fst items)) (comp lo 1), fold_left fmin (map (Xat s x gs 2) (map fst items)) (comp lo 2)),
     (fold_left fmax (map (Xat s x gs 0) (map fst items)) (comp hi 0), fold_left fmax (map (Xat s x gs 1) (map fst items)) (comp hi 1), fold_left fmax (map (Xat s x gs 2) (map fst items)) (comp hi 2))).
Proof.
  intros Hg W. induction items as [|[[f gid] loc] r IH]; intros lo hi.
  - destruct lo as [[? ?] ?], hi as [[? ?] ?]. reflexivity.
  - cbn [bb_run]. rewrite (bb_sample_ok s x d gs f gid loc Hg W). cbn [bind]. destruct lo as [[l0 l1] l2], hi as [[h0 h1] h2]. cbn [bb_reduce]. rewrite IH. reflexivity.
Qed.
Lemma fold_min_least (l : list R) : l <> [] -> (forall v, In v l -> v <= DBL_MAX) ->
  In (fold_left fmin l DBL_MAX) l /\ forall v, In v l -> fold_left fmin l DBL_MAX <= v.
Proof.
  intros Hn Hb. destruct (fold_fmin_le l DBL_MAX) as [A B]. rewrite Forall_forall in B. split; auto.
  destruct (fold_fmin_in l DBL_MAX) as [E|E]; auto. destruct l as [|v l]; [easy|].
  assert (Hv : fold_left fmin (v :: l) DBL_MAX <= v) by (apply B; now left). pose proof (Hb v (or_introl eq_refl)). left. lra.
Qed.
Lemma fold_max_largest (l : list R) : l <> [] -> (forall v, In v l -> - DBL_MAX <= v) ->
  In (fold_left fmax l (- DBL_MAX)) l /\ forall v, In v l -> v <= fold_left fmax l (- DBL_MAX).
Proof.
  intros Hn Hb. destruct (fold_fmax_ge l (- DBL_MAX)) as [A B]. rewrite Forall_forall in B. split; auto.
  destruct (fold_fmax_in l (- DBL_MAX)) as [E|E]; auto. destruct l as [|v l]; [easy|].
  assert (Hv : v <= fold_left fmax (v :: l) (- DBL_MAX)) by (apply B; now left). pose proof (Hb v (or_introl eq_refl)). left. lra.
Qed.
(** the work items are the points of the face grid *)
Lemma bb_eta_grid gs f gid : (2 <= gs)%nat -> (f < 6)%nat -> (gid < gs * gs)%nat -> face_grid gs (bb_eta gs f gid).
Proof.
  intros Hgs Hf Hg. assert (Hx : (gid mod gs < gs)%nat) by (apply Nat.mod_upper_bound; lia).
  assert (Hy : (gid / gs < gs)%nat) by (apply Nat.div_lt_upper_bound; lia).
  unfold face_grid, bb_eta. set (ix := (gid mod gs)%nat) in *. set (iy := (gid / gs)%nat) in *.
  assert (D : INR (gs - 1) <> 0) by (apply not_0_INR; lia).
  exists (Nat.div2 f). destruct f as [|[|[|[|[|[|f]]]]]]; [..|lia]; cbn [Nat.div2]; (split; [lia|]); cbn [tab nth kc kcx kcy comp];
  (split; [first [left; lra|right; lra]|]); intros b Hb Hne; destruct b as [|[|[|b]]]; try lia; cbn [tab nth kc kcx kcy comp];
  first [exists ix; split; [exact Hx|]; field; exact D | exists iy; split; [exact Hy|]; field; exact D].
Qed.
Lemma mod_enc n i j : (i < n)%nat -> ((j * n + i) mod n = i)%nat.
Proof. intros. rewrite Nat.add_comm, Nat.mod_add by lia. now apply Nat.mod_small. Qed.
Lemma div_enc n i j : (i < n)%nat -> ((j * n + i) / n = j)%nat.
Proof. intros. rewrite Nat.add_comm, Nat.div_add by lia. rewrite Nat.div_small; lia. Qed.
Lemma grid_bb_eta gs eta : (2 <= gs)%nat -> face_grid gs eta -> exists f gid, (f < 6)%nat /\ (gid < gs * gs)%nat /\ bb_eta gs f gid = eta.
Proof.
  intros Hgs (a & La & Hs & Hb). assert (D : INR (gs - 1) <> 0) by (apply not_0_INR; lia). destruct eta as [[e0 e1] e2].
  assert (La' : a = 0%nat \/ a = 1%nat \/ a = 2%nat) by lia. destruct La' as [->|[->| ->]].
  - destruct (Hb 1%nat) as (i & Hi & E1); [lia|lia|]. destruct (Hb 2%nat) as (j & Hj & E2); [lia|lia|]. cbn [comp] in *.
    exists (match Req_bool e0 (-1) with true => 0%nat | false => 1%nat end), (j * gs + i)%nat.
    split; [destruct (Req_bool e0 (-1)); lia|]. split; [nia|]. unfold bb_eta. rewrite mod_enc, div_enc by auto. subst e1 e2.
    destruct (Req_bool_spec e0 (-1)) as [->|N]; cbn [tab nth kc kcx kcy]; apply pair3; try (field; exact D). destruct Hs; [contradiction|subst; field; exact D].
  - destruct (Hb 2%nat) as (i & Hi & E1); [lia|lia|]. destruct (Hb 0%nat) as (j & Hj & E2); [lia|lia|]. cbn [comp] in *.
    exists (match Req_bool e1 (-1) with true => 2%nat | false => 3%nat end), (j * gs + i)%nat.
    split; [destruct (Req_bool e1 (-1)); lia|]. split; [nia|]. unfold bb_eta. rewrite mod_enc, div_enc by auto. subst e0 e2.
    destruct (Req_bool_spec e1 (-1)) as [->|N]; cbn [tab nth kc kcx kcy]; apply pair3; try (field; exact D). destruct Hs; [contradiction|subst; field; exact D].
  - destruct (Hb 0%nat) as (i & Hi & E1); [lia|lia|]. destruct (Hb 1%nat) as (j & Hj & E2); [lia|lia|]. cbn [comp] in *.
    exists (match Req_bool e2 (-1) with true => 4%nat | false => 5%nat end), (j * gs + i)%nat.
    split; [destruct (Req_bool e2 (-1)); lia|]. split; [nia|]. unfold bb_eta. rewrite mod_enc, div_enc by auto. subst e0 e1.
    destruct (Req_bool_spec e2 (-1)) as [->|N]; cbn [tab nth kc kcx kcy]; apply pair3; try (field; exact D). destruct Hs; [contradiction|subst; field; exact D].
Qed.
Lemma items_grid gs items (g : pt3 -> R) v : (2 <= gs)%nat -> all_items gs items ->
  In v (map (fun it => g (bb_eta gs (fst it) (snd it))) (map fst items)) <-> exists e, face_grid gs e /\ g e = v.
Proof.
  intros Hgs P. rewrite in_map_iff. split.
  - intros ([f gid] & E & I). exists (bb_eta gs f gid). split; [|exact E].
    apply (Permutation_in _ P), in_prod_iff in I. rewrite !in_seq in I. apply bb_eta_grid; lia.
  - intros (e & He & E). destruct (grid_bb_eta gs e Hgs He) as (f & gid & Hf & Hg & Ee). exists (f, gid). split; [cbn; now rewrite Ee|].
    apply (Permutation_in _ (Permutation_sym P)), in_prod_iff. rewrite !in_seq. lia.
Qed.
Lemma items_nonempty gs items : (2 <= gs)%nat -> all_items gs items -> map fst items <> [].
Proof.
  intros Hgs P E. assert (I : In (0%nat, 0%nat) (list_prod (seq 0 6) (seq 0 (gs * gs)))) by (apply in_prod_iff; rewrite !in_seq; nia).
  apply (Permutation_in _ (Permutation_sym P)) in I. rewrite E in I. easy.
Qed.
Definition grid_in_range (s : shape3) (x : xmap) (gs : nat) : Prop := forall e a, face_grid gs e -> (a < 3)%nat -> Rabs (elem_X s x (to_loc3 s e) a) <= DBL_MAX.
Lemma bbox_sampled s x d gs pr pa items : good_xmap s x -> written s x d -> (2 <= gs)%nat -> all_items gs items ->
  grid_in_range s x gs -> exists lo hi, xmap_bounding_box d gs pr pa items = Some (lo, hi) /\
    forall a, (a < 3)%nat -> exists m M,
      least (face_grid gs) (fun e => elem_X s x (to_loc3 s e) a) m /\ largest (face_grid gs) (fun e => elem_X s x (to_loc3 s e) a) M /\
      comp lo a = m - (pr * (M - m) + pa) /\ comp hi a = M + (pr * (M - m) + pa).
Proof.
  intros Hg W Hgs P Hr. unfold xmap_bounding_box, bb_start. rewrite (bb_run_ok s x d gs Hg W). cbn [bind bb_pad bb_pad1 comp].
  eexists _, _. split; [reflexivity|]. intros a La.
  set (l := map (Xat s x gs a) (map fst items)).
  assert (IN : forall v, In v l <-> exists e, face_grid gs e /\ elem_X s x (to_loc3 s e) a = v).
  { intros v. apply (items_grid gs items (fun e => elem_X s x (to_loc3 s e) a) v Hgs P). }
  assert (NE : l <> []). { pose proof (items_nonempty gs items Hgs P) as NE. unfold l. destruct (map fst items); [easy|discriminate]. }
  assert (RG : forall v, In v l -> - DBL_MAX <= v <= DBL_MAX).
  { intros v Hv. apply IN in Hv. destruct Hv as (e & He & <-). specialize (Hr e a He La). apply Rabs_le_inv in Hr. exact Hr. }
  destruct (fold_min_least l NE) as [A1 A2]; [intros; now apply RG|]. destruct (fold_max_largest l NE) as [B1 B2]; [intros; now apply RG|].
  exists (fold_left fmin l DBL_MAX), (fold_left fmax l (- DBL_MAX)).
  split; [|split; [|]].
  - split; [|now apply IN]. intros e He. apply A2, IN. eauto.
  - split; [|now apply IN]. intros e He. apply B2, IN. eauto.
  - unfold l. assert (La' : a = 0%nat \/ a = 1%nat \/ a = 2%nat) by lia. destruct La' as [->|[->| ->]]; cbn [comp]; split; reflexivity.
Qed.
Transparent kNekZeroTol.
Lemma tol_small : kNekZeroTol <= 2 / 10 ^ 12.
Proof. unfold kNekZeroTol. assert (0 < / 10 ^ 12) by (apply Rinv_0_lt_compat, pow_lt; lra). unfold Rdiv. lra. Qed.
Opaque kNekZeroTol.
(** round trip at the points of the grid *)
Lemma rt_grid s eta : in_cube3 eta -> (forall c, (c < 3)%nat -> 1 - comp eta c = 0 \/ 2 / 10 ^ 6 <= 1 - comp eta c) ->
  to_loc3 s (collapsed s (to_loc3 s eta)) = to_loc3 s eta.
Proof.
  destruct eta as [[e0 e1] e2]. unfold in_cube3. cbn [fst snd]. intros ([? ?] & [? ?] & [? ?]) HH.
  pose proof (HH 1%nat ltac:(lia)) as E1. pose proof (HH 2%nat ltac:(lia)) as E2. cbn [comp] in E1, E2. clear HH.
  assert (T : kNekZeroTol <= 2 / 10 ^ 12) by apply tol_small.
  pose proof tol_pos as T0.
  assert (RT : away3 s kNekZeroTol (to_loc3 s (e0, e1, e2)) -> to_loc3 s (collapsed s (to_loc3 s (e0, e1, e2))) = to_loc3 s (e0, e1, e2)).
  { intros A. apply roundtrip3' in A. rewrite coll_eq in A. injection A as ->. reflexivity. }
  destruct s; [| | |reflexivity].
  - destruct E2 as [E2|E2].
    + assert (e2 = 1) by lra. subst. unfold collapsed. cbn [to_loc3 to_collapsed3 tet_to_loc tet_to_collapsed].
      rewrite !rdiv_ok by apply guard_nonzero. cbn [bind tet_to_loc]. apply pair3; try reflexivity.
      * field. split; apply guard_nonzero.
      * field. apply guard_nonzero.
    + destruct E1 as [E1|E1].
      * assert (e1 = 1) by lra. subst. unfold collapsed. cbn [to_loc3 to_collapsed3 tet_to_loc tet_to_collapsed].
        rewrite !rdiv_ok by apply guard_nonzero. cbn [bind tet_to_loc]. rewrite (guard_far (1 - e2)) by lra. apply pair3; try reflexivity.
        -- field. split; [lra|apply guard_nonzero].
        -- field. lra.
      * apply RT. cbn [away3 to_loc3 tet_to_loc]. split; [lra|].
        replace (- ((1 + e1) * (1 - e2) * (1 / 2) - 1) - e2) with ((1 - e1) * (1 - e2) / 2) by field.
        assert (2 / 10 ^ 6 * (2 / 10 ^ 6) <= (1 - e1) * (1 - e2)) by (apply Rmult_le_compat; lra). lra.
  - destruct E2 as [E2|E2].
    + assert (e2 = 1) by lra. subst. unfold collapsed. cbn [to_loc3 to_collapsed3 pyr_to_loc pyr_to_collapsed].
      rewrite !rdiv_ok by apply guard_nonzero. cbn [bind pyr_to_loc]. apply pair3; try reflexivity; field; apply guard_nonzero.
    + apply RT. cbn [away3 to_loc3 pyr_to_loc]. lra.
  - destruct E2 as [E2|E2].
    + assert (e2 = 1) by lra. subst. unfold collapsed. cbn [to_loc3 to_collapsed3 prism_to_loc prism_to_collapsed].
      rewrite !rdiv_ok by apply guard_nonzero. cbn [bind prism_to_loc]. apply pair3; try reflexivity; field; apply guard_nonzero.
    + apply RT. cbn [away3 to_loc3 prism_to_loc]. lra.
Qed.
Lemma grid_coord gs i : (2 <= gs)%nat -> (i < gs)%nat -> -1 <= -1 + 2 * INR i / INR (gs - 1) <= 1.
Proof.
  intros. assert (0 < INR (gs - 1)) by (apply lt_0_INR; lia). assert (INR i <= INR (gs - 1)) by (apply le_INR; lia). pose proof (pos_INR i).
  assert (0 <= INR i / INR (gs - 1) <= 1). { split; [apply le_div; lra|apply div_le; lra]. }
  unfold Rdiv in *. lra.
Qed.
Lemma grid_gap gs i : (2 <= gs)%nat -> (INR gs <= 10 ^ 6) -> (i < gs)%nat ->
  1 - (-1 + 2 * INR i / INR (gs - 1)) = 0 \/ 2 / 10 ^ 6 <= 1 - (-1 + 2 * INR i / INR (gs - 1)).
Proof.
  intros. assert (D : 0 < INR (gs - 1)) by (apply lt_0_INR; lia). assert (D1 : INR (gs - 1) <= 10 ^ 6) by (eapply Rle_trans; [apply le_INR|exact H0]; lia).
  destruct (Nat.eq_dec i (gs - 1)) as [->|N]; [left; field; lra|right].
  assert (INR i + 1 <= INR (gs - 1)) by (rewrite <- S_INR; apply le_INR; lia).
  replace (1 - (-1 + 2 * INR i / INR (gs - 1))) with (2 * (INR (gs - 1) - INR i) * / INR (gs - 1)) by (field; lra).
  assert (/ 10 ^ 6 <= / INR (gs - 1)) by (apply Rinv_le_contravar; lra).
  apply Rle_trans with (2 * 1 * / INR (gs - 1)); [lra|]. apply Rmult_le_compat_r; [|lra]. left. now apply Rinv_0_lt_compat.
Qed.
Lemma face_grid_cube gs e : (2 <= gs)%nat -> face_grid gs e -> in_cube3 e.
Proof.
  intros Hgs (a & La & Hs & Hb).
  assert (K : forall b, (b < 3)%nat -> -1 <= comp e b <= 1).
  { intros b Lb. destruct (Nat.eq_dec b a) as [->|N]; [destruct Hs; lra|]. destruct (Hb b Lb N) as (i & Hi & ->). now apply grid_coord. }
  destruct e as [[e0 e1] e2]. unfold in_cube3. cbn [fst snd]. split; [exact (K 0%nat ltac:(lia))|split; [exact (K 1%nat ltac:(lia))|exact (K 2%nat ltac:(lia))]].
Qed.
Lemma face_grid_rt s gs e : (2 <= gs)%nat -> INR gs <= 10 ^ 6 -> face_grid gs e -> to_loc3 s (collapsed s (to_loc3 s e)) = to_loc3 s e.
Proof.
  intros Hgs Hm Hf. apply rt_grid; [now apply (face_grid_cube gs)|]. destruct Hf as (a & La & Hs & Hb).
  intros c Lc. destruct (Nat.eq_dec c a) as [->|N].
  - destruct Hs as [->| ->]; [right|left]; lra.
  - destruct (Hb c Lc N) as (i & Hi & ->). now apply grid_gap.
Qed.
Lemma grid_G s x G gs e a : good_xmap s x -> represents_G s x G -> (2 <= gs)%nat -> INR gs <= 10 ^ 6 -> face_grid gs e -> (a < 3)%nat ->
  elem_X s x (to_loc3 s e) a = G (to_loc3 s e) a.
Proof.
  intros Hg Hr Hgs Hm He La. destruct (Hr a La) as (P1 & P2). unfold elem_X. rewrite (interp_exact s x _ _ _ Hg P1 P2). now rewrite (face_grid_rt s gs).
Qed.
Lemma least_ext {A} (P : A -> Prop) f g m : (forall e, P e -> f e = g e) -> least P f m -> least P g m.
Proof. intros E [H (e & He & V)]. split; [intros e' He'; rewrite <- E by auto; auto|exists e; rewrite <- E by auto; auto]. Qed.
Lemma largest_ext {A} (P : A -> Prop) f g m : (forall e, P e -> f e = g e) -> largest P f m -> largest P g m.
Proof. intros E [H (e & He & V)]. split; [intros e' He'; rewrite <- E by auto; auto|exists e; rewrite <- E by auto; auto]. Qed.
Lemma bbox_G s x d G gs pr pa items : good_xmap s x -> written s x d -> represents_G s x G -> double_range s G -> (2 <= gs)%nat -> INR gs <= 10 ^ 6 -> all_items gs items ->
  exists lo hi, xmap_bounding_box d gs pr pa items = Some (lo, hi) /\
    forall a, (a < 3)%nat -> exists m M,
      least (face_grid gs) (fun e => G (to_loc3 s e) a) m /\ largest (face_grid gs) (fun e => G (to_loc3 s e) a) M /\
      comp lo a = m - (pr * (M - m) + pa) /\ comp hi a = M + (pr * (M - m) + pa).
Proof.
  intros Hg W Hr Hd Hgs Hm P.
  destruct (bbox_sampled s x d gs pr pa items Hg W Hgs P) as (lo & hi & E & H).
  { intros e a He La. rewrite (grid_G s x G gs) by auto. apply Hd; auto. apply cube_to_ref3. now apply (face_grid_cube gs). }
  exists lo, hi. split; [exact E|]. intros a La. destruct (H a La) as (m & M & A & B & C & D). exists m, M.
  split; [|split; [|auto]].
  - eapply least_ext; [|exact A]. intros e He. cbv beta. now apply (grid_G s x G gs).
  - eapply largest_ext; [|exact B]. intros e He. cbv beta. now apply (grid_G s x G gs).
Qed.
