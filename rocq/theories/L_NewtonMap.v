From Verif Require Import M_RealBase M_Grid M_Coord M_NewtonMap S_Newton S_NewtonM L_RealBase L_Coord L_Newton L_Newton2
  M_NewtonBind S_NewtonBind L_NewtonBind L_NewtonBind2 M_Util L_Util L_Grid S_Grid L_Coarse L_Coarse2.

Lemma bind_bound n id rank xi q : (n <= 3)%nat -> (n <= length (q_ref q))%nat -> bound_to n id rank xi q (bind_particle n id rank xi q).
Proof.
  intros Hn Hl. unfold bound_to, bind_particle. cbn [q_pos q_cell q_rank q_ref].
  destruct xi as [[x y] z]. cbn [fst snd]. repeat split; auto.
  - rewrite app_length, firstn_length, skipn_length. cbn [length]. lia.
  - intros d. unfold nthR. destruct (Nat.ltb_spec d n).
    + rewrite app_nth1 by (rewrite firstn_length; cbn [length]; lia).
      destruct n as [|[|[|[|]]]]; try lia; destruct d as [|[|[|]]]; try lia; reflexivity.
    + rewrite app_nth2 by (rewrite firstn_length; cbn [length]; lia). rewrite firstn_length. cbn [length].
      replace (Nat.min n 3) with n by lia. 
      rewrite <- (firstn_skipn n (q_ref q)) at 2. rewrite app_nth2 by (rewrite firstn_length; lia). rewrite firstn_length. f_equal. lia.
Qed.

Lemma lookup_id_spec gs : forall pos k g, NoDup (map g_id gs) -> nth_error gs k = Some g -> lookup_id gs pos (g_id g) = Some (pos + Z.of_nat k)%Z.
Proof.
  assert (No : forall l pos id, ~ In id (map g_id l) -> lookup_id l pos id = None).
  { induction l as [|a l IH]; intros pos id Hn; simpl; auto. rewrite IH by (intros Q; apply Hn; right; auto).
    destruct (Z.eqb_spec (g_id a) id); auto. exfalso; apply Hn; left; auto. }
  induction gs as [|a gs IH]; intros pos k g Hn Hk; [destruct k; discriminate|]. simpl in Hn. apply NoDup_cons_iff in Hn as [Hi Hn].
  destruct k as [|k]; simpl in Hk.
  - injection Hk as ->. simpl. rewrite No by auto. rewrite Z.eqb_refl. f_equal. lia.
  - simpl. rewrite (IH (pos + 1)%Z k g Hn Hk). f_equal. lia.
Qed.
Lemma upd_app {A} (l : list A) x y r : upd (l ++ x :: r) (length l) y = Some (l ++ y :: r).
Proof. induction l as [|a l IH]; cbn [app length upd]; [reflexivity|]. rewrite IH. reflexivity. Qed.
Lemma fill_tables_spec all : NoDup (map g_id all) -> forall post pre, all = pre ++ post ->
  fill_tables all post (map Some pre ++ repeat None (length post)) = Some (map Some all).
Proof.
  intros Hn post. induction post as [|g post IH]; intros pre E.
  - simpl. rewrite app_nil_r in *. subst. reflexivity.
  - cbn [fill_tables]. rewrite (lookup_id_spec all 0%Z (length pre) g Hn).
    2:{ rewrite E, nth_error_app2 by lia. rewrite Nat.sub_diag. reflexivity. }
    cbn [bind]. rewrite Z.add_0_l.
    assert (U : updZ (map Some pre ++ repeat None (length (g :: post))) (Z.of_nat (length pre)) (Some g)
              = Some (map Some (pre ++ [g]) ++ repeat None (length post))).
    { cbn [length repeat]. rewrite map_app, <- app_assoc. cbn [map app].
      unfold updZ. destruct (Z.ltb_spec (Z.of_nat (length pre)) 0); [lia|]. rewrite Nat2Z.id.
      rewrite <- (map_length (@Some mgeom) pre). apply upd_app. }
    rewrite U. cbn [bind]. apply IH. rewrite <- app_assoc. exact E.
Qed.

Lemma candidate_loop_spec geoms try : forall cands, (forall i, In i cands -> exists k g, i = Z.of_nat k /\ nth_error geoms k = Some g) ->
  exists res, candidate_loop (map Some geoms) try cands = Some res /\
   match res with
   | Some (g, xi) => exists l1 k l2, cands = l1 ++ Z.of_nat k :: l2 /\ nth_error geoms k = Some g /\ try g = Some xi /\
        forall k' g', In (Z.of_nat k') l1 -> nth_error geoms k' = Some g' -> try g' = None
   | None => forall k g, In (Z.of_nat k) cands -> nth_error geoms k = Some g -> try g = None
   end.
Proof.
  induction cands as [|i r IH]; intros H.
  - exists None. split; auto. intros k g [].
  - destruct (H i (or_introl eq_refl)) as (k & g & -> & Hk). cbn [candidate_loop].
    unfold rdZ at 1. destruct (Z.ltb_spec (Z.of_nat k) 0); [lia|]. rewrite Nat2Z.id, nth_error_map, Hk. cbn [option_map bind].
    destruct (try g) as [xi|] eqn:Et.
    + exists (Some (g, xi)). split; auto. exists [], k, r. repeat split; auto. intros k' g' [].
    + destruct IH as (res & E & S). { intros i Hi. apply H. now right. }
      exists res. split; auto. destruct res as [[g1 xi]|].
      * destruct S as (l1 & k1 & l2 & E1 & E2 & E3 & E4). exists (Z.of_nat k :: l1), k1, l2. rewrite E1. repeat split; auto.
        intros k' g' [Q|Q] Hg'; [|eapply E4; eauto]. apply Nat2Z.inj in Q. subst k'. congruence.
      * intros k' g' [Q|Q] Hg'; [|eapply S; eauto]. apply Nat2Z.inj in Q. subst k'. congruence.
Qed.

Lemma mapper_inv n conf geoms m : make_newton_mapper n conf geoms = Some m -> geoms <> [] -> NoDup (map g_id geoms) ->
  exists lk, make_lookup n (map g_box geoms) = Some lk /\
    m = {| nm_ndim := n; nm_conf := read_config conf; nm_grid_size := grid_size_of (read_config conf) (fold_left Z.max (map g_modes geoms) 0%Z);
           nm_num_geoms := length geoms; nm_lookup := Some lk; nm_tables := map Some geoms |}.
Proof.
  intros H Hne Hn. unfold make_newton_mapper in H. destruct geoms as [|g0 gs]; [congruence|].
  set (all := g0 :: gs) in *. apply L_Grid.bind_some in H as (lk & El & H). exists lk. split; auto.
  pose proof (fill_tables_spec all Hn all [] eq_refl) as F. cbn [map app] in F.
  match type of F with fill_tables _ _ ?b = _ => change b with (repeat (@None mgeom) (length all)) in F end.
  rewrite F in H. cbn [bind] in H. injection H as <-. reflexivity.
Qed.
Lemma mapper_exists n conf geoms : (0 < n)%nat -> good_geoms n geoms -> exists m, make_newton_mapper n conf geoms = Some m.
Proof.
  intros Hn (Hd & _ & Hb). destruct geoms as [|g0 gs]; [eexists; reflexivity|].
  unfold make_newton_mapper. set (all := g0 :: gs) in *.
  destruct (L_Coarse2.make_lookup_ok n (map g_box all) Hn) as (lk & E & _); auto. { discriminate. }
  rewrite E. cbn [bind].
  pose proof (fill_tables_spec all Hd all [] eq_refl) as F. cbn [map app] in F.
  match type of F with fill_tables _ _ ?b = _ => change b with (repeat (@None mgeom) (length all)) in F end.
  rewrite F. cbn [bind]. eexists; reflexivity.
Qed.

Lemma coarse_first n geoms lk try q : make_lookup n (map g_box geoms) = Some lk -> (1 <= n <= 3)%nat ->
  good_geoms n geoms -> (n <= length (q_ref q))%nat -> (q_rank q < 0)%Z ->
  exists cands q', kernel_candidates lk (q_pos q) = Some cands /\
    coarse_kernel n (Some lk) (map Some geoms) try q = Some q' /\ binds_first n geoms cands (fun g => try g (kernel_pos n q)) q q'.
Proof.
  intros El Hn (Hd & Hr & Hb) Hl Hq.
  destruct (kernel_candidates_spec n (map g_box geoms) lk El Hn Hb (q_pos q)) as (l & Ec & Hc & _).
  exists l. unfold coarse_kernel. apply Z.ltb_lt in Hq. rewrite Hq. cbn [bind]. rewrite Ec. cbn [bind].
  destruct (candidate_loop_spec geoms (fun g => try g (kernel_pos n q)) l) as (res & E & S).
  { intros i Hi. apply Hc in Hi as (k & g & -> & Hk & _). rewrite nth_error_map in Hk. destruct (nth_error geoms k) as [g'|] eqn:Eg; [|discriminate]. eauto. }
  rewrite E. cbn [bind]. eexists. split; [auto|]. split; [reflexivity|].
  destruct res as [[g xi]|].
  - destruct S as (l1 & k & l2 & E1 & E2 & E3 & E4). left. exists l1, k, l2, g, xi. repeat (split; [assumption|]). apply bind_bound; auto; lia.
  - right. split; auto.
Qed.
Lemma kernel_first n conf geoms m try q : make_newton_mapper n conf geoms = Some m -> (1 <= n <= 3)%nat -> geoms <> [] ->
  good_geoms n geoms -> (n <= length (q_ref q))%nat -> (q_rank q < 0)%Z ->
  exists lk cands q', make_lookup n (map g_box geoms) = Some lk /\ kernel_candidates lk (q_pos q) = Some cands /\
    newton_kernel m try q = Some q' /\ binds_first n geoms cands (fun g => try g (kernel_pos n q)) q q'.
Proof.
  intros H Hn Hne Hg Hl Hq. destruct (mapper_inv n conf geoms m H Hne (proj1 Hg)) as (lk & El & ->). exists lk.
  destruct (coarse_first n geoms lk try q El Hn Hg Hl Hq) as (cands & q' & A & B & C). exists cands, q'. auto.
Qed.
Lemma good_coarse n geoms lk try : make_lookup n (map g_box geoms) = Some lk -> (1 <= n <= 3)%nat -> good_geoms n geoms ->
  good_stage (coarse_kernel n (Some lk) (map Some geoms) try).
Proof.
  intros El Hn Hg q. destruct Hg as (Hd & Hr & Hb).
  destruct (kernel_candidates_spec n (map g_box geoms) lk El Hn Hb (q_pos q)) as (l & Ec & Hc & _).
  unfold coarse_kernel. destruct (Z.ltb_spec (q_rank q) 0); [|exists q; auto].
  cbn [bind]. rewrite Ec. cbn [bind].
  destruct (candidate_loop_spec geoms (fun g => try g (kernel_pos n q)) l) as (res & E & S).
  { intros i Hi. apply Hc in Hi as (k & g & -> & Hk & _). rewrite nth_error_map in Hk. destruct (nth_error geoms k) as [g'|] eqn:Eg; [|discriminate]. eauto. }
  rewrite E. cbn [bind]. eexists. split; [reflexivity|]. destruct res as [[g xi]|]; [|auto].
  split; [reflexivity|]. right. split; auto. cbn [bind_particle q_rank].
  destruct S as (l1 & k & l2 & _ & E2 & _). rewrite Forall_forall in Hr. apply Hr. eapply nth_error_In; eauto.
Qed.
Lemma good_newton n conf geoms m try : make_newton_mapper n conf geoms = Some m -> (1 <= n <= 3)%nat -> good_geoms n geoms ->
  forall q, exists q', (if Nat.eqb (nm_num_geoms m) 0 then Some q else newton_kernel m try q) = Some q' /\
   q_pos q' = q_pos q /\ (q' = q \/ ((q_rank q < 0)%Z /\ (0 <= q_rank q')%Z)).
Proof.
  intros H Hn Hg q. destruct geoms as [|g0 gs].
  - injection H as <-. cbn [nm_num_geoms Nat.eqb]. exists q; auto.
  - set (all := g0 :: gs) in *.
    destruct (mapper_inv n conf all m H ltac:(discriminate) (proj1 Hg)) as (lk & El & ->). cbn [nm_num_geoms].
    replace (Nat.eqb (length all) 0) with false by reflexivity.
    exact (good_coarse n all lk try El Hn Hg q).
Qed.

(** Pipelines *)
Lemma mapM_ok {A B} (f : A -> option B) l : (forall x, In x l -> exists y, f x = Some y) -> exists l', mapM f l = Some l' /\ Forall2 (fun x y => f x = Some y) l l'.
Proof.
  induction l as [|a l IH]; intros H; simpl. { exists []; auto. }
  destruct (H a (or_introl eq_refl)) as [y Ey]. destruct IH as (l' & E & F). { intros; apply H; now right. }
  rewrite Ey, E. simpl. exists (y :: l'). auto.
Qed.
Lemma stage_spec k map_cell grp : (forall q, exists q', k q = Some q') -> cell_ok grp map_cell ->
  exists grp', stage k map_cell grp = Some grp' /\ rel_group (fun q q' => k q = Some q') map_cell grp grp'.
Proof.
  intros Hk Hc. unfold stage, rel_group, cell_selected. destruct (Z.ltb_spec (-1) map_cell) as [Hm|Hm].
  - unfold cell_ok in Hc. destruct (nth_error grp (Z.to_nat map_cell)) as [cell|] eqn:E.
    2:{ apply nth_error_None in E. lia. }
    cbn [bind]. destruct (mapM_ok k cell (fun x _ => Hk x)) as (cell' & E' & F). rewrite E'. cbn [bind].
    destruct (updZ_some grp map_cell cell' ltac:(lia)) as (g' & Eu & L & N & O). rewrite Eu. exists g'. split; auto. split; auto.
    intros i c Hi. destruct (Z.leb_spec map_cell (-1)); [lia|]. cbn [orb]. destruct (Z.eqb_spec map_cell (Z.of_nat i)) as [->|Hne].
    + rewrite Nat2Z.id in *. exists cell'. split; auto. congruence.
    + exists c. split; auto. rewrite O; auto. lia.
  - destruct (mapM_ok (mapM k) grp) as (g' & E & F). { intros c _. destruct (mapM_ok k c (fun x _ => Hk x)) as (c' & E' & _). exists c'. exact E'. }
    exists g'. split; auto. split. { symmetry. eapply Forall2_length; eauto. }
    intros i c Hi. destruct (Z.leb_spec map_cell (-1)); [|lia]. cbn [orb].
    clear E Hc. revert i Hi. induction F as [|c0 c0' g g' E F IH]; intros [|i] Hi; try discriminate; simpl in *.
    + injection Hi as ->. exists c0'. split; auto. destruct (mapM_ok k c (fun x _ => Hk x)) as (c' & E' & F'). congruence.
    + auto.
Qed.
Lemma Forall2_comp {A} (R S T : A -> A -> Prop) : (forall a b c, R a b -> S b c -> T a c) -> forall l m n, Forall2 R l m -> Forall2 S m n -> Forall2 T l n.
Proof. intros H l m n F. revert n. induction F; intros n G; inversion G; subst; constructor; eauto. Qed.
Lemma rel_group_comp (R S T : particle -> particle -> Prop) mc : (forall a b c, R a b -> S b c -> T a c) ->
  forall g1 g2 g3, rel_group R mc g1 g2 -> rel_group S mc g2 g3 -> rel_group T mc g1 g3.
Proof.
  intros H g1 g2 g3 [L1 R1] [L2 R2]. split; [congruence|]. intros i c Hi. destruct (R1 i c Hi) as (c' & Hi' & F1).
  destruct (R2 i c' Hi') as (c'' & Hi'' & F2). exists c''. split; auto. destruct (cell_selected mc i); [|congruence].
  eapply Forall2_comp; eauto.
Qed.
Lemma decided_cons k ks a b c : good_stage k -> k a = Some b -> (forall k', In k' ks -> good_stage k') -> decided_by ks b c -> decided_by (k :: ks) a c.
Proof.
  intros Hk E Hks D. destruct (Hk a) as (b' & E' & _ & Hb). rewrite E in E'. injection E' as <-.
  destruct Hb as [->|[Ha Hb]].
  - destruct D as [[D1 ->]|[D1 D2]]; [left; auto|right; split; auto]. destruct D2 as [(l1 & k1 & l2 & -> & H1 & H2 & H3)|[H1 ->]].
    + left. exists (k :: l1), k1, l2. repeat split; auto. intros k' [<-|]; auto.
    + right. split; auto. intros k' [<-|]; auto.
  - right. split; auto. left. exists [], k, ks. repeat split; auto; try (intros k' []).
    + destruct D as [[_ ->]|[D _]]; [auto|lia].
    + destruct D as [[_ ->]|[D _]]; [auto|lia].
Qed.
Lemma run_stages_spec map_cell : forall ks grp, (forall k, In k ks -> good_stage k) -> cell_ok grp map_cell ->
  exists grp', run_stages ks map_cell grp = Some grp' /\ rel_group (decided_by ks) map_cell grp grp'.
Proof.
  induction ks as [|k ks IH]; intros grp Hk Hc; simpl.
  - exists grp. split; auto. split; auto. intros i c Hi. exists c. split; auto. destruct (cell_selected map_cell i); auto.
    clear. induction c as [|q c IH]; constructor; auto. unfold decided_by. destruct (Z_lt_le_dec (q_rank q) 0); [right; split; auto; right; split; auto|left; auto].
    intros k [].
  - pose proof (Hk k (or_introl eq_refl)) as Gk.
    destruct (stage_spec k map_cell grp) as (g1 & E1 & R1); auto. { intros q. destruct (Gk q) as (q' & E & _). eauto. }
    rewrite E1. cbn [bind]. destruct (IH g1) as (g2 & E2 & R2). { intros; apply Hk; now right. }
    { unfold cell_ok in *. destruct R1 as [-> _]. auto. }
    exists g2. split; auto. eapply rel_group_comp; eauto. intros a b c Ha Hb. cbn beta in Ha. eapply decided_cons; eauto. intros; apply Hk; now right.
Qed.
Lemma unbound_spec q : unbound q = true <-> (q_rank q < 0)%Z.
Proof. unfold unbound. destruct (Z.ltb_spec (-1) (q_rank q)); simpl; split; intros; auto; try discriminate; lia. Qed.
Lemma existsb_unbound cell : existsb unbound cell = false <-> all_bound cell.
Proof.
  split.
  - intros H q Hq. destruct (Z_lt_le_dec (q_rank q) 0) as [Hl|]; auto. apply unbound_spec in Hl.
    assert (existsb unbound cell = true) by (apply existsb_exists; eauto). congruence.
  - intros H. destruct (existsb unbound cell) eqn:E; auto. apply existsb_exists in E as (q & Hq & Hu). apply unbound_spec in Hu.
    specialize (H q Hq). lia.
Qed.
Lemma check_map_spec grp mc : cell_ok grp mc -> exists b, check_map grp mc = Some b /\ (b = false <-> selected_bound mc grp).
Proof.
  intros Hc. unfold check_map, selected_bound, cell_selected. destruct (Z.ltb_spec mc 0) as [Hm|Hm].
  - eexists. split; [reflexivity|]. destruct (Z.leb_spec mc (-1)); [|lia]. cbn [orb]. split.
    + intros H0 i cell Hi _. apply existsb_unbound. destruct (existsb unbound cell) eqn:E; auto.
      assert (existsb (existsb unbound) grp = true) by (apply existsb_exists; exists cell; split; auto; eapply nth_error_In; eauto). congruence.
    + intros H0. destruct (existsb (existsb unbound) grp) eqn:E; auto. apply existsb_exists in E as (cell & Hi & Hu).
      apply In_nth_error in Hi as [i Hi]. specialize (H0 i cell Hi eq_refl). apply existsb_unbound in H0. congruence.
  - unfold cell_ok in Hc. destruct (nth_error grp (Z.to_nat mc)) as [cell|] eqn:E. 2:{ apply nth_error_None in E. lia. }
    cbn [bind]. eexists. split; [reflexivity|]. rewrite existsb_unbound. destruct (Z.leb_spec mc (-1)); [lia|]. cbn [orb]. split.
    + intros H0 i c Hi He. apply Z.eqb_eq in He. subst mc. rewrite Nat2Z.id in E. rewrite E in Hi. injection Hi as <-. exact H0.
    + intros H0. apply (H0 (Z.to_nat mc)); auto. apply Z.eqb_eq. lia.
Qed.
Lemma rel_group_ok R mc g g' m : rel_group R mc g g' -> cell_ok g m -> cell_ok g' m.
Proof. intros [L _] H. unfold cell_ok in *. rewrite L. auto. Qed.
Lemma rel_group_weaken (R S : particle -> particle -> Prop) mc g g' : (forall a b, R a b -> S a b) -> rel_group R mc g g' -> rel_group S mc g g'.
Proof.
  intros H [L F]. split; auto. intros i c Hi. destruct (F i c Hi) as (c' & Hi' & Q). exists c'. split; auto. destruct (cell_selected mc i); auto.
  clear -H Q. induction Q; constructor; auto.
Qed.
Lemma decided_bound ks a : (0 <= q_rank a)%Z -> forall b, decided_by ks a b -> b = a.
Proof. intros H b [[_ ->]|[H' _]]; auto; lia. Qed.
Lemma decided_app ks1 ks2 a b c : (forall k, In k (ks1 ++ ks2) -> good_stage k) -> decided_by ks1 a b -> decided_by ks2 b c -> decided_by (ks1 ++ ks2) a c.
Proof.
  intros G D1 D2. destruct D1 as [[H ->]|[H [(l1 & k & l2 & -> & H1 & H2 & H3)|[H1 ->]]]].
  - left. split; auto. eapply decided_bound; eauto.
  - right. split; auto. left. exists l1, k, (l2 ++ ks2). rewrite <- app_assoc. repeat split; auto.
    + rewrite (decided_bound ks2 b H3 c D2). auto.
    + rewrite (decided_bound ks2 b H3 c D2). auto.
  - destruct D2 as [[H2 ->]|[H2 [(l1 & k & l2 & -> & Q1 & Q2 & Q3)|[Q1 ->]]]]; [lia| |].
    + right. split; auto. left. exists (ks1 ++ l1), k, l2. rewrite <- app_assoc. repeat split; auto.
      intros k' Hk'. apply in_app_iff in Hk' as [?|?]; auto.
    + right. split; auto. right. split; auto. intros k' Hk'. apply in_app_iff in Hk' as [?|?]; auto.
Qed.
Lemma list_eq_nth {A} (l l' : list A) : (forall i, nth_error l i = nth_error l' i) -> l = l'.
Proof.
  revert l'. induction l as [|a l IH]; intros [|b l'] H; auto.
  - specialize (H 0%nat); discriminate. - specialize (H 0%nat); discriminate.
  - pose proof (H 0%nat) as H0. simpl in H0. injection H0 as ->. f_equal. apply IH. intros i. exact (H (S i)).
Qed.
Lemma selected_id ks mc grp : selected_bound mc grp -> forall grp', rel_group (decided_by ks) mc grp grp' -> grp' = grp.
Proof.
  intros Hs grp' [L F]. apply list_eq_nth. intros i. destruct (nth_error grp i) as [c|] eqn:E.
  - destruct (F i c E) as (c' & E' & Q). rewrite E'. destruct (cell_selected mc i) eqn:Es; [|congruence].
    f_equal. specialize (Hs i c E Es). clear -Hs Q. induction Q as [|a b l l' D Q IH]; auto. f_equal.
    + apply (decided_bound ks a); auto. apply Hs; left; auto.
    + apply IH. intros q Hq. apply Hs. right; auto.
  - apply nth_error_None in E. apply nth_error_None. lia.
Qed.

Lemma map2d_spec reg nm grp mc : (forall k, reg = Some k -> good_stage k) ->
  (forall m, nm = Some m -> good_stage (initial_kernel m) /\ good_stage (final_kernel m)) -> cell_ok grp mc ->
  exists grp', rel_group (decided_by (opt_list reg ++ newton_stages (opt_list nm))) mc grp grp' /\
    ((map2d reg nm grp mc = Mapped grp' /\ ((mc <= -1)%Z \/ selected_bound mc grp')) \/
     (map2d reg nm grp mc = AssertFailed grp' /\ (-1 < mc)%Z /\ ~ selected_bound mc grp')).
Proof.
  intros Hr Hm Hc. unfold map2d.
  assert (S1 : exists g1, (match reg with Some k => stage k mc grp | None => Some grp end) = Some g1 /\ rel_group (decided_by (opt_list reg)) mc grp g1).
  { destruct (run_stages_spec mc (opt_list reg) grp) as (g1 & E & R); auto.
    - intros k Hk. destruct reg; simpl in Hk; [destruct Hk as [<-|[]]; auto|contradiction].
    - exists g1. split; auto. destruct reg as [k0|]; cbn [opt_list run_stages] in E; [destruct (stage k0 mc grp); exact E|exact E]. }
  destruct S1 as (g1 & -> & R1). cbn [bind].
  assert (G : forall k, In k (opt_list reg ++ newton_stages (opt_list nm)) -> good_stage k).
  { intros k Hk. apply in_app_iff in Hk as [Hk|Hk].
    - destruct reg; simpl in Hk; [destruct Hk as [<-|[]]; auto|contradiction].
    - destruct nm as [m|]; [|contradiction]. destruct (Hm m eq_refl). cbn in Hk. destruct Hk as [<-|[<-|[]]]; auto. }
  assert (S2 : exists g2, match nm with
         | None => Some g1
         | Some m => do c <- check_map g1 mc; if c : bool then run_stages [initial_kernel m; final_kernel m] mc g1 else Some g1
         end = Some g2 /\ rel_group (decided_by (newton_stages (opt_list nm))) mc g1 g2).
  { assert (Hc1 : cell_ok g1 mc) by (eapply rel_group_ok; eauto).
    destruct (run_stages_spec mc (newton_stages (opt_list nm)) g1) as (g2 & E & R); auto.
    { intros k Hk. apply G. apply in_app_iff. auto. }
    destruct nm as [m|].
    - destruct (check_map_spec g1 mc Hc1) as (b & Eb & Hb). rewrite Eb. cbn [bind]. destruct b.
      + exists g2. split; auto.
      + exists g1. split; auto. pose proof (selected_id _ _ _ (proj1 Hb eq_refl) _ R) as ->. exact R.
    - exists g1. split; auto. cbn in E. injection E as <-. exact R. }
  destruct S2 as (g2 & E2 & R2). rewrite E2. exists g2. split.
  { eapply rel_group_comp; [|exact R1|exact R2]. intros a b c Da Db. eapply decided_app; eauto. }
  destruct (Z.ltb_spec (-1) mc).
  - destruct (check_map_spec g2 mc) as (b & Eb & Hb). { eapply rel_group_ok; eauto. eapply rel_group_ok; eauto. }
    rewrite Eb. destruct b.
    + right. split; auto. split; auto. intros Q. apply Hb in Q. discriminate.
    + left. split; auto. right. apply Hb; auto.
  - left. split; auto.
Qed.

Lemma map3d_spec reg ms host grp mc : (forall k, reg = Some k -> good_stage k) ->
  (forall m, In m ms -> good_stage (initial_kernel m) /\ good_stage (final_kernel m)) -> good_stage (host_stage host) -> cell_ok grp mc ->
  exists grp2, rel_group (decided_by (opt_list reg ++ newton_stages ms)) mc grp grp2 /\
  exists grp3, (grp3 = grp2 \/ rel_group (decided_by [host_stage host]) (-1) grp2 grp3) /\
    ((map3d reg ms host grp mc = Mapped grp3 /\ ((mc <= -1)%Z /\ grp3 = grp2 \/ selected_bound (-1) grp3)) \/
     (map3d reg ms host grp mc = AssertFailed grp3 /\ (-1 < mc)%Z /\ ~ selected_bound (-1) grp3)) /\
    ((-1 < mc)%Z -> ~ selected_bound mc grp2 -> rel_group (decided_by [host_stage host]) (-1) grp2 grp3).
Proof.
  intros Hr Hm Hh Hc. unfold map3d.
  destruct (run_stages_spec mc (opt_list reg ++ newton_stages ms) grp) as (g2 & E & R); auto.
  { intros k Hk. apply in_app_iff in Hk as [Hk|Hk].
    - destruct reg; simpl in Hk; [destruct Hk as [<-|[]]; auto|contradiction].
    - unfold newton_stages in Hk. apply in_app_iff in Hk as [Hk|Hk]; apply in_map_iff in Hk as (m & <- & Hi); apply Hm in Hi; tauto. }
  unfold newton_stages in E.
  assert (E' : run_stages (match reg with Some k => [k] | None => [] end ++ map initial_kernel ms ++ map final_kernel ms) mc grp = Some g2) by (destruct reg; exact E).
  rewrite E'. exists g2. split; auto.
  destruct (Z.ltb_spec (-1) mc).
  - assert (Hc2 : cell_ok g2 mc) by (eapply rel_group_ok; eauto). assert (Hc2' : cell_ok g2 (-1)) by (unfold cell_ok; lia).
    destruct (check_map_spec g2 mc Hc2) as (b & Eb & Hb). rewrite Eb. destruct b.
    + destruct (run_stages_spec (-1) [host_stage host] g2) as (g3 & E3 & R3); auto. { intros k [<-|[]]; auto. }
      cbn [run_stages] in E3. unfold host_stage at 1 in E3.
      match type of E3 with bind ?q _ = _ => destruct q as [g3'|]; [|discriminate] end. cbn [bind] in E3. injection E3 as ->.
      exists g3. split; [auto|]. destruct (check_map_spec g3 (-1)) as (b' & Eb' & Hb'). { eapply rel_group_ok; eauto. }
      rewrite Eb'. split; [|auto]. destruct b'.
      * right. split; auto. split; auto. intros Q. apply Hb' in Q. discriminate.
      * left. split; auto. right. apply Hb'; auto.
    + exists g2. split; [auto|]. destruct (check_map_spec g2 (-1) Hc2') as (b' & Eb' & Hb'). rewrite Eb'.
      split; [|intros _ Q; exfalso; apply Q, Hb; auto]. destruct b'.
      * right. split; auto. split; auto. intros Q. apply Hb' in Q. discriminate.
      * left. split; auto. right. apply Hb'; auto.
  - exists g2. split; auto. split; [|intros; lia]. left. split; auto.
Qed.

Lemma host_first n locals remotes q : (n <= 3)%nat -> (n <= length (q_ref q))%nat ->
  ((0 <= q_rank q)%Z -> host_kernel n locals remotes q = q) /\
  ((q_rank q < 0)%Z ->
    (exists l1 h l2 xi, locals (q_pos q) ++ remotes = l1 ++ h :: l2 /\ h_contains h (q_pos q) = Some xi /\
       (forall h', In h' l1 -> h_contains h' (q_pos q) = None) /\
       bound_to n (h_id h) (h_rank h) xi q (host_kernel n locals remotes q)) \/
    ((forall h, In h (locals (q_pos q) ++ remotes) -> h_contains h (q_pos q) = None) /\ host_kernel n locals remotes q = q)).
Proof.
  intros Hn Hl. unfold host_kernel. destruct (Z.ltb_spec (q_rank q) 0) as [Hq|Hq]; split; intros Hr; try lia; auto.
  set (p := q_pos q) in *. set (F := fun h => match h_contains h p with Some xi => Some (h, xi) | None => None end).
  assert (FN : forall h, F h = None -> h_contains h p = None) by (intros h; unfold F; destruct (h_contains h p); congruence).
  assert (FS : forall h h' xi, F h = Some (h', xi) -> h' = h /\ h_contains h p = Some xi).
  { intros h h' xi. unfold F. destruct (h_contains h p); [|discriminate]. intros Q; injection Q as <- <-; auto. }
  destruct (find_first F (locals p)) as [[h xi]|] eqn:E1.
  - apply find_first_some in E1 as (l1 & x & l2 & El & Ex & Hb). apply FS in Ex as [<- Ex]. left.
    exists l1, h, (l2 ++ remotes), xi. rewrite El, <- app_assoc. split; [auto|]. split; [auto|]. split; [intros h' Hi; apply FN; auto|apply bind_bound; auto].
  - pose proof (proj1 (find_first_none F (locals p)) E1) as N1.
    destruct (find_first F remotes) as [[h xi]|] eqn:E2.
    + apply find_first_some in E2 as (l1 & x & l2 & El & Ex & Hb). apply FS in Ex as [<- Ex]. left.
      exists (locals p ++ l1), h, l2, xi. rewrite El, <- app_assoc. split; [auto|]. split; [auto|]. split; [|apply bind_bound; auto].
      intros h' Hi. apply in_app_iff in Hi as [Hi|Hi]; apply FN; auto.
    + pose proof (proj1 (find_first_none F remotes) E2) as N2. right. split; auto.
      intros h Hi. apply in_app_iff in Hi as [Hi|Hi]; apply FN; auto.
Qed.

Lemma bound_untouched m q : (0 <= q_rank q)%Z -> initial_kernel m q = Some q /\ final_kernel m q = Some q.
Proof.
  intros H. unfold initial_kernel, final_kernel, newton_kernel, coarse_kernel. replace (Z.ltb (q_rank q) 0) with false by (symmetry; apply Z.ltb_ge; lia).
  split; destruct (Nat.eqb (nm_num_geoms m) 0); reflexivity.
Qed.
Lemma initial_first n conf geoms m q : make_newton_mapper n conf geoms = Some m ->
  (1 <= n <= 3)%nat -> geoms <> [] -> good_geoms n geoms -> (n <= length (q_ref q))%nat -> (q_rank q < 0)%Z ->
  exists lk cands q', make_lookup n (map g_box geoms) = Some lk /\ kernel_candidates lk (q_pos q) = Some cands /\
    initial_kernel m q = Some q' /\
    binds_first n geoms cands (accepts_initial (read_config conf) (kernel_pos n q)) q q'.
Proof.
  intros H Hn Hne Hg Hl Hr. destruct (mapper_inv n conf geoms m H Hne (proj1 Hg)) as (lk0 & E0 & Em).
  destruct (kernel_first n conf geoms m (try_initial m) q H Hn Hne Hg Hl Hr) as (lk & cands & q' & El & Ec & Ek & B).
  exists lk, cands, q'. split; auto. split; auto. unfold initial_kernel. rewrite Ek. subst m. cbn [nm_num_geoms].
  split. { destruct geoms; [congruence|reflexivity]. } exact B.
Qed.
Lemma final_first n conf geoms m q : make_newton_mapper n conf geoms = Some m ->
  (1 <= n <= 3)%nat -> geoms <> [] -> good_geoms n geoms -> (n <= length (q_ref q))%nat -> (q_rank q < 0)%Z ->
  exists lk cands q', make_lookup n (map g_box geoms) = Some lk /\ kernel_candidates lk (q_pos q) = Some cands /\
    final_kernel m q = Some q' /\
    binds_first n geoms cands
      (accepts_final (read_config conf) n
         (grid_size_of (read_config conf) (fold_left Z.max (map g_modes geoms) 0%Z)) (kernel_pos n q)) q q'.
Proof.
  intros H Hn Hne Hg Hl Hr. destruct (mapper_inv n conf geoms m H Hne (proj1 Hg)) as (lk0 & E0 & Em).
  destruct (kernel_first n conf geoms m (try_final m) q H Hn Hne Hg Hl Hr) as (lk & cands & q' & El & Ec & Ek & B).
  exists lk, cands, q'. split; auto. split; auto. unfold final_kernel. rewrite Ek. subst m. cbn [nm_num_geoms].
  split. { destruct geoms; [congruence|reflexivity]. } exact B.
Qed.
Lemma accepted_bound n conf geoms m q k g xi : make_newton_mapper n conf geoms = Some m ->
  (1 <= n <= 3)%nat -> good_geoms n geoms -> (n <= length (q_ref q))%nat -> (q_rank q < 0)%Z ->
  nth_error geoms k = Some g ->
  (forall d, (d < n)%nat -> lo (g_box g) d <= nthR (q_pos q) d < hi (g_box g) d \/
     (nthR (q_pos q) d = hi (g_box g) d /\ hi (g_box g) d = hi (mhbb_bounding_box n (map g_box geoms)) d)) ->
  accepts_initial (read_config conf) (kernel_pos n q) g = Some xi ->
  exists q' g' xi', initial_kernel m q = Some q' /\ In g' geoms /\
    accepts_initial (read_config conf) (kernel_pos n q) g' = Some xi' /\ bound_to n (g_id g') (g_rank g') xi' q q'.
Proof.
  intros H Hn Hg Hl Hr Hk Hb Ha.
  assert (Hne : geoms <> []) by (intros ->; destruct k; discriminate).
  destruct (initial_first n conf geoms m q H Hn Hne Hg Hl Hr) as (lk & cands & q' & El & Ec & Ek & B).
  destruct (coarse_half_open n (map g_box geoms) lk El Hn) with (k := k) (g := g_box g) (p := q_pos q) as (l & E1 & E2); auto.
  { exact (proj2 (proj2 Hg)). }
  { rewrite nth_error_map, Hk. reflexivity. }
  rewrite Ec in E1. injection E1 as <-.
  destruct B as [(l1 & k' & l2 & g' & xi' & _ & Hg' & Hacc & _ & Hbt)|[N _]].
  - exists q', g', xi'. split; auto. split; [eapply nth_error_In; eauto|]. split; auto.
  - specialize (N k g E2 Hk). congruence.
Qed.
Lemma exit_scaling_neg jac lo hi : mean_jac jac < 0 -> (lo <> 0 \/ hi <> 0) -> exists s, exit_scaling_dir jac lo hi = Some s /\ s < 0.
Proof.
  intros Hj Hb. unfold exit_scaling_dir. rewrite fmax_Rmax.
  assert (P : 0 < Rmax (Rabs lo) (Rabs hi)).
  { destruct Hb as [Hb|Hb]; apply Rabs_pos_lt in Hb; [pose proof (Rmax_l (Rabs lo) (Rabs hi))|pose proof (Rmax_r (Rabs lo) (Rabs hi))]; lra. }
  assert (N : Rmax (Rabs lo) (Rabs hi) * mean_jac jac < 0) by nra.
  unfold rdiv. rewrite Req_bool_false by lra.
  eexists. split; [reflexivity|]. unfold Rdiv. rewrite Rmult_1_l. apply Rinv_lt_0_compat; auto.
Qed.
Lemma zrange_length lo hi : (lo <= hi)%Z -> length (zrange lo hi) = Z.to_nat (hi - lo + 1).
Proof. intros H. unfold zrange. rewrite map_length, seq_length. reflexivity. Qed.
Lemma flat_map_const {A B} (f : A -> list B) l k : (forall x, length (f x) = k) -> length (flat_map f l) = (length l * k)%nat.
Proof. intros H. induction l as [|x l IH]; simpl; auto. rewrite app_length, H, IH. reflexivity. Qed.
Lemma start_grid c modes n : (grid_size_min c <= grid_size_max c)%Z ->
  let g := grid_size_of c modes in
  (grid_size_min c <= g <= grid_size_max c)%Z /\
  ((grid_size_min c <= Ztrunc (IZR modes * num_modes_factor c) <= grid_size_max c)%Z -> g = Ztrunc (IZR modes * num_modes_factor c)) /\
  Z.of_nat (length (grid_starts n g)) =
    ((Z.max (g - 1) 1 + 1) * (if Nat.ltb 1 n then Z.max (g - 1) 1 + 1 else 2) * (if Nat.ltb 2 n then Z.max (g - 1) 1 + 1 else 2))%Z.
Proof.
  intros H g. split; [unfold g, grid_size_of; lia|]. split; [unfold g, grid_size_of; lia|]. clearbody g.
  unfold grid_starts, grid_sizes.
  rewrite (flat_map_const _ _ (Z.to_nat ((if Nat.ltb 1 n then Z.max (g - 1) 1 + 1 else 2) * (Z.max (g - 1) 1 + 1)))).
  - rewrite zrange_length by (destruct (Nat.ltb 2 n); lia). rewrite Nat2Z.inj_mul, !Z2Nat.id; destruct (Nat.ltb 1 n), (Nat.ltb 2 n); lia.
  - intros x. rewrite (flat_map_const _ _ (Z.to_nat (Z.max (g - 1) 1 + 1))).
    + rewrite zrange_length by (destruct (Nat.ltb 1 n); lia). destruct (Nat.ltb 1 n); rewrite <- Z2Nat.inj_mul by lia; f_equal; lia.
    + intros y. rewrite map_length, zrange_length by lia. f_equal; lia.
Qed.
Lemma grid_size_max_ignored c v :
  let c' := {| get_real := get_real c; get_int := fun k => if String.eqb k "MapParticlesNewton/grid_size_max" then Some v else get_int c k |} in
  read_config c' = read_config c /\
  (forall n, get_int c "MapParticlesNewton/grid_size_min" = Some n ->
     grid_size_max (read_config c) = n /\ forall modes, grid_size_of (read_config c) modes = n).
Proof.
  split; [reflexivity|]. intros n H. unfold grid_size_of, read_config. cbn [grid_size_min grid_size_max]. rewrite H. cbn [get_or]. split; auto. intros; lia.
Qed.

Lemma start_points n g a b c :
  let G := Z.max (g - 1) 1 in
  In (a, b, c) (grid_starts n g) <-> exists i j k, (0 <= i <= G)%Z /\ (0 <= j <= (if Nat.ltb 1 n then G else 1))%Z /\ (0 <= k <= (if Nat.ltb 2 n then G else 1))%Z /\
    a = -1 + 2 * (IZR i / IZR G) /\ b = -1 + 2 * (IZR j / IZR G) /\ c = -1 + 2 * (IZR k / IZR G).
Proof.
  intros G. unfold grid_starts, grid_sizes. fold G.
  assert (Hw : forall i, IZR i * (2 / IZR G) = 2 * (IZR i / IZR G)) by (intros; unfold Rdiv; ring).
  rewrite in_flat_map. split.
  - intros (k & Hk & H). apply in_flat_map in H as (j & Hj & H). apply in_map_iff in H as (i & E & Hi). injection E as <- <- <-.
    apply in_zrange in Hi, Hj, Hk. exists i, j, k. rewrite !Hw. repeat (split; [assumption || reflexivity|]). reflexivity.
  - intros (i & j & k & Hi & Hj & Hk & -> & -> & ->). exists k. split; [now apply in_zrange|]. apply in_flat_map. exists j. split; [now apply in_zrange|].
    apply in_map_iff. exists i. rewrite !Hw. split; [reflexivity|now apply in_zrange].
Qed.
Lemma starts_in_cube n g a b c : In (a, b, c) (grid_starts n g) -> -1 <= a <= 1 /\ -1 <= b <= 1 /\ -1 <= c <= 1.
Proof.
  intros H. apply start_points in H as (i & j & k & Hi & Hj & Hk & -> & -> & ->). set (G := Z.max (g - 1) 1) in *.
  assert (HG : (1 <= G)%Z) by lia.
  assert (U : forall z, (0 <= z <= G)%Z -> -1 <= -1 + 2 * (IZR z / IZR G) <= 1).
  { intros z Hz. assert (0 < IZR G) by (apply IZR_lt; lia). assert (0 <= IZR z <= IZR G) by (split; apply IZR_le; lia).
    assert (0 <= IZR z / IZR G <= 1); [|lra]. split; [apply Rmult_le_pos; [lra|left; now apply Rinv_0_lt_compat]|]. apply Rmult_le_reg_r with (IZR G); [lra|]. unfold Rdiv. rewrite Rmult_assoc, Rinv_l; lra. }
  clearbody G. split; [apply U; exact Hi|]. split; apply U; [destruct (Nat.ltb 1 n); lia|destruct (Nat.ltb 2 n); lia].
Qed.
