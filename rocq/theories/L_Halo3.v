From Coq Require Import Sorting.Permutation Sorting.Sorted ZArith Reals Lia Bool.
From Verif Require Import M_Bytes M_Pack2D M_RemoteGeom M_Transport M_Exchange S_Exchange M_MeshIf S_Grid S_MeshIf M_Halo S_Halo.
From Verif Require Import M_Util L_Util L_MeshIf L_Exchange L_ExchangeMesh L_ExchangeEnd L_HaloCells L_Halo L_Halo2 L_ListX.
From Coq Require Import List.
Import ListNotations.
Local Open Scope Z_scope.

Lemma choose_ranks {A} (d : A) size (P : Z -> A -> Prop) : (forall a, 0 <= a < size -> exists y, P a y) -> exists f, forall a, 0 <= a < size -> P a (f a).
Proof.
  intros H. destruct (Z_le_dec size 0) as [Hs|Hs]; [exists (fun _ => d); intros; lia|].
  rewrite <- (Z2Nat.id size) in * by lia. induction (Z.to_nat size) as [|n IH]; [exists (fun _ => d); intros; lia|].
  destruct (Z_le_dec (Z.of_nat n) 0) as [Hn|Hn].
  - destruct (H 0 ltac:(lia)) as [y Hy]. exists (fun _ => y). intros a Ha. replace a with 0 by lia. auto.
  - destruct IH as [f Hf]; [intros a Ha; apply H; lia|lia|]. destruct (H (Z.of_nat n) ltac:(lia)) as [y Hy].
    exists (fun a => if a =? Z.of_nat n then y else f a). intros a Ha. destruct (Z.eqb_spec a (Z.of_nat n)) as [->|Hne]; auto. apply Hf. lia.
Qed.
Section Call.
  Context (size : Z) (m : mhier) (bx : geom2d -> box) (owner : Z -> Z) (owned unowned : Z -> list Z) (elems : Z -> list (Z * geom2d)).
  Hypothesis Hm : mh_ok m.
  Hypothesis He : elems_wf size m bx elems.
  Hypothesis Hcells : forall a g, 0 <= a < size -> In g (owned a ++ unowned a) -> exists t, cell_at m g t.
  Lemma call_result w pbc sts sts' : halo_ready size elems sts -> halo_call size m bx owner owned unowned w pbc sts sts' ->
    forall a, 0 <= a < size -> state_wf size elems a (sts' a) /\ rk_own (sts' a) = rk_own (sts a) /\
    exists nt nq, rk_tris (sts' a) = rk_tris (sts a) ++ nt /\ rk_quads (sts' a) = rk_quads (sts a) ++ nq /\
      forall x, In x (nt ++ nq) <-> 0 <= w /\ got size m bx owner owned unowned w pbc sts a x /\ ~ knows a (sts a) x.
  Proof.
    intros Hst H a Ha. destruct H as [Hw E|req arrival rep torder qorder Hw Hok Hreq HA HS HO HF].
    - rewrite E by auto. split; [apply Hst; auto|]. split; auto. exists [], []. rewrite !app_nil_r. split; auto. split; auto. intros x. simpl. split; [tauto|lia].
    - assert (Hwo : width_ok m w) by (split; auto; apply offset_ok_iff; auto).
      assert (Hrep : forall b a, 0 <= b < size -> 0 <= a < size -> In b (map fst (req a)) -> exists l, NoDup (map key_of l) /\ (forall x, In x l <-> reply_to m bx owner owned unowned w pbc sts b a x) /\
        mget (fst (rep b)) a = filter (fun x => is_tri (r2_geom x)) l /\
        mget (snd (rep b)) a = filter (fun x => negb (is_tri (r2_geom x)) && is_quad (r2_geom x)) l).
      { intros b a' Hb Ha' Hi. destruct (serve_spec size m bx owner owned unowned w pbc elems sts Hm He Hst Hcells Hwo req Hreq b (arrival b) Hb (HA b Hb)) as (r & E & Hr).
        rewrite (HS b Hb) in E. injection E as <-. auto. }
      destruct (HO a Ha) as [O1 O2].
      destruct (finish_spec size m bx owner owned unowned w pbc elems sts Hm He Hst Hcells Hwo req Hreq rep Hrep a (torder a) (qorder a) Ha O1 O2) as (st' & E & W & nt & nq & E1 & E2 & Hn).
      rewrite (HF a Ha) in E. injection E as <-. split; auto. split; [destruct W as (-> & _); symmetry; apply Hst; auto|].
      exists nt, nq. split; auto. split; auto. intros x. rewrite Hn. tauto.
  Qed.
  Lemma call_total w pbc sts : halo_ready size elems sts -> 0 <= w -> offset_ok m w = true ->
    exists req, (forall a, 0 <= a < size -> exists cells, halo_cells m w pbc (owned a) (unowned a) = Ok cells /\ req a = halo_rank_cells size a owner cells) /\
    forall arrival, (forall b, 0 <= b < size -> Permutation (arrival b) (halo_metadata size req b)) ->
    exists rep, (forall b, 0 <= b < size -> halo_serve size m bx req b (sts b) (arrival b) = HOk (Ok (rep b))) /\
    forall torder qorder, (forall a, 0 <= a < size -> Permutation (torder a) (seq 0 (length (req a))) /\ Permutation (qorder a) (seq 0 (length (req a)))) ->
    exists sts', (forall a, 0 <= a < size -> halo_finish a (sts a) (map fst (req a))
       (fun b => pack_geoms2d (mget (fst (rep b)) a)) (fun b => pack_geoms2d (mget (snd (rep b)) a)) (torder a) (qorder a) = HOk (Ok (sts' a))) /\
      halo_call size m bx owner owned unowned w pbc sts sts'.
  Proof.
    intros Hst Hw Hok. assert (Hwo : width_ok m w) by (split; auto; apply offset_ok_iff; auto).
    destruct (choose_ranks [] size (fun a r => exists cells, halo_cells m w pbc (owned a) (unowned a) = Ok cells /\ r = halo_rank_cells size a owner cells)) as [req Hreq].
    { intros a Ha. destruct (halo_cells_spec m w pbc (owned a) (unowned a) Hm Hwo (fun g => Hcells a g Ha)) as (s & Es & _). eauto. }
    exists req. split; auto. intros arrival HA.
    destruct (choose_ranks ([], []) size (fun b r => halo_serve size m bx req b (sts b) (arrival b) = HOk (Ok r))) as [rep HS].
    { intros b Hb. destruct (serve_spec size m bx owner owned unowned w pbc elems sts Hm He Hst Hcells Hwo req Hreq b (arrival b) Hb (HA b Hb)) as (r & E & _). eauto. }
    exists rep. split; auto. intros torder qorder HO.
    assert (Hrep : forall b a, 0 <= b < size -> 0 <= a < size -> In b (map fst (req a)) -> exists l, NoDup (map key_of l) /\ (forall x, In x l <-> reply_to m bx owner owned unowned w pbc sts b a x) /\
      mget (fst (rep b)) a = filter (fun x => is_tri (r2_geom x)) l /\
      mget (snd (rep b)) a = filter (fun x => negb (is_tri (r2_geom x)) && is_quad (r2_geom x)) l).
    { intros b a' Hb Ha' Hi. destruct (serve_spec size m bx owner owned unowned w pbc elems sts Hm He Hst Hcells Hwo req Hreq b (arrival b) Hb (HA b Hb)) as (r & E & Hr).
      rewrite (HS b Hb) in E. injection E as <-. auto. }
    destruct (choose_ranks (mkRankState [] [] []) size (fun a st' => halo_finish a (sts a) (map fst (req a))
       (fun b => pack_geoms2d (mget (fst (rep b)) a)) (fun b => pack_geoms2d (mget (snd (rep b)) a)) (torder a) (qorder a) = HOk (Ok st'))) as [sts' HF].
    { intros a Ha. destruct (HO a Ha) as [O1 O2].
      destruct (finish_spec size m bx owner owned unowned w pbc elems sts Hm He Hst Hcells Hwo req Hreq rep Hrep a (torder a) (qorder a) Ha O1 O2) as (st' & E & _). eauto. }
    exists sts'. split; auto. eapply HaloExchange; eauto.
  Qed.
  Lemma knows_iff_decide a st x : 0 <= a < size -> state_wf size elems a st -> (exists b, 0 <= b < size /\ In (r2_id x, r2_geom x) (elems (r2_rank x)) /\ 0 <= r2_rank x < size) -> knows a st x \/ ~ knows a st x.
  Proof.
    intros Ha W (b & _ & Hx & Hr). pose proof (known_spec size elems a st (proj1 (He a Ha)) W x) as K.
    destruct (kget (rank_to_geoms a st) (key_of x)) as [g|] eqn:E.
    - left. assert (Ky : knows a st (mkRemote2D (r2_rank x) (r2_id x) g)).
      { pose proof (known_spec size elems a st (proj1 (He a Ha)) W (mkRemote2D (r2_rank x) (r2_id x) g)) as K2. apply K2. exact E. }
      assert (Hy : In (r2_id x, g) (elems (r2_rank x))).
      { destruct W as (Eo & Hc & _). destruct Ky as [[E1 H1]|H1]; cbn [r2_rank r2_id r2_geom] in *; [rewrite E1, <- Eo; auto|]. apply (Hc _ H1). }
      destruct (He _ Hr) as [S _]. apply L_Util.sorted_nodup in S. apply (zget_in _ _ _ S) in Hy. apply (zget_in _ _ _ S) in Hx.
      replace x with (mkRemote2D (r2_rank x) (r2_id x) g); auto. destruct x; simpl in *. congruence.
    - right. intros Kx. apply K in Kx. congruence.
  Qed.
  Lemma call_complete w pbc sts sts' : halo_ready size elems sts -> owners_know size m bx owner elems sts -> 0 <= w -> halo_call size m bx owner owned unowned w pbc sts sts' ->
    forall a g x, 0 <= a < size -> halo_cell m w pbc (owned a) (unowned a) g -> 0 <= owner g < size ->
      element size elems x -> overlaps m bx g x -> knows a (sts' a) x.
  Proof.
    intros Hst Ho Hw Hc a g x Ha Hg Hog Hx Hov. destruct (call_result w pbc sts sts' Hst Hc a Ha) as (_ & Eo & nt & nq & E1 & E2 & Hn).
    assert (Hold : knows a (sts a) x -> knows a (sts' a) x).
    { unfold knows. rewrite Eo, E1, E2, !in_app_iff. tauto. }
    destruct (Z.eq_dec (owner g) a) as [E|Hne]; [apply Hold; rewrite <- E; apply Ho; auto|].
    destruct (knows_iff_decide a (sts a) x Ha) as [K|K]; [apply Hst; auto|destruct Hx; eauto|auto|].
    assert (Hi : In x (nt ++ nq)).
    { apply Hn. split; auto. split; auto. exists (owner g). split; auto. split; auto. split; [apply Ho; auto|]. exists g. auto. }
    right. rewrite E1, E2. rewrite !in_app_iff in *. tauto.
  Qed.
  Lemma history_result sts sts' : (forall a, 0 <= a < size -> state_wf size elems a (sts a)) -> halo_history size m bx owner owned unowned sts sts' ->
    forall a, 0 <= a < size -> state_wf size elems a (sts' a) /\ rk_own (sts' a) = rk_own (sts a) /\
      exists nt nq, rk_tris (sts' a) = rk_tris (sts a) ++ nt /\ rk_quads (sts' a) = rk_quads (sts a) ++ nq.
  Proof.
    intros Hst H. induction H as [sts|sts sts' sts'' w pbc H IH Hs Hc]; intros a Ha.
    - split; auto. split; auto. exists [], []. now rewrite !app_nil_r.
    - specialize (IH Hst). assert (G : halo_ready size elems sts') by (intros b Hb; split; [apply IH; auto|auto]).
      destruct (call_result w pbc sts' sts'' G Hc a Ha) as (W & Eo & nt & nq & E1 & E2 & _). destruct (IH a Ha) as (_ & Eo' & nt' & nq' & E1' & E2').
      split; auto. split; [congruence|]. exists (nt' ++ nt), (nq' ++ nq). rewrite E1, E2, E1', E2', !app_assoc. auto.
  Qed.
End Call.
