From Coq Require Import Sorting.Permutation Sorting.Sorted ZArith Reals Lia Bool.
From Verif Require Import M_Bytes M_Pack2D M_RemoteGeom M_Transport M_Exchange S_Exchange M_MeshIf S_Grid S_MeshIf M_Halo S_Halo M_Halo3D S_Halo3D M_HaloExt3 S_HaloExt3.
From Verif Require Import M_Util L_Util L_MeshIf L_Exchange L_ExchangeMesh L_ExchangeEnd L_HaloCells L_Halo L_Halo2 L_Halo3 L_ListX L_HaloExt3 L_HaloExt3b L_HaloExt3c.
From Coq Require Import List.
Import ListNotations.
Local Open Scope Z_scope.

Section Call.
  Context (size : Z) (m : mhier) (bx : elem3d -> box) (owner : Z -> Z) (owned unowned : Z -> list Z).
  Context (faces : Z -> list (Z * geom2d)) (elems : Z -> list (Z * elem3d)).
  Hypothesis Hm : mh_ok m.
  Hypothesis He : mesh3_wf size m bx faces elems.
  Hypothesis Hcells : forall a g, 0 <= a < size -> In g (owned a ++ unowned a) -> exists t, cell_at m g t.
  Lemma call3_result w pbc sts sts' : halo_ready3 size faces elems sts -> halo_call3 size m bx owner owned unowned w pbc sts sts' ->
    forall a, 0 <= a < size -> state_wf3 size faces elems a (sts' a) /\
    exists nt nq ne, rk_tris (s3_2d (sts' a)) = rk_tris (s3_2d (sts a)) ++ nt /\ rk_quads (s3_2d (sts' a)) = rk_quads (s3_2d (sts a)) ++ nq /\ s3_elems (sts' a) = s3_elems (sts a) ++ ne /\
      (forall x, In x ne <-> 0 <= w /\ got3 size m bx owner owned unowned w pbc sts a x /\ ~ knows3 a (sts a) x) /\
      (forall f, In f (nt ++ nq) <-> (exists x, In x ne /\ face_of x f) /\ ~ knows a (s3_2d (sts a)) f).
  Proof.
    intros Hst H a Ha. destruct H as [Hw E|req arrival rep torder qorder sorder Hw Hok Hreq HA HS HO HF].
    - rewrite E by auto. split; [apply Hst; auto|]. exists [], [], []. rewrite !app_nil_r. split; [auto|]. split; [auto|]. split; [auto|]. split.
      + intros x. simpl. split; [tauto|lia].
      + intros f. simpl. split; [tauto|]. intros [(x & [] & _) _].
    - assert (Hwo : width_ok m w) by (split; auto; apply offset_ok_iff; auto).
      assert (Hrep : forall b a, 0 <= b < size -> 0 <= a < size -> In b (map fst (req a)) -> replied m bx owner owned unowned w pbc sts b a (rep b)).
      { intros b a' Hb Ha' Hi. destruct (serve3_spec size m bx owner owned unowned w pbc faces elems sts Hm He Hst Hcells Hwo req Hreq b (arrival b) Hb (HA b Hb)) as (r & E & Hr).
        rewrite (HS b Hb) in E. injection E as <-. auto. }
      destruct (HO a Ha) as (O1 & O2 & O3).
      destruct (finish3_spec size m bx owner owned unowned w pbc faces elems sts Hm He Hst Hcells Hwo req Hreq rep Hrep a (torder a) (qorder a) (sorder a) Ha O1 O2 O3)
        as (st' & E & W & nt & nq & ne & E1 & E2 & E3 & Hn & Hf).
      rewrite (HF a Ha) in E. injection E as <-. split; auto. exists nt, nq, ne. split; [auto|]. split; [auto|]. split; [auto|]. split; [|exact Hf]. intros x. rewrite Hn. tauto.
  Qed.
  Lemma call3_total w pbc sts : halo_ready3 size faces elems sts -> 0 <= w -> offset_ok m w = true ->
    exists req, (forall a, 0 <= a < size -> exists cells, halo_cells m w pbc (owned a) (unowned a) = Ok cells /\ req a = halo_rank_cells size a owner cells) /\
    forall arrival, (forall b, 0 <= b < size -> Permutation (arrival b) (halo_metadata size req b)) ->
    exists rep, (forall b, 0 <= b < size -> halo_serve3 size m bx req b (sts b) (arrival b) = HOk (Ok (rep b))) /\
    forall torder qorder sorder, (forall a, 0 <= a < size -> Permutation (torder a) (seq 0 (length (req a))) /\ Permutation (qorder a) (seq 0 (length (req a))) /\ Permutation (sorder a) (seq 0 (length (req a)))) ->
    exists sts', (forall a, 0 <= a < size -> halo_finish3 a (sts a) (map fst (req a))
       (fun b => pack_geoms2d (mget (p3_tris (rep b)) a)) (fun b => pack_geoms2d (mget (p3_quads (rep b)) a)) (fun b => mget (p3_ints (rep b)) a)
       (torder a) (qorder a) (sorder a) = HOk (Ok (sts' a))) /\
      halo_call3 size m bx owner owned unowned w pbc sts sts'.
  Proof.
    intros Hst Hw Hok. assert (Hwo : width_ok m w) by (split; auto; apply offset_ok_iff; auto).
    destruct (choose_ranks [] size (fun a r => exists cells, halo_cells m w pbc (owned a) (unowned a) = Ok cells /\ r = halo_rank_cells size a owner cells)) as [req Hreq].
    { intros a Ha. destruct (halo_cells_spec m w pbc (owned a) (unowned a) Hm Hwo (fun g => Hcells a g Ha)) as (s & Es & _). eauto. }
    exists req. split; auto. intros arrival HA.
    destruct (choose_ranks (mkReply3 [] [] []) size (fun b r => halo_serve3 size m bx req b (sts b) (arrival b) = HOk (Ok r))) as [rep HS].
    { intros b Hb. destruct (serve3_spec size m bx owner owned unowned w pbc faces elems sts Hm He Hst Hcells Hwo req Hreq b (arrival b) Hb (HA b Hb)) as (r & E & _). eauto. }
    exists rep. split; auto. intros torder qorder sorder HO.
    assert (Hrep : forall b a, 0 <= b < size -> 0 <= a < size -> In b (map fst (req a)) -> replied m bx owner owned unowned w pbc sts b a (rep b)).
    { intros b a' Hb Ha' Hi. destruct (serve3_spec size m bx owner owned unowned w pbc faces elems sts Hm He Hst Hcells Hwo req Hreq b (arrival b) Hb (HA b Hb)) as (r & E & Hr).
      rewrite (HS b Hb) in E. injection E as <-. auto. }
    destruct (choose_ranks (mkRankState3 (mkRankState [] [] []) [] []) size (fun a st' => halo_finish3 a (sts a) (map fst (req a))
       (fun b => pack_geoms2d (mget (p3_tris (rep b)) a)) (fun b => pack_geoms2d (mget (p3_quads (rep b)) a)) (fun b => mget (p3_ints (rep b)) a)
       (torder a) (qorder a) (sorder a) = HOk (Ok st'))) as [sts' HF].
    { intros a Ha. destruct (HO a Ha) as (O1 & O2 & O3).
      destruct (finish3_spec size m bx owner owned unowned w pbc faces elems sts Hm He Hst Hcells Hwo req Hreq rep Hrep a (torder a) (qorder a) (sorder a) Ha O1 O2 O3) as (st' & E & _). eauto. }
    exists sts'. split; auto. eapply HaloExchange3; eauto.
  Qed.
  Lemma element3_dec a sts x : 0 <= a < size -> halo_ready3 size faces elems sts -> element3 size elems x -> knows3 a (sts a) x \/ ~ knows3 a (sts a) x.
  Proof.
    intros Ha Hst [X1 X2]. eapply (knows3_dec size m bx faces elems sts He Hst); auto. exists (r3_rank x). split; auto. left. split; auto.
    destruct (Hst _ X1) as [(_ & -> & _) _]. auto.
  Qed.
  Lemma call3_complete w pbc sts sts' : halo_ready3 size faces elems sts -> owners_know3 size m bx owner elems sts -> 0 <= w -> halo_call3 size m bx owner owned unowned w pbc sts sts' ->
    forall a g x, 0 <= a < size -> halo_cell m w pbc (owned a) (unowned a) g -> 0 <= owner g < size ->
      element3 size elems x -> overlaps3 m bx g x -> knows3 a (sts' a) x /\ forall f, face_of x f -> knows a (s3_2d (sts' a)) f.
  Proof.
    intros Hst Ho Hw Hc a g x Ha Hg Hog Hx Hov. destruct (call3_result w pbc sts sts' Hst Hc a Ha) as (W & nt & nq & ne & E1 & E2 & E3 & Hn & _).
    assert (Eo : s3_own (sts' a) = s3_own (sts a)) by (destruct W as (_ & -> & _); destruct (Hst a Ha) as [(_ & -> & _) _]; auto).
    assert (Kx : knows3 a (sts' a) x).
    { assert (Hold : knows3 a (sts a) x -> knows3 a (sts' a) x) by (unfold knows3; rewrite Eo, E3, !in_app_iff; tauto).
      destruct (Z.eq_dec (owner g) a) as [E|Hne]; [apply Hold; rewrite <- E; apply Ho; auto|].
      destruct (element3_dec a sts x Ha Hst Hx) as [K|K]; auto.
      assert (Hi : In x ne).
      { apply Hn. split; auto. split; auto. exists (owner g). split; auto. split; auto. split; [apply Ho; auto|]. exists g. auto. }
      right. rewrite E3, in_app_iff. auto. }
    split; auto. intros f Ff. destruct W as (W1 & W2 & _ & _ & W5). destruct Kx as [[Er Hi]|Hi]; [left|right; eapply W5; eauto].
    destruct Ff as (F1 & F2 & F3). split; [congruence|]. destruct W1 as (-> & _). rewrite F3. rewrite W2 in Hi. destruct (He a Ha) as [_ [_ H]]. apply (H _ _ Hi). auto.
  Qed.
  Lemma history3_result sts sts' : (forall a, 0 <= a < size -> state_wf3 size faces elems a (sts a)) -> halo_history3 size m bx owner owned unowned sts sts' ->
    forall a, 0 <= a < size -> state_wf3 size faces elems a (sts' a) /\
      exists nt nq ne, rk_tris (s3_2d (sts' a)) = rk_tris (s3_2d (sts a)) ++ nt /\ rk_quads (s3_2d (sts' a)) = rk_quads (s3_2d (sts a)) ++ nq /\ s3_elems (sts' a) = s3_elems (sts a) ++ ne.
  Proof.
    intros Hst H. induction H as [sts|sts sts' sts'' w pbc H IH Hs Hc]; intros a Ha.
    - split; auto. exists [], [], []. now rewrite !app_nil_r.
    - specialize (IH Hst). assert (G : halo_ready3 size faces elems sts') by (intros b Hb; split; [apply IH; auto|auto]).
      destruct (call3_result w pbc sts' sts'' G Hc a Ha) as (W & nt & nq & ne & E1 & E2 & E3 & _). destruct (IH a Ha) as (_ & nt' & nq' & ne' & E1' & E2' & E3').
      split; auto. exists (nt' ++ nt), (nq' ++ nq), (ne' ++ ne). rewrite E1, E2, E3, E1', E2', E3', !app_assoc. auto.
  Qed.
End Call.

(** ** all elements of the graph *)
Lemma zassign_fold_get {V} (l : list (Z * V)) : forall mp k, zget (fold_left (fun mp kv => zassign mp (fst kv) (snd kv)) l mp) k =
  match zget (rev l) k with Some v => Some v | None => zget mp k end.
Proof.
  induction l as [|[i v] l IH]; intros mp k; cbn [fold_left rev fst snd]; [reflexivity|]. rewrite IH, zget_zassign.
  assert (E : forall (l1 l2 : list (Z * V)), zget (l1 ++ l2) k = match zget l1 k with Some v => Some v | None => zget l2 k end).
  { induction l1 as [|[a b] l1 IH1]; intros l2; simpl; auto. destruct (k =? a); auto. }
  rewrite E. destruct (zget (rev l) k); auto. simpl. destruct (k =? i); auto.
Qed.
Lemma zassign_fold_sorted {V} (l : list (Z * V)) : forall mp, keys_sorted mp -> keys_sorted (fold_left (fun mp kv => zassign mp (fst kv) (snd kv)) l mp).
Proof. induction l as [|x l IH]; intros mp H; simpl; auto. apply IH. now apply zassign_sorted. Qed.
