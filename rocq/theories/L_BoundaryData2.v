From Coq Require Import Reals Psatz Sorting.Permutation.
From Verif Require Import M_Bytes M_Transport M_Exchange M_Util M_MeshIf M_LinePlane M_Composite M_BoundaryData.
From Verif Require Import S_Composite S_BoundaryData L_Exchange L_Composite L_BoundaryData.
From Coq Require Import List.
Import ListNotations.
Local Open Scope Z_scope.

(** the slots of particle [i] *)
Definition agree (N i : nat) (b b' : ibuf * rbuf) : Prop :=
  fst b i = fst b' i /\ fst b (N + i)%nat = fst b' (N + i)%nat /\ fst b (N * 2 + i)%nat = fst b' (N * 2 + i)%nat /\
  snd b i = snd b' i /\ snd b (N + i)%nat = snd b' (N + i)%nat /\ snd b (N * 2 + i)%nat = snd b' (N * 2 + i)%nat.
Lemma agree_refl N i b : agree N i b b. Proof. unfold agree. tauto. Qed.
Lemma agree_trans N i a b c : agree N i a b -> agree N i b c -> agree N i a c.
Proof. unfold agree. intuition congruence. Qed.
Lemma iset_neq b i v j : j <> i -> iset_at b i v j = b j.
Proof. intros H. unfold iset_at. destruct (Nat.eqb_spec j i); congruence. Qed.
Lemma iset_eq b i v : iset_at b i v i = v. Proof. unfold iset_at. now rewrite Nat.eqb_refl. Qed.
Lemma rset_neq b i v j : j <> i -> rset_at b i v j = b j.
Proof. intros H. unfold rset_at. destruct (Nat.eqb_spec j i); congruence. Qed.
Lemma rset_eq b i v : rset_at b i v i = v. Proof. unfold rset_at. now rewrite Nat.eqb_refl. Qed.
Lemma write_hit_other N nd i j h b : (i < N)%nat -> (j < N)%nat -> i <> j -> agree N i (write_hit N nd j h b) b.
Proof.
  intros Hi Hj Hn. unfold agree, write_hit. cbn [fst snd].
  destruct (Nat.eqb nd 3); rewrite ?iset_neq, ?rset_neq by lia; repeat split; reflexivity.
Qed.
(** the buffers hold the result [r] for particle [i] *)
Definition holds (nd N i : nat) (r : option bhit) (b : ibuf * rbuf) : Prop :=
  match r with
  | None => fst b i = 0
  | Some h => fst b i = 1 /\ fst b (N + i)%nat = bh_group h /\ fst b (N * 2 + i)%nat = bh_id h /\
      snd b i = vx (bh_point h) /\ snd b (N + i)%nat = vy (bh_point h) /\ (nd = 3%nat -> snd b (N * 2 + i)%nat = vz (bh_point h))
  end.
Lemma holds_agree nd N i r b b' : agree N i b b' -> holds nd N i r b' -> holds nd N i r b.
Proof. unfold agree, holds. intros A H. destruct r; [|intuition congruence]. destruct A as (A1 & A2 & A3 & A4 & A5 & A6).
  rewrite A1, A2, A3, A4, A5, A6. exact H. Qed.
Lemma write_hit_holds nd N i h b : (i < N)%nat -> holds nd N i (Some h) (write_hit N nd i h b).
Proof.
  intros Hi. unfold holds, write_hit. cbn [fst snd].
  split; [rewrite !iset_neq by lia; apply iset_eq|]. split; [rewrite iset_neq by lia; apply iset_eq|].
  split; [apply iset_eq|].
  destruct (Nat.eqb_spec nd 3).
  - rewrite (rset_neq _ _ _ i), (rset_neq _ _ _ i), rset_eq by lia. rewrite (rset_neq _ _ _ (N + i)), rset_eq by lia.
    rewrite rset_eq. auto.
  - rewrite (rset_neq _ _ _ i), rset_eq by lia. rewrite rset_eq. split; auto. split; auto. congruence.
Qed.

(** a loop over distinct particles whose body touches the slots of its particle only *)
Lemma loop_local N (body : ibuf * rbuf -> nat -> ibuf * rbuf) :
  (forall b i j, (i < N)%nat -> (j < N)%nat -> i <> j -> agree N i (body b j) b) ->
  forall l b i, (forall j, In j l -> (j < N)%nat) -> (i < N)%nat -> ~ In i l -> agree N i (fold_left body l b) b.
Proof.
  intros L. induction l as [|j l IH]; intros b i Hl Hi Hn; cbn [fold_left]. { apply agree_refl. }
  eapply agree_trans. { apply IH; auto. intros k Hk. apply Hl. now right. intros H. apply Hn. now right. }
  apply L; auto. apply Hl. now left. intros ->. apply Hn. now left.
Qed.
Lemma loop_result N (body : ibuf * rbuf -> nat -> ibuf * rbuf) (P Q : nat -> ibuf * rbuf -> Prop) :
  (forall b i j, (i < N)%nat -> (j < N)%nat -> i <> j -> agree N i (body b j) b) ->
  (forall i b b', agree N i b b' -> P i b' -> P i b) -> (forall i b b', agree N i b b' -> Q i b' -> Q i b) ->
  (forall i b, (i < N)%nat -> P i b -> Q i (body b i)) ->
  forall l b i, NoDup l -> (forall j, In j l -> (j < N)%nat) -> In i l -> P i b -> Q i (fold_left body l b).
Proof.
  intros L AP AQ S. induction l as [|j l IH]; intros b i ND Hl Hi Hp; cbn [fold_left]. { destruct Hi. }
  inversion ND. subst. destruct Hi as [->|Hi].
  - eapply AQ. { apply (loop_local N body L); auto. intros k Hk. apply Hl. now right. apply Hl. now left. }
    apply S; auto. apply Hl. now left.
  - apply IH; auto. { intros k Hk. apply Hl. now right. }
    eapply AP; [|exact Hp]. apply L; [apply Hl; now right|apply Hl; now left|]. intros ->. contradiction.
Qed.

Section Run.
  Variable tree : list (Z * coll). Variable m : mhier. Variable N : nat. Variable part : nat -> bpart.
  Lemma run_2d_holds lli order stale i : NoDup order -> (forall j, In j order -> (j < N)%nat) -> In i order ->
    holds 2 N i (find_intersections_2d tree lli (bp_pc (part i)) (bp_cc (part i)) m (bp_prev (part i)) (bp_cur (part i)))
      (run_2d tree m N part lli order (fill_zero N (fst stale), snd stale)).
  Proof.
    intros ND Hl Hi. unfold run_2d, find_intersections_2d. destruct tree as [|x tr].
    - cbn [holds fst]. unfold fill_zero. rewrite (proj2 (Nat.ltb_lt _ _) (Hl _ Hi)). reflexivity.
    - apply (loop_result N (kernel_2d (x :: tr) m N part lli) (fun _ _ => True)
        (fun i b => holds 2 N i (snd (scan (x :: tr) cc_segs (bp_prev (part i)) (lli (bp_prev (part i)) (bp_cur (part i))) (scan_cells m (bp_pc (part i)) (bp_cc (part i))) (DBL_MAX, None))) b)); auto.
      + intros b k j Hk Hj Hn. unfold kernel_2d. destruct (snd (scan _ _ _ _ _ _)). { now apply write_hit_other. }
        unfold agree. cbn [fst snd]. rewrite !iset_neq by lia. repeat split; reflexivity.
      + intros k b b'. apply holds_agree.
      + intros k b Hk _. unfold kernel_2d. destruct (snd (scan _ _ _ _ _ _)) as [h|]. { now apply write_hit_holds. }
        cbn [holds fst]. apply iset_eq.
  Qed.
  Lemma run_3d_holds nq nt grid order order' stale i : NoDup order -> NoDup order' -> (forall j, In j order -> (j < N)%nat) ->
    (forall j, In j order' -> (j < N)%nat) -> In i order -> In i order' ->
    holds 3 N i (find_intersections_3d tree nq nt grid (bp_pc (part i)) (bp_cc (part i)) m (bp_prev (part i)) (bp_cur (part i)))
      (run_3d tree m N part nq nt grid order order' (fill_zero N (fst stale), snd stale)).
  Proof.
    intros ND ND' Hl Hl' Hi Hi'. unfold run_3d, find_intersections_3d. destruct tree as [|x tr].
    - cbn [holds fst]. unfold fill_zero. rewrite (proj2 (Nat.ltb_lt _ _) (Hl _ Hi)). reflexivity.
    - set (quad := fun k => snd (scan (x :: tr) cc_quads (bp_prev (part k)) (test_quad nq grid (bp_prev (part k)) (bp_cur (part k))) (scan_cells m (bp_pc (part k)) (bp_cc (part k))) (DBL_MAX, None))).
      set (tri := fun k d => snd (scan (x :: tr) cc_tris (bp_prev (part k)) (test_tri nt (bp_prev (part k)) (bp_cur (part k))) (scan_cells m (bp_pc (part k)) (bp_cc (part k))) (d, None))).
      set (d0 := fun k => match quad k with Some h => hit_dist2 (bh_point h) (bp_prev (part k)) | None => DBL_MAX end).
      set (res := fun k => match tri k (d0 k) with Some h => Some h | None => quad k end).
      assert (K1 : holds 3 N i (quad i) (fold_left (kernel_quads (x :: tr) m N part nq grid) order (fill_zero N (fst stale), snd stale))).
      { apply (loop_result N (kernel_quads (x :: tr) m N part nq grid) (fun k b => fst b k = 0) (fun k b => holds 3 N k (quad k) b)); auto.
        - intros b k j Hk Hj Hn. unfold kernel_quads. destruct (snd (scan _ _ _ _ _ _)). { now apply write_hit_other. } apply agree_refl.
        - intros k b b' (A & _) H. congruence.
        - intros k b b'. apply holds_agree.
        - intros k b Hk H0. unfold kernel_quads. fold (quad k). destruct (quad k) as [h|]. { now apply write_hit_holds. } exact H0.
        - cbn [fst]. unfold fill_zero. rewrite (proj2 (Nat.ltb_lt _ _) (Hl _ Hi)). reflexivity. }
      change (holds 3 N i (res i) (fold_left (kernel_tris (x :: tr) m N part nt) order' (fold_left (kernel_quads (x :: tr) m N part nq grid) order (fill_zero N (fst stale), snd stale)))).
      apply (loop_result N (kernel_tris (x :: tr) m N part nt) (fun k b => holds 3 N k (quad k) b) (fun k b => holds 3 N k (res k) b)); auto.
      + intros b k j Hk Hj Hn. unfold kernel_tris. destruct (snd (scan _ _ _ _ _ _)). { now apply write_hit_other. } apply agree_refl.
      + intros k b b'. apply holds_agree.
      + intros k b b'. apply holds_agree.
      + intros k b Hk H0. unfold kernel_tris.
        assert (D : (if negb (fst b k =? 0) then hit_dist2 (mkV3 (snd b k) (snd b (N + k)%nat) (snd b (N * 2 + k)%nat)) (bp_prev (part k)) else DBL_MAX) = d0 k).
        { unfold d0. destruct (quad k) as [h|]; cbn [holds] in H0.
          - destruct H0 as (A & _ & _ & B & C & D). rewrite A, B, C, (D eq_refl). cbn [Z.eqb negb]. now destruct (bh_point h).
          - rewrite H0. reflexivity. }
        rewrite D. fold (tri k (d0 k)). unfold res. destruct (tri k (d0 k)) as [h|]. { now apply write_hit_holds. } exact H0.
  Qed.
End Run.

Lemma traverse_ok {A B} (f : A -> outcome B) (P : A -> B -> Prop) l : (forall a, In a l -> exists b, f a = Ok b /\ P a b) ->
  exists r, traverse f l = Ok r /\ Forall2 P l r.
Proof.
  induction l as [|a l IH]; intros H; cbn [traverse]. { exists []. auto. }
  destruct (H a (or_introl eq_refl)) as (b & E & Hb). rewrite E. cbn [obind].
  destruct IH as (r & Er & F). { intros x Hx. apply H. now right. } rewrite Er. cbn [obind]. exists (b :: r). auto.
Qed.
Lemma forall2_fst {A B} (P : A -> A * B -> Prop) l r : (forall a b, P a b -> fst b = a) -> Forall2 P l r -> map fst r = l.
Proof. intros H F. induction F; cbn [map]; auto. now rewrite (H _ _ H0), IHF. Qed.
Lemma forall2_in {A B} (P : A -> B -> Prop) l r b : Forall2 P l r -> In b r -> exists a, In a l /\ P a b.
Proof. intros F. induction F; intros []; [subst; exists x; split; auto; now left|]. destruct (IHF H0) as (a & Ha & Hp). exists a. split; auto. now right. Qed.
Lemma forall2_in_l {A B} (P : A -> B -> Prop) l r a : Forall2 P l r -> In a l -> exists b, In b r /\ P a b.
Proof. intros F. induction F; intros []; [subst; exists y; split; auto; now left|]. destruct (IHF H0) as (b & Hb & Hp). exists b. split; auto. now right. Qed.

Lemma holds_flag nd N i r b : holds nd N i r b -> (fst b i =? 1) = match r with Some _ => true | None => false end.
Proof. destruct r; cbn [holds]; intros H; [destruct H as [-> _]|rewrite H]; reflexivity. Qed.
Lemma points_read nd N b i h : nd = 2%nat \/ nd = 3%nat -> holds nd N i (Some h) b ->
  map (fun dx => snd b (dx * N + i)%nat) (seq 0 nd) = coords nd (bh_point h).
Proof.
  intros Hd H. cbn [holds] in H. destruct H as (_ & _ & _ & A & B & C). destruct Hd as [->| ->]; cbn [seq map coords firstn].
  - rewrite <- A, <- B. replace (0 * N + i)%nat with i by lia. replace (1 * N + i)%nat with (N + i)%nat by lia. reflexivity.
  - rewrite <- A, <- B, <- (C eq_refl). replace (0 * N + i)%nat with i by lia. replace (1 * N + i)%nat with (N + i)%nat by lia. replace (2 * N + i)%nat with (N * 2 + i)%nat by lia. reflexivity.
Qed.
Lemma collect_groups_spec nd N groups iset normals b (res : nat -> option bhit) : nd = 2%nat \/ nd = 3%nat -> NoDup iset ->
  (forall i, In i iset -> holds nd N i (res i) b) ->
  (forall i h, In i iset -> res i = Some h -> exists n, read_normal nd normals (bh_id h) = Ok n) ->
  exists gs, collect_groups nd N groups iset normals b = Ok gs /\ map fst gs = map fst groups /\
    forall label l, In (label, l) gs -> NoDup (map fst l) /\
      forall i d, In (i, d) l <-> In i iset /\ exists h n, res i = Some h /\ bh_group h = label /\
        read_normal nd normals (bh_id h) = Ok n /\ d = mkBdata (coords nd (bh_point h)) (bh_group h) (bh_id h) (Some n).
Proof.
  intros Hd ND Hb Hn. unfold collect_groups. set (hitting := filter (fun i => fst b i =? 1) iset).
  set (good_ := fun i (x : nat * bdata) => exists h n, res i = Some h /\ read_normal nd normals (bh_id h) = Ok n /\
     x = (i, mkBdata (coords nd (bh_point h)) (bh_group h) (bh_id h) (Some n))).
  assert (Hh : forall i, In i hitting -> In i iset /\ exists h, res i = Some h /\ fst b (N + i)%nat = bh_group h).
  { intros i Hi. apply filter_In in Hi. destruct Hi as [Hi Hf]. split; auto. rewrite (holds_flag _ _ _ _ _ (Hb i Hi)) in Hf.
    specialize (Hb i Hi). destruct (res i) as [h|]; [|discriminate]. exists h. split; auto. now destruct Hb as (_ & B & _). }
  assert (Pd : forall i, In i hitting -> exists x, particle_data nd N normals b i = Ok x /\ good_ i x).
  { intros i Hi. destruct (Hh i Hi) as (Hi' & h & Er & Eg). destruct (Hn i h Hi' Er) as (n & En). specialize (Hb i Hi'). rewrite Er in Hb.
    unfold particle_data. rewrite (points_read nd N b i h Hd Hb).
    destruct Hb as (_ & B & C & _). rewrite B, C. destruct normals as [|p r]; [discriminate|].
    rewrite En. cbn [obind]. eexists. split; [reflexivity|]. exists h, n. auto. }
  destruct (traverse_ok (fun g : Z * list Z => obind (traverse (particle_data nd N normals b) (filter (fun i => fst b (N + i)%nat =? fst g) hitting)) (fun d => Ok (fst g, d)))
    (fun g x => fst x = fst g /\ Forall2 good_ (filter (fun i => fst b (N + i)%nat =? fst g) hitting) (snd x)) groups) as (gs & E & F).
  { intros g _. destruct (traverse_ok (particle_data nd N normals b) good_ (filter (fun i => fst b (N + i)%nat =? fst g) hitting)) as (r & Er & Fr).
    { intros i Hi. apply Pd. apply filter_In in Hi. tauto. }
    rewrite Er. cbn [obind]. eexists. split; [reflexivity|]. cbn [fst snd]. auto. }
  exists gs. split; [exact E|]. split.
  { clear - F. induction F; cbn [map]; auto. destruct H as [H _]. now rewrite H, IHF. }
  intros label l Hl. destruct (forall2_in _ _ _ _ F Hl) as (g & Hg & Hlab & Fl). cbn [fst snd] in Hlab, Fl.
  assert (Ef : map fst l = filter (fun i => fst b (N + i)%nat =? fst g) hitting).
  { apply (forall2_fst good_). - intros a x (h & n & _ & _ & ->). reflexivity. - exact Fl. }
  split.
  - rewrite Ef. apply NoDup_filter. unfold hitting. now apply NoDup_filter.
  - intros i d. split.
    + intros Hi. destruct (forall2_in _ _ _ _ Fl Hi) as (a & Ha & h & n & Er & En & Ex). inversion Ex. subst a d.
      apply filter_In in Ha. destruct Ha as [Ha Hlb]. destruct (Hh i Ha) as (Hi' & h' & Er' & Eg). rewrite Er in Er'. inversion Er'. subst h'.
      split; auto. exists h, n. split; auto. split; [apply Z.eqb_eq in Hlb; congruence|]. auto.
    + intros (Hi & h & n & Er & Eg & En & ->).
      assert (Ha : In i (filter (fun i => fst b (N + i)%nat =? fst g) hitting)).
      { pose proof (Hb i Hi) as K. rewrite Er in K. apply filter_In. split.
        - apply filter_In. split; auto. now destruct K as (-> & _).
        - destruct K as (_ & K & _). rewrite K. apply Z.eqb_eq. congruence. }
      destruct (forall2_in_l _ _ _ _ Fl Ha) as (x & Hx & h' & n' & Er' & En' & ->).
      rewrite Er in Er'. inversion Er'. subst h'. rewrite En in En'. inversion En'. subst n'. exact Hx.
Qed.
