From Coq Require Import Sorting.Permutation Sorting.Sorted ZArith Lia Bool.
From Verif Require Import M_Bytes M_Transport M_Exchange M_Util M_MeshIf S_Grid S_MeshIf S_Halo M_LinePlane M_Composite S_Composite.
From Verif Require Import L_Grid L_MeshIf L_Transport L_HaloCells.
From Coq Require Import List.
Import ListNotations.
Local Open Scope Z_scope.

Lemma counts_fine m : map (fun d => d * mh_nf m) (mh_dims m) = fine_counts m.
Proof. unfold fine_counts. apply map_ext. intros. lia. Qed.
Lemma nth_map_combine {A B C} (f : A * B -> C) (l : list A) : forall (k : list B) d, length l = length k ->
  nth_error (map f (combine l k)) d = match nth_error l d, nth_error k d with Some x, Some y => Some (f (x, y)) | _, _ => None end.
Proof.
  induction l as [|x l IH]; intros [|y k] d H; simpl in *; try discriminate; destruct d; simpl; auto.
Qed.
Lemma nth_combine {A B} (l : list A) : forall (k : list B) d, length l = length k ->
  nth_error (combine l k) d = match nth_error l d, nth_error k d with Some x, Some y => Some (x, y) | _, _ => None end.
Proof.
  induction l as [|x l IH]; intros [|y k] d H; simpl in *; try discriminate; destruct d; simpl; auto.
Qed.
Definition mm_inv (counts : list Z) (st : list Z * list Z) (seen : list (list Z)) : Prop :=
  length (fst st) = length counts /\ length (snd st) = length counts /\
  forall d n mn mx, nth_error counts d = Some n -> nth_error (fst st) d = Some mn -> nth_error (snd st) d = Some mx ->
    0 <= mn /\ mx <= n - 1 /\ forall c x, In c seen -> nth_error c d = Some x -> mn <= Z.max 0 x /\ Z.min (n - 1) x <= mx.
Lemma minmax_inv counts carts : Forall (fun d => 0 < d) counts -> Forall (fun c => length c = length counts) carts ->
  mm_inv counts (cell_minmax counts carts) carts.
Proof.
  intros Hpos Hlen. unfold cell_minmax.
  assert (G : forall carts seen st, Forall (fun c => length c = length counts) carts -> mm_inv counts st seen ->
     mm_inv counts (fold_left (fun st c => (upd_min (fst st) c, upd_max counts (snd st) c)) carts st) (seen ++ carts)).
  { clear carts Hlen. induction carts as [|c carts IH]; intros seen st Hl Hi; simpl; [now rewrite app_nil_r|].
    inversion Hl as [|? ? Hc Hl']; subst. replace (seen ++ c :: carts) with ((seen ++ [c]) ++ carts) by now rewrite <- app_assoc.
    apply IH; auto. destruct Hi as (L1 & L2 & H). unfold mm_inv, upd_min, upd_max. cbn [fst snd].
    rewrite !map_length, !combine_length, L1, L2, Hc, !Nat.min_id. split; auto. split; auto.
    intros d n mn mx Hn Hmn Hmx. rewrite nth_map_combine in Hmn by congruence. rewrite nth_map_combine in Hmx by (rewrite combine_length; lia).
    rewrite nth_combine in Hmx by congruence. rewrite Hn in Hmx.
    destruct (nth_error (fst st) d) as [a|] eqn:Ea; [|discriminate]. destruct (nth_error c d) as [y|] eqn:Ey; [|discriminate].
    destruct (nth_error (snd st) d) as [b|] eqn:Eb; [|discriminate]. injection Hmn as <-. injection Hmx as <-. cbn [fst snd].
    destruct (H d n a b Hn Ea Eb) as (A & B & C). split; [lia|]. split; [lia|].
    intros c' x Hin Hx. apply in_app_iff in Hin as [Hin|[<-|[]]]; [destruct (C c' x Hin Hx); lia|]. rewrite Hx in Ey. injection Ey as ->. lia. }
  apply (G carts [] (map (fun _ => INT_MAX) counts, map (fun _ => INT_MIN) counts) Hlen). unfold mm_inv. cbn [fst snd]. rewrite !map_length. split; [reflexivity|]. split; [reflexivity|].
  intros d n mn mx Hn Hmn Hmx. rewrite nth_error_map, Hn in Hmn, Hmx. injection Hmn as <-. injection Hmx as <-.
  assert (0 < n) by (rewrite Forall_forall in Hpos; apply Hpos; eapply nth_error_In; eauto). unfold INT_MAX, INT_MIN. split; [lia|]. split; [lia|]. intros ? ? [].
Qed.
Lemma forall2_nth {A B} (P : A -> B -> Prop) l : forall k, Forall2 P l k <-> length l = length k /\ forall d x y, nth_error l d = Some x -> nth_error k d = Some y -> P x y.
Proof.
  induction l as [|a l IH]; intros [|b k]; simpl.
  - split; [|constructor]. intros _. split; auto. intros [|d]; discriminate.
  - split; [intros H; inversion H|intros [H _]; discriminate].
  - split; [intros H; inversion H|intros [H _]; discriminate].
  - split.
    + intros H. inversion H; subst. apply IH in H5 as [H1 H2]. split; [congruence|]. intros [|d] x y; simpl; [intros [= ->] [= ->]; auto|apply H2].
    + intros [H1 H2]. constructor; [apply (H2 O); auto|]. apply IH. split; [congruence|]. intros d; apply (H2 (S d)).
Qed.
Lemma valid_iff b : length (fst b) = length (snd b) -> (box_valid b = true <-> forall d mn mx, nth_error (fst b) d = Some mn -> nth_error (snd b) d = Some mx -> mn <= mx).
Proof.
  intros Hl. unfold box_valid. rewrite forallb_forall. split.
  - intros H d mn mx H1 H2. specialize (H (mn, mx)). cbn [fst snd] in H. rewrite negb_true_iff, Z.ltb_ge in H. apply H. apply nth_error_In with d. rewrite nth_combine, H1, H2; auto.
  - intros H [mn mx] Hi. apply In_nth_error in Hi as [d Hd]. rewrite nth_combine in Hd by auto.
    destruct (nth_error (fst b) d) eqn:E1, (nth_error (snd b) d) eqn:E2; try discriminate. injection Hd as -> ->. cbn [fst snd]. rewrite negb_true_iff, Z.ltb_ge. eapply H; eauto.
Qed.
Lemma zrange_length s e : s <= e + 1 -> Z.of_nat (length (zrange s e)) = e - s + 1.
Proof. intros H. unfold zrange. rewrite map_length, seq_length, Z2Nat.id; lia. Qed.
Lemma flat_map_const_length {A B} (f : A -> list B) k l : (forall x, length (f x) = k) -> length (flat_map f l) = (length l * k)%nat.
Proof. intros H. induction l as [|x l IH]; simpl; auto. rewrite app_length, H, IH. lia. Qed.
Lemma cell_tuples_length s : forall e, length s = length e -> (forall d a b, nth_error s d = Some a -> nth_error e d = Some b -> a <= b) ->
  Z.of_nat (length (cell_tuples s e)) = box_cells (s, e).
Proof.
  induction s as [|a s IH]; intros [|b e] Hl H; try discriminate; [reflexivity|]. cbn [cell_tuples].
  rewrite (flat_map_const_length _ (length (zrange a b))) by (intros; apply map_length). rewrite Nat2Z.inj_mul, IH.
  - unfold box_cells. cbn [fst snd combine map fold_right]. rewrite zrange_length by (specialize (H O a b eq_refl eq_refl); lia). lia.
  - simpl in Hl. congruence.
  - intros d; apply (H (S d)).
Qed.
Section FC.
  Context (m : mhier).
  Hypothesis Hm : mh_ok m.
  Context (particles : list (list (list Z))).
  Hypothesis Hlen : Forall (Forall (fun c => length c = mh_ndim m)) particles.
  Let counts := fine_counts m.
  Lemma counts_len : length counts = mh_ndim m.
  Proof. unfold counts, fine_counts, mh_ndim. apply map_length. Qed.
  Lemma mm carts : In carts particles -> mm_inv counts (cell_minmax counts carts) carts.
  Proof.
    intros H. apply minmax_inv; [now apply fine_counts_pos|]. rewrite Forall_forall in Hlen. rewrite counts_len. now apply Hlen.
  Qed.
  Lemma valid_tuples carts t : In carts particles -> In t (cell_tuples (fst (cell_minmax counts carts)) (snd (cell_minmax counts carts))) -> valid_tuple t counts.
  Proof.
    intros Hc Ht. destruct (mm carts Hc) as (L1 & L2 & H). apply in_cell_tuples2 in Ht; [|congruence]. apply forall2_nth in Ht as [L3 Ht].
    rewrite combine_length, L1, L2, Nat.min_id in L3. apply forall2_nth. split; auto. intros d x n Hx Hn.
    assert (d < length counts)%nat by (apply nth_error_Some; congruence).
    destruct (nth_error (fst (cell_minmax counts carts)) d) as [mn|] eqn:E1; [|apply nth_error_None in E1; lia].
    destruct (nth_error (snd (cell_minmax counts carts)) d) as [mx|] eqn:E2; [|apply nth_error_None in E2; lia].
    destruct (H d n mn mx Hn E1 E2) as (A & B & _). specialize (Ht d x (mn, mx) Hx). rewrite nth_combine, E1, E2 in Ht by congruence. specialize (Ht eq_refl). simpl in Ht. lia.
  Qed.
  Lemma writes_in_grid g : In g (find_cells_writes m particles) -> exists t, cell_at m g t.
  Proof.
    unfold find_cells_writes. rewrite counts_fine. fold counts. rewrite in_flat_map. intros (carts & Hc & Hg). unfold box_writes in Hg.
    destruct (box_valid _); [|destruct Hg]. apply in_map_iff in Hg as (t & <- & Ht). exists t. apply cell_at_num; auto. eapply valid_tuples; eauto.
  Qed.
  Lemma writes_cover carts a b t g : In carts particles -> In a carts -> In b carts -> trajectory_meets counts a b -> spanned counts a b t -> cell_at m g t ->
    In g (find_cells_writes m particles).
  Proof.
    intros Hc Ha Hb (La & Lb & Hmeet) (Lt & Hsp) Hg. unfold find_cells_writes. rewrite counts_fine. fold counts. apply in_flat_map. exists carts. split; auto.
    destruct (mm carts Hc) as (L1 & L2 & H). unfold box_writes.
    assert (Hr : forall d mn mx, nth_error (fst (cell_minmax counts carts)) d = Some mn -> nth_error (snd (cell_minmax counts carts)) d = Some mx ->
       exists z, nth_error t d = Some z /\ mn <= z <= mx).
    { intros d mn mx E1 E2. assert (Hd : (d < length counts)%nat) by (rewrite <- L1; apply nth_error_Some; congruence).
      destruct (nth_error counts d) as [n|] eqn:En; [|apply nth_error_None in En; lia].
      destruct (nth_error a d) as [x|] eqn:Ex; [|apply nth_error_None in Ex; lia]. destruct (nth_error b d) as [y|] eqn:Ey; [|apply nth_error_None in Ey; lia].
      destruct (nth_error t d) as [z|] eqn:Ez; [|apply nth_error_None in Ez; lia]. exists z. split; auto.
      destruct (H d n mn mx En E1 E2) as (_ & _ & C). destruct (C a x Ha Ex) as [A1 A2]. destruct (C b y Hb Ey) as [B1 B2].
      specialize (Hsp d n x y z En Ex Ey Ez). unfold between in Hsp. lia. }
    rewrite (proj2 (valid_iff (cell_minmax counts carts) ltac:(congruence))).
    - apply in_map_iff. exists t. split; [|].
      + eapply cell_at_inj; eauto. apply cell_at_num; auto. eapply cell_at_fine; eauto.
      + apply in_cell_tuples2; [congruence|]. apply forall2_nth. rewrite combine_length, L1, L2, Nat.min_id. split; auto.
        intros d z [mn mx] Hz Hp. rewrite nth_combine in Hp by congruence.
        destruct (nth_error (fst (cell_minmax counts carts)) d) eqn:E1, (nth_error (snd (cell_minmax counts carts)) d) eqn:E2; try discriminate. injection Hp as -> ->.
        destruct (Hr d mn mx E1 E2) as (z' & Ez & Hz'). rewrite Hz in Ez. injection Ez as <-. auto.
    - intros d mn mx E1 E2. destruct (Hr d mn mx E1 E2) as (z & _ & Hz). lia.
  Qed.
  Lemma box_cells_len carts : In carts particles -> Z.of_nat (length (box_writes m (cell_minmax counts carts))) =
    if box_valid (cell_minmax counts carts) then box_cells (cell_minmax counts carts) else 0.
  Proof.
    intros Hc. destruct (mm carts Hc) as (L1 & L2 & _). unfold box_writes. destruct (box_valid _) eqn:E; [|reflexivity]. rewrite map_length.
    rewrite cell_tuples_length by (try congruence; apply valid_iff; auto; congruence). now destruct (cell_minmax counts carts).
  Qed.
  Lemma max_box_ge boxes : forall a, a <= fold_left (fun a b => if box_valid b then Z.max a (box_cells b) else a) boxes a /\
    forall b, In b boxes -> box_valid b = true -> box_cells b <= fold_left (fun a b => if box_valid b then Z.max a (box_cells b) else a) boxes a.
  Proof.
    induction boxes as [|b boxes IH]; intros a; simpl; [split; [lia|intros ? []]|]. destruct (box_valid b) eqn:E.
    - destruct (IH (Z.max a (box_cells b))) as [A B]. split; [lia|]. intros b' [<-|Hb] Hv; [lia|auto].
    - destruct (IH a) as [A B]. split; [lia|]. intros b' [<-|Hb] Hv; [congruence|auto].
  Qed.
  Lemma writes_fit : Z.of_nat (length (find_cells_writes m particles)) <=
    max_box_size (map (cell_minmax (map (fun d => d * mh_nf m) (mh_dims m))) particles) * Z.of_nat (length particles).
  Proof.
    unfold find_cells_writes. rewrite counts_fine. fold counts. set (M := max_box_size _).
    assert (HM : 0 <= M /\ forall carts, In carts particles -> Z.of_nat (length (box_writes m (cell_minmax counts carts))) <= M).
    { unfold M, max_box_size. destruct (max_box_ge (map (cell_minmax counts) particles) 0) as [A B]. split; auto. intros carts Hc.
      rewrite box_cells_len by auto. destruct (box_valid _) eqn:E; [|lia]. apply B; auto. now apply in_map. }
    clearbody M. destruct HM as [H0 HM]. clear Hlen. induction particles as [|p l IH]; simpl; [lia|]. rewrite app_length, Nat2Z.inj_add.
    specialize (HM p ltac:(simpl; auto)) as Hp. specialize (IH ltac:(intros; apply HM; simpl; auto)). nia.
  Qed.
  Lemma fold_insert_in l : forall s x, In x (fold_left (fun s c => set_insert c s) l s) <-> In x l \/ In x s.
  Proof.
    induction l as [|c l IH]; intros s x; simpl; [tauto|]. rewrite IH, in_set_insert. intuition.
  Qed.
  Lemma fold_insert_sorted l : forall s, StronglySorted Z.lt s -> StronglySorted Z.lt (fold_left (fun s c => set_insert c s) l s).
  Proof. induction l as [|c l IH]; intros s Hs; simpl; auto. apply IH. now apply set_insert_sorted. Qed.
  Lemma find_cells_ok old_size arrival : Permutation arrival (find_cells_writes m particles) ->
    exists s, find_cells m particles old_size arrival = Ok s /\ StronglySorted Z.lt s /\ forall g, In g s <-> In g (find_cells_writes m particles).
  Proof.
    intros HP. unfold find_cells. pose proof writes_fit as Hf. rewrite <- (Permutation_length HP) in Hf.
    match goal with |- context [if ?a <? ?b then ?b else ?a] => set (req := b) in *; assert (Hs : req <= (if a <? req then req else a)) by (destruct (Z.ltb_spec a req); lia) end.
    destruct (Z.ltb_spec (if old_size <? req then req else old_size) (Z.of_nat (length arrival))) as [Hlt|_]; [lia|].
    eexists. split; [reflexivity|]. split; [apply fold_insert_sorted; constructor|]. intros g. rewrite fold_insert_in. simpl.
    split; [intros [H|[]]; eapply Permutation_in; eauto|]. intros H. left. eapply Permutation_in; [apply Permutation_sym; eauto|auto].
  Qed.
End FC.
(** the scanned cells *)
Lemma scan_dim n c0 c1 x : 0 < n -> scan_start n c0 c1 <= x <= scan_end n c0 c1 - 1 -> 0 <= x < n.
Proof.
  unfold scan_start, scan_end. cbv zeta. intros Hn.
  destruct ((0 <=? Z.min c0 c1) && (Z.min c0 c1 <? n)) eqn:E1, ((0 <=? Z.max c0 c1) && (Z.max c0 c1 <? n)) eqn:E2;
    rewrite ?andb_true_iff, ?andb_false_iff, ?Z.leb_le, ?Z.ltb_lt, ?Z.leb_gt, ?Z.ltb_ge in *; lia.
Qed.
Lemma scan_dim_meets n c0 c1 x : 0 < n -> meets n c0 c1 -> (scan_start n c0 c1 <= x <= scan_end n c0 c1 - 1 <-> between n c0 c1 x).
Proof.
  unfold meets, between, scan_start, scan_end. cbv zeta. intros Hn.
  destruct ((0 <=? Z.min c0 c1) && (Z.min c0 c1 <? n)) eqn:E1, ((0 <=? Z.max c0 c1) && (Z.max c0 c1 <? n)) eqn:E2;
    rewrite ?andb_true_iff, ?andb_false_iff, ?Z.leb_le, ?Z.ltb_lt, ?Z.leb_gt, ?Z.ltb_ge in *; lia.
Qed.
Lemma in_scan m prev cur g : mh_ok m -> length prev = mh_ndim m -> length cur = mh_ndim m ->
  (In g (scan_cells m prev cur) <-> exists t, cell_at m g t /\ forall d n x y z, nth_error (fine_counts m) d = Some n -> nth_error prev d = Some x -> nth_error cur d = Some y -> nth_error t d = Some z ->
     scan_start n x y <= z <= scan_end n x y - 1).
Proof.
  intros Hm L1 L2. unfold scan_cells. rewrite counts_fine. set (counts := fine_counts m).
  assert (Lc : length counts = mh_ndim m) by (unfold counts, fine_counts, mh_ndim; apply map_length).
  assert (Hpos : forall d n, nth_error counts d = Some n -> 0 < n).
  { intros d n Hn. pose proof (fine_counts_pos m Hm) as Hf. rewrite Forall_forall in Hf. apply Hf. eapply nth_error_In; eauto. }
  rewrite in_map_iff. split.
  - intros (t & <- & Ht). exists t. apply in_cell_tuples2 in Ht; [|now rewrite !map_length]. apply forall2_nth in Ht as [Lt Ht].
    rewrite !combine_length, !map_length, !combine_length, Lc, L1, L2, !Nat.min_id in Lt.
    assert (Hd : forall d n x y z, nth_error counts d = Some n -> nth_error prev d = Some x -> nth_error cur d = Some y -> nth_error t d = Some z -> scan_start n x y <= z <= scan_end n x y - 1).
    { intros d n x y z E1 E2 E3 E4. specialize (Ht d z (scan_start n x y, scan_end n x y - 1) E4). apply Ht.
      rewrite nth_combine by now rewrite !map_length. rewrite !nth_map_combine by (rewrite combine_length; lia). rewrite !nth_combine by congruence. now rewrite E1, E2, E3. }
    split; [|auto]. apply cell_at_num; auto. apply forall2_nth. unfold counts in *. split; [congruence|]. intros d z n E4 E1.
    assert (d < mh_ndim m)%nat by (rewrite <- Lc; apply nth_error_Some; congruence).
    destruct (nth_error prev d) as [x|] eqn:E2; [|apply nth_error_None in E2; lia]. destruct (nth_error cur d) as [y|] eqn:E3; [|apply nth_error_None in E3; lia].
    eapply scan_dim; [apply (Hpos d); eauto|eapply Hd; eauto].
  - intros (t & Hg & Ht). pose proof (cell_at_fine m g t Hm Hg) as Hv. pose proof (valid_length _ _ Hv) as Lt. exists t. split.
    + eapply cell_at_inj; eauto. now apply cell_at_num.
    + apply in_cell_tuples2; [now rewrite !map_length|]. apply forall2_nth. rewrite !combine_length, !map_length, !combine_length. unfold counts in *. split; [lia|].
      intros d z pq E4 Hp. rewrite nth_combine in Hp by now rewrite !map_length. rewrite !nth_map_combine in Hp by (rewrite combine_length; lia). rewrite !nth_combine in Hp by congruence.
      destruct (nth_error (fine_counts m) d) eqn:E1; [|discriminate]. destruct (nth_error prev d) eqn:E2; [|discriminate]. destruct (nth_error cur d) eqn:E3; [|discriminate].
      injection Hp as <-. cbn [fst snd]. eapply Ht; eauto.
Qed.
Lemma scan_meets m prev cur g : mh_ok m -> trajectory_meets (fine_counts m) prev cur ->
  (In g (scan_cells m prev cur) <-> exists t, cell_at m g t /\ spanned (fine_counts m) prev cur t).
Proof.
  intros Hm (L1 & L2 & Hmt). assert (Lc : length (fine_counts m) = mh_ndim m) by (unfold fine_counts, mh_ndim; apply map_length).
  rewrite in_scan by (auto; congruence).
  assert (Hpos : forall d n, nth_error (fine_counts m) d = Some n -> 0 < n).
  { intros d n Hn. pose proof (fine_counts_pos m Hm) as Hf. rewrite Forall_forall in Hf. apply Hf. eapply nth_error_In; eauto. }
  split; intros (t & Hg & H); exists t; (split; [auto|]).
  - pose proof (valid_length _ _ (cell_at_fine m g t Hm Hg)). split; [congruence|]. intros. eapply scan_dim_meets; eauto.
  - destruct H as [_ H]. intros. eapply scan_dim_meets; eauto.
Qed.
