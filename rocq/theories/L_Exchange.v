From Coq Require Import Sorting.Permutation Sorting.Sorted ZArith Lia List.
From Verif Require Import M_Bytes M_Pack2D M_RemoteGeom M_Transport M_Exchange S_Exchange.
From Verif Require Import L_Bytes L_Pack2D L_Transport L_ListX M_Util L_Util.
Import ListNotations.
Local Open Scope Z_scope.

Lemma zget_zassign {V} (m : list (Z * V)) k v k' : zget (zassign m k v) k' = if k' =? k then Some v else zget m k'.
Proof.
  induction m as [|[x y] m IH]; simpl.
  - destruct (Z.eqb_spec k' k); auto.
  - destruct (Z.eqb_spec k x) as [->|]; simpl.
    + destruct (Z.eqb_spec k' x); auto.
    + destruct (Z.ltb_spec k x); simpl.
      * destruct (Z.eqb_spec k' k); auto.
      * rewrite IH. destruct (Z.eqb_spec k' x) as [->|]; auto. destruct (Z.eqb_spec x k); [lia|auto].
Qed.
Lemma zget_in {V} (m : list (Z * V)) k v : NoDup (map fst m) -> (zget m k = Some v <-> In (k, v) m).
Proof.
  induction m as [|[x y] m IH]; simpl; intros Hn; [split; [discriminate|tauto]|]. inversion Hn; subst.
  destruct (Z.eqb_spec k x) as [->|Hne].
  - split; [intros E; injection E as ->; auto|]. intros [E|Hi]; [injection E as ->; auto|].
    exfalso. apply H1. change x with (fst (x, v)). now apply in_map.
  - rewrite IH by auto. split; auto. intros [E|]; auto. congruence.
Qed.
Lemma zget_key {V} (m : list (Z * V)) k : In k (map fst m) <-> exists v, zget m k = Some v.
Proof.
  induction m as [|[x y] m IH]; simpl; [split; [tauto|intros [? ?]; discriminate]|].
  destruct (Z.eqb_spec k x) as [->|Hne]; [split; eauto|]. rewrite IH. split; auto. intros [|]; [congruence|auto].
Qed.

Section Send.
  Context {G : Type} (em : list (Z * G)).
  Definition reminv (rem : list (Z * list (Z * G))) (P : Z -> Z -> Prop) : Prop :=
    forall r, keys_sorted (rank_elems rem r) /\
    forall id g, zget (rank_elems rem r) id = Some g <-> (P r id /\ zget em id = Some g).
  Lemma rank_elems_assign rem r (m : list (Z * G)) r' : rank_elems (zassign rem r m) r' = if r' =? r then m else rank_elems rem r'.
  Proof. unfold rank_elems. rewrite zget_zassign. destruct (r' =? r); auto. Qed.
  Lemma put_elems_spec r ids : forall rem P, reminv rem P -> (forall id, In id ids -> In id (map fst em)) ->
    exists rem', put_elems em r ids rem = Ok rem' /\ reminv rem' (fun r' id => P r' id \/ (r' = r /\ In id ids)).
  Proof.
    induction ids as [|id ids IH]; intros rem P HI Hk; simpl.
    - exists rem. split; auto. intros r'. destruct (HI r') as [H1 H2]. split; auto. intros i g. rewrite H2. intuition.
    - destruct (proj1 (zget_key em id) (Hk id ltac:(simpl; auto))) as (g & Eg). rewrite Eg.
      destruct (IH (zassign rem r (zassign (rank_elems rem r) id g)) (fun r' i => P r' i \/ (r' = r /\ i = id))) as (rem' & E & HI').
      + intros r'. rewrite rank_elems_assign. destruct (HI r') as [H1 H2]. destruct (Z.eqb_spec r' r) as [->|Hne].
        * split; [now apply zassign_sorted|]. intros i g'. rewrite zget_zassign. destruct (Z.eqb_spec i id) as [->|Hi].
          -- split; [intros E; injection E as <-; auto|]. intros [_ E]. congruence.
          -- rewrite H2. intuition.
        * split; auto. intros i g'. rewrite H2. intuition.
      + intros; apply Hk; simpl; auto.
      + exists rem'. split; auto. intros r'. destruct (HI' r') as [H1 H2]. split; auto. intros i g'. rewrite H2. simpl. intuition.
  Qed.
  Lemma get_send_ranks_spec size me owner gm cells : forall sr rem P,
    (forall c, In c cells -> 0 <= owner c < size /\ owner c <> me) ->
    (forall c id, In c cells -> In id (geom_ids gm c) -> In id (map fst em)) ->
    StronglySorted Z.lt sr -> reminv rem P ->
    exists sr' rem', get_send_ranks size me owner em gm cells (sr, rem) = Ok (sr', rem') /\
      StronglySorted Z.lt sr' /\ (forall r, In r sr' <-> In r sr \/ exists c, In c cells /\ owner c = r) /\
      reminv rem' (fun r id => P r id \/ exists c, In c cells /\ owner c = r /\ In id (geom_ids gm c)).
  Proof.
    induction cells as [|c cells IH]; intros sr rem P Ho Hk Hs HI; simpl.
    - exists sr, rem. split; [auto|]. split; [auto|]. split.
      + intros r. split; auto. intros [|(c & [] & _)]; auto.
      + intros r. destruct (HI r) as [H1 H2]. split; auto. intros id g. rewrite H2. split; intros [H3 H4]; split; auto.
        destruct H3 as [|(c & [] & _)]; auto.
    - destruct (Ho c ltac:(simpl; auto)) as [Hr Hn].
      destruct (Z.leb_spec 0 (owner c)); [|lia]. destruct (Z.ltb_spec (owner c) size); [|lia].
      destruct (Z.eqb_spec (owner c) me); [congruence|]. simpl.
      destruct (put_elems_spec (owner c) (geom_ids gm c) rem P HI) as (rem1 & E1 & HI1); [intros; eapply Hk; simpl; eauto|].
      rewrite E1. simpl.
      destruct (IH (set_insert (owner c) sr) rem1 (fun r' id => P r' id \/ (r' = owner c /\ In id (geom_ids gm c)))) as (sr' & rem' & E2 & S2 & R2 & HI2); [| | |exact HI1|].
      + intros; apply Ho; simpl; auto.
      + intros; eapply Hk; simpl; eauto.
      + now apply set_insert_sorted.
      + exists sr', rem'. split; [auto|]. split; [auto|]. split.
        * intros r. rewrite R2, in_set_insert. split.
          -- intros [[->|]|(c' & H1 & H2)]; [right; eauto|auto|right; eauto].
          -- intros [|(c' & [->|H1] & H2)]; eauto.
        * intros r. destruct (HI2 r) as [H1 H2]. split; auto. intros id g. rewrite H2. split; intros [H3 H4]; split; auto.
          -- destruct H3 as [[|[-> H3]]|(c' & H5 & H6 & H7)]; [auto|right; exists c; auto|right; exists c'; auto].
          -- destruct H3 as [|(c' & [->|H5] & H6 & H7)]; [auto|auto|right; exists c'; auto].
  Qed.
  Lemma reminv_nil : reminv [] (fun _ _ => False).
  Proof. intros r. split; [constructor|]. intros id g. simpl. split; [discriminate|tauto]. Qed.
End Send.

Lemma keys_sorted_nodup {V} (m : list (Z * V)) : keys_sorted m -> NoDup (map fst m).
Proof. apply sorted_nodup. Qed.
(** maps with the same lookups are equal *)
Lemma sorted_map_ext {V} (m : list (Z * V)) : forall m', keys_sorted m -> keys_sorted m' -> (forall k v, In (k, v) m <-> In (k, v) m') -> m = m'.
Proof.
  unfold keys_sorted. induction m as [|[k v] m IH]; intros [|[k' v'] m'] S1 S2 H; auto.
  - destruct (proj2 (H k' v')); simpl; auto.
  - destruct (proj1 (H k v)); simpl; auto.
  - simpl in *. apply StronglySorted_inv in S1 as [S1 F1]. apply StronglySorted_inv in S2 as [S2 F2].
    rewrite Forall_forall in F1, F2.
    assert (E : (k, v) = (k', v')).
    { destruct (proj1 (H k v) ltac:(auto)) as [|H1]; auto. destruct (proj2 (H k' v') ltac:(auto)) as [|H2]; auto.
      assert (k' < k) by (apply F2; change k with (fst (k, v)); now apply in_map).
      assert (k < k') by (apply F1; change k' with (fst (k', v')); now apply in_map). lia. }
    injection E as <- <-. f_equal. apply IH; auto. intros a b. split; intros Hi.
    + destruct (proj1 (H a b) ltac:(auto)) as [E|]; auto. injection E as <- <-.
      assert (k < k) by (apply F1; change k with (fst (k, v)); now apply in_map). lia.
    + destruct (proj2 (H a b) ltac:(auto)) as [E|]; auto. injection E as <- <-.
      assert (k < k) by (apply F2; change k with (fst (k, v)); now apply in_map). lia.
Qed.
Lemma filter_keys_sorted {V} (p : Z * V -> bool) m : keys_sorted m -> keys_sorted (filter p m).
Proof.
  unfold keys_sorted. induction m as [|kv m IH]; simpl; intros H; [constructor|].
  apply StronglySorted_inv in H as [H1 H2]. destruct (p kv); auto. simpl. constructor; auto.
  rewrite Forall_forall in *. intros x Hx. apply H2. apply in_map_iff in Hx as (y & <- & Hy). apply filter_In in Hy as [Hy _]. now apply in_map.
Qed.

Lemma send_ranks_spec size owner d me : rank_ok size owner d -> 0 <= me < size ->
  exists sr rem, exchange_get_send_ranks size me owner (rd_elems d) (rd_map d) (unowned_cells owner me (rd_claims d)) = Ok (sr, rem) /\
    StronglySorted Z.lt sr /\ (forall b, In b sr <-> b <> me /\ exists c, In c (rd_claims d) /\ owner c = b) /\
    (forall b, b <> me -> rank_elems rem b = wanted owner d b).
Proof.
  intros (H1 & H2 & H3) Hme.
  assert (Hu : forall c, In c (unowned_cells owner me (rd_claims d)) <-> In c (rd_claims d) /\ owner c <> me).
  { intros c. unfold unowned_cells. rewrite <- in_rev, filter_In. rewrite Bool.negb_true_iff, Z.eqb_neq. tauto. }
  destruct (get_send_ranks_spec (rd_elems d) size me owner (rd_map d) (unowned_cells owner me (rd_claims d)) [] [] (fun _ _ => False)) as (sr & rem & E & S & R & I).
  - intros c Hc. apply Hu in Hc as [Hc1 Hc2]. auto.
  - intros c id _ Hi. eapply H2; eauto.
  - constructor.
  - apply reminv_nil.
  - exists sr, rem. split; [exact E|]. split; [exact S|]. split.
    + intros b. rewrite R. split.
      * intros [[]|(c & Hc & <-)]. apply Hu in Hc as [Hc1 Hc2]. eauto.
      * intros [Hb (c & Hc & <-)]. right. exists c. split; auto. apply Hu. auto.
    + intros b Hb. destruct (I b) as [I1 I2]. apply sorted_map_ext; auto.
      * apply filter_keys_sorted. exact H3.
      * intros id g. rewrite <- (zget_in _ _ _ (keys_sorted_nodup _ I1)). rewrite I2. unfold wanted. rewrite filter_In.
        rewrite <- (zget_in _ _ _ (keys_sorted_nodup _ H3)). simpl. rewrite existsb_exists. split.
        -- intros [[[]|(c & Hc & Ho & Hi)] Hg]. split; auto. exists c. split; [apply Hu in Hc; tauto|].
           rewrite Ho, Z.eqb_refl. simpl. apply existsb_exists. exists id. split; auto. apply Z.eqb_refl.
        -- intros [Hg (c & Hc & Ht)]. apply Bool.andb_true_iff in Ht as [Ho Hi]. apply Z.eqb_eq in Ho.
           apply existsb_exists in Hi as (i & Hi & Ei). apply Z.eqb_eq in Ei. subst i.
           split; auto. right. exists c. split; auto. apply Hu. split; auto. congruence.
Qed.

(** ** the receive buffer *)
Definition good (stride : nat) (data : Z -> list Z) (arr : list (Z * Z)) (buf : list Z) (i : nat) : Prop :=
  forall s n, nth_error arr i = Some (s, n) -> forall k, (k < length (data s))%nat -> nth_error buf (i * stride + k) = nth_error (data s) k.
Lemma slots_written stride data arr : Forall (fun ss => (length (data (fst ss)) <= stride)%nat) arr ->
  forall order buf, length buf = (stride * length arr)%nat -> (forall i, (i < length arr)%nat -> good stride data arr buf i \/ In i order) ->
  let res := fold_left (fun buf i => match nth_error arr i with Some (s, _) => write_at (i * stride) (data s) buf | None => buf end) order buf in
  length res = (stride * length arr)%nat /\ forall i, (i < length arr)%nat -> good stride data arr res i.
Proof.
  intros Hsz. induction order as [|j order IH]; intros buf Hl Hg; cbn zeta; cbn [fold_left].
  - split; auto. intros i Hi. destruct (Hg i Hi) as [|[]]; auto.
  - destruct (nth_error arr j) as [[s n]|] eqn:Ej.
    + assert (Hj : (j < length arr)%nat) by (apply nth_error_Some; congruence).
      assert (Hd : (length (data s) <= stride)%nat).
      { rewrite Forall_forall in Hsz. apply (Hsz (s, n)). eapply nth_error_In; eauto. }
      assert (Hb : (j * stride + length (data s) <= length buf)%nat) by nia.
      apply IH.
      * rewrite write_at_length by auto. auto.
      * intros i Hi. destruct (Nat.eq_dec i j) as [->|Hne].
        -- left. intros s' n' E k Hk. rewrite Ej in E. injection E as <- <-. rewrite nth_error_write_at by auto.
           destruct (Nat.leb_spec (j * stride) (j * stride + k)); [|lia].
           destruct (Nat.ltb_spec (j * stride + k) (j * stride + length (data s))); [|lia]. simpl. f_equal. lia.
        -- destruct (Hg i Hi) as [G|[|]]; [left|congruence|auto].
           intros s' n' E k Hk. rewrite nth_error_write_at by auto.
           assert (Hd' : (length (data s') <= stride)%nat).
           { rewrite Forall_forall in Hsz. apply (Hsz (s', n')). eapply nth_error_In; eauto. }
           assert (Hx : (i * stride + k < j * stride \/ j * stride + length (data s) <= i * stride + k)%nat) by nia.
           destruct (Nat.leb_spec (j * stride) (i * stride + k)); simpl; [|eapply G; eauto].
           destruct (Nat.ltb_spec (i * stride + k) (j * stride + length (data s))); [lia|eapply G; eauto].
    + apply IH; auto. intros i Hi. destruct (Hg i Hi) as [|[<-|]]; auto. left. intros s n E. congruence.
Qed.
Lemma skipn_prefix (d : list Z) : forall off b, (off + length d <= length b)%nat ->
  (forall k, (k < length d)%nat -> nth_error b (off + k) = nth_error d k) -> exists tail, skipn off b = d ++ tail.
Proof.
  intros off b. revert off. induction b as [|x b IH]; intros off Hl H.
  - simpl in Hl. destruct d; [|simpl in Hl; lia]. exists []. destruct off; auto.
  - destruct off as [|off].
    + simpl. clear IH. revert b x Hl H. induction d as [|y d IHd]; intros b x Hl H; [now exists (x :: b)|].
      pose proof (H O (Nat.lt_0_succ _)) as E. simpl in E. injection E as <-.
      destruct b as [|z b].
      * destruct d; [|simpl in Hl; lia]. exists []. auto.
      * destruct (IHd b z) as (tail & Et); [simpl in *; lia| |exists tail; simpl; now rewrite Et].
        intros k Hk. apply (H (S k)). simpl. lia.
    + simpl. apply IH; [simpl in Hl; lia|]. intros k Hk. apply (H k Hk).
Qed.
Lemma unpack_slots_spec buf stride (l : Z -> list remote2d) arr : forall i,
  (forall j s n, nth_error arr j = Some (s, n) ->
     n = Z.of_nat (length (pack_geoms2d (l s))) /\ Forall (fun r => remote2d_okb r = true) (l s) /\ n < 2 ^ 31 /\
     exists tail, skipn ((i + j) * stride) buf = pack_geoms2d (l s) ++ tail) ->
  unpack_slots buf stride i (map snd arr) = Ok (concat (map (fun ss => l (fst ss)) arr)).
Proof.
  induction arr as [|[s n] arr IH]; intros i H; simpl; auto.
  destruct (H O s n eq_refl) as (En & Hok & Hlt & (tail & Et)). rewrite Nat.add_0_r in Et. rewrite Et.
  rewrite pack_unpack_geoms2d; auto.
  - simpl. rewrite (IH (S i)).
    + reflexivity.
    + intros j s' n' E. destruct (H (S j) s' n' E) as (A1 & A2 & A3 & A4). repeat split; auto.
      replace (S i + j)%nat with (i + S j)%nat by lia. auto.
  - pose proof (concat_length_ge (l s)) as Hge.
    assert (Z.of_nat (length (pack_geoms2d (l s))) < 2 ^ 31) by lia. unfold pack_geoms2d in H0. rewrite app_length in H0. lia.
  - lia.
Qed.
Lemma max_size_ge l x : In x l -> x <= max_size l.
Proof. apply L_Transport.fold_max_ge. Qed.

Lemma max_size_bound (arr : list (Z * Z)) : Forall (fun ss => 0 <= snd ss) arr -> Forall (fun ss => snd ss * Z.of_nat (length arr) < 2 ^ 31) arr ->
  max_size (map snd arr) * Z.of_nat (length arr) < 2 ^ 31.
Proof.
  generalize (Z.of_nat (length arr)). intros n H0 H. induction arr as [|[s x] arr IH]; [simpl; lia|].
  inversion H0; inversion H; subst. cbn [snd] in *. specialize (IH H4 H8). change (max_size (map snd ((s, x) :: arr))) with (Z.max x (max_size (map snd arr))).
  destruct (Z.max_spec x (max_size (map snd arr))) as [[_ ->]|[_ ->]]; auto.
Qed.
Lemma exchange_recv_spec arr (l : Z -> list remote2d) num order :
  num = length arr -> Permutation order (seq 0 num) ->
  Forall (fun ss => snd ss = Z.of_nat (length (pack_geoms2d (l (fst ss)))) /\ Forall (fun r => remote2d_okb r = true) (l (fst ss)) /\ snd ss * Z.of_nat num < 2 ^ 31) arr ->
  exchange_recv num arr (fun s => pack_geoms2d (l s)) order = XOk (Ok (concat (map (fun ss => l (fst ss)) arr))).
Proof.
  intros -> HP Hok. unfold exchange_recv. rewrite Nat.eqb_refl. cbn [negb].
  assert (Hmax : max_size (map snd arr) * Z.of_nat (length arr) < 2 ^ 31).
  { apply max_size_bound; (eapply Forall_impl; [|exact Hok]); cbv beta; intros ss (E & _ & B); [lia|exact B]. }
  apply Z.ltb_lt in Hmax. rewrite Hmax. cbn [negb]. clear Hmax.
  assert (Hall : forallb (fun ss => Z.of_nat (length (pack_geoms2d (l (fst ss)))) <=? snd ss) arr = true).
  { apply forallb_forall. intros ss Hi. rewrite Forall_forall in Hok. destruct (Hok ss Hi) as (E & _). apply Z.leb_le. lia. }
  rewrite Hall. cbn [negb]. f_equal.
  set (stride := Z.to_nat (max_size (map snd arr))).
  assert (Hsz : Forall (fun ss => (length (pack_geoms2d (l (fst ss))) <= stride)%nat) arr).
  { rewrite Forall_forall in *. intros ss Hi. destruct (Hok ss Hi) as (E & _).
    pose proof (max_size_ge (map snd arr) (snd ss) (in_map snd _ _ Hi)). unfold stride. lia. }
  destruct (slots_written stride (fun s => pack_geoms2d (l s)) arr Hsz order (repeat 0 (stride * length arr))) as [L HG].
  { apply repeat_length. }
  { intros i Hi. right. eapply Permutation_in; [symmetry; exact HP|]. apply in_seq. lia. }
  apply unpack_slots_spec. intros j s n E.
  assert (Hj : (j < length arr)%nat) by (apply nth_error_Some; congruence).
  rewrite Forall_forall in Hok. pose proof (nth_error_In _ _ E) as Hin. destruct (Hok _ Hin) as (A1 & A2 & A3). cbn [fst snd] in *.
  assert (A3' : n < 2 ^ 31) by nia.
  repeat split; auto. apply skipn_prefix.
  - cbn zeta in L. rewrite L. rewrite Forall_forall in Hsz. pose proof (Hsz _ Hin) as Hs. cbn [fst] in Hs. nia.
  - intros k Hk. eapply HG; eauto.
Qed.

(** ** all ranks *)
Lemma filter_self_nodup me l : NoDup l -> filter (Z.eqb me) l = if existsb (Z.eqb me) l then [me] else [].
Proof.
  induction l as [|x l IH]; intros Hn; simpl; auto. inversion Hn; subst. rewrite IH by auto.
  destruct (Z.eqb_spec me x) as [->|]; simpl; auto.
  destruct (existsb (Z.eqb x) l) eqn:E; auto. apply existsb_exists in E as (y & Hy & Ey). apply Z.eqb_eq in Ey. subst. tauto.
Qed.
Lemma size_messages_eq size send msg me : (forall a, 0 <= a < size -> NoDup (send a)) ->
  size_messages size send msg me = map (fun a => (a, Z.of_nat (length (msg a me)))) (filter (fun a => existsb (Z.eqb me) (send a)) (ranks size)).
Proof.
  intros Hn. unfold size_messages. assert (Hr : forall a, In a (ranks size) -> 0 <= a < size) by (intros a; apply in_ranks).
  induction (ranks size) as [|a l IH]; simpl; auto. rewrite IH by (intros; apply Hr; simpl; auto).
  rewrite filter_self_nodup by (apply Hn, Hr; simpl; auto). destruct (existsb (Z.eqb me) (send a)); reflexivity.
Qed.
Lemma concat_filter_nil {A} (p : Z -> bool) (f : Z -> list A) l : (forall a, In a l -> p a = false -> f a = []) ->
  concat (map f (filter p l)) = concat (map f l).
Proof.
  induction l as [|a l IH]; simpl; intros H; auto. destruct (p a) eqn:E; simpl; rewrite IH by auto; auto.
  rewrite (H a) by auto. reflexivity.
Qed.
Lemma Permutation_concat_map {A B} (f : A -> list B) l l' : Permutation l l' -> Permutation (concat (map f l)) (concat (map f l')).
Proof.
  induction 1; simpl; auto.
  - now apply Permutation_app_head.
  - rewrite !app_assoc. apply Permutation_app_tail. apply Permutation_app_comm.
  - etransitivity; eauto.
Qed.

Lemma filter_ranks_le size p : 0 <= size -> Z.of_nat (length (filter p (ranks size))) <= size.
Proof.
  intros Hs. assert (length (filter p (ranks size)) <= length (ranks size))%nat as H by (generalize (ranks size); intros l; induction l as [|x l IH]; simpl; [lia|destruct (p x); simpl; lia]).
  replace (length (ranks size)) with (Z.to_nat size) in H by (unfold ranks; now rewrite map_length, seq_length). lia.
Qed.
Section AllRanks.
  Context (size : Z) (owner : Z -> Z) (data : Z -> rank_data).
  Hypothesis Hok : forall a, 0 <= a < size -> rank_ok size owner (data a).
  Hypothesis Hpack : forall a b, 0 <= a < size -> packable size a (wanted owner (data a) b).
  (** the outputs of exchange_get_send_ranks on every rank *)
  Context (send : Z -> list Z) (rem : Z -> list (Z * list (Z * geom2d))).
  Hypothesis Hsend : forall a, 0 <= a < size ->
    exchange_get_send_ranks size a owner (rd_elems (data a)) (rd_map (data a)) (unowned_cells owner a (rd_claims (data a))) = Ok (send a, rem a).
  Lemma send_facts a : 0 <= a < size -> NoDup (send a) /\
    (forall b, In b (send a) <-> b <> a /\ exists c, In c (rd_claims (data a)) /\ owner c = b) /\
    (forall b, b <> a -> rank_elems (rem a) b = wanted owner (data a) b).
  Proof.
    intros Ha. destruct (send_ranks_spec size owner (data a) a (Hok a Ha) Ha) as (sr & rm & E & S & R & W).
    rewrite Hsend in E by auto. injection E as <- <-. split; [apply sorted_nodup; auto|auto].
  Qed.
  Lemma exchange_delivers me arrival order : 0 <= me < size ->
    let msg a b := pack_geoms2d (remotes a (rank_elems (rem a) b)) in
    Permutation arrival (size_messages size send msg me) ->
    Permutation order (seq 0 (num_recv_ranks size send me)) ->
    exists l, exchange_recv (num_recv_ranks size send me) arrival (fun a => msg a me) order = XOk (Ok l) /\
      Permutation l (concat (map (fun a => remotes a (wanted owner (data a) me)) (filter (fun a => negb (a =? me)) (ranks size)))).
  Proof.
    intros Hme msg HA HO. rewrite size_messages_eq in HA by (intros; now apply send_facts).
    set (S := filter (fun a => existsb (Z.eqb me) (send a)) (ranks size)) in *.
    assert (HS : forall a, In a S -> 0 <= a < size /\ a <> me).
    { intros a Hi. apply filter_In in Hi as [Hi1 Hi2]. apply in_ranks in Hi1. split; auto.
      apply existsb_exists in Hi2 as (b & Hb & Eb). apply Z.eqb_eq in Eb. subst b. apply send_facts in Hb; auto. destruct Hb; congruence. }
    exists (concat (map (fun ss => remotes (fst ss) (rank_elems (rem (fst ss)) me)) arrival)). split.
    - apply (exchange_recv_spec arrival (fun a => remotes a (rank_elems (rem a) me))).
      + apply Permutation_length in HA. rewrite map_length in HA. rewrite HA. reflexivity.
      + exact HO.
      + rewrite Forall_forall. intros ss Hi. apply (Permutation_in _ HA) in Hi. apply in_map_iff in Hi as (a & <- & Ha). unfold msg. cbn [fst snd].
        destruct (HS a Ha) as [Ha1 Ha2]. destruct (send_facts a Ha1) as (_ & _ & W). destruct (Hpack a me Ha1) as [P1 P2].
        rewrite W by auto. split; [auto|]. split; [auto|]. pose proof (filter_ranks_le size (fun a => existsb (Z.eqb me) (send a))). fold S in H. specialize (H ltac:(lia)).
        unfold num_recv_ranks. fold S. eapply Z.le_lt_trans; [|exact P2]. apply Z.mul_le_mono_nonneg_l; [lia|exact H].
    - etransitivity; [apply (Permutation_concat_map (fun ss : Z * Z => remotes (fst ss) (rank_elems (rem (fst ss)) me)) _ _ HA)|].
      rewrite map_map. cbn [fst].
      assert (E : concat (map (fun a => remotes a (rank_elems (rem a) me)) S) =
              concat (map (fun a => remotes a (wanted owner (data a) me)) (filter (fun a => existsb (Z.eqb me) (send a)) (filter (fun a => negb (a =? me)) (ranks size))))).
      { assert (E1 : S = filter (fun a => existsb (Z.eqb me) (send a)) (filter (fun a => negb (a =? me)) (ranks size))).
        { unfold S. assert (Hr : forall a, In a (ranks size) -> 0 <= a < size) by (intros a; apply in_ranks).
          clear HA HO HS S. induction (ranks size) as [|a l IH]; simpl; auto.
          destruct (Z.eqb_spec a me) as [->|Hne]; simpl.
          - destruct (existsb (Z.eqb me) (send me)) eqn:Ex; [|apply IH; intros; apply Hr; simpl; auto].
            apply existsb_exists in Ex as (b & Hb & Eb). apply Z.eqb_eq in Eb. subst b. apply send_facts in Hb; auto. destruct Hb; congruence.
          - rewrite IH by (intros; apply Hr; simpl; auto). reflexivity. }
        rewrite <- E1. f_equal. apply map_ext_in. intros a Ha. destruct (HS a Ha) as [Ha1 Ha2]. destruct (send_facts a Ha1) as (_ & _ & W).
        rewrite W; auto. }
      rewrite E. rewrite concat_filter_nil; [reflexivity|].
      intros a Ha Hx. apply filter_In in Ha as [Ha Hne]. apply in_ranks in Ha. apply Bool.negb_true_iff, Z.eqb_neq in Hne.
      destruct (wanted owner (data a) me) as [|e es] eqn:Ew; auto. exfalso.
      assert (Hi : In e (wanted owner (data a) me)) by (rewrite Ew; simpl; auto). unfold wanted in Hi. apply filter_In in Hi as [_ Hi].
      apply existsb_exists in Hi as (c & Hc & Ht). apply Bool.andb_true_iff in Ht as [Ho _]. apply Z.eqb_eq in Ho.
      assert (existsb (Z.eqb me) (send a) = true); [|congruence]. apply existsb_exists. exists me. split; [|apply Z.eqb_refl].
      apply send_facts; auto. split; eauto.
  Qed.
End AllRanks.

(** ** neighbours *)
Lemma neighbour_spec tris quads : StronglySorted Z.lt (neighbour_ranks tris quads) /\
  forall r, In r (neighbour_ranks tris quads) <-> exists g, In g (tris ++ quads) /\ r2_rank g = r.
Proof.
  unfold neighbour_ranks.
  assert (H : forall (l : list remote2d) s, StronglySorted Z.lt s -> StronglySorted Z.lt (fold_left (fun s g => set_insert (r2_rank g) s) l s) /\
     forall r, In r (fold_left (fun s g => set_insert (r2_rank g) s) l s) <-> In r s \/ exists g, In g l /\ r2_rank g = r).
  { induction l as [|g l IH]; intros s Hs; simpl.
    - split; auto. intros r. split; auto. intros [|(? & [] & _)]; auto.
    - destruct (IH (set_insert (r2_rank g) s) (set_insert_sorted _ _ Hs)) as [H1 H2]. split; auto. intros r. rewrite H2, in_set_insert. split.
      + intros [[->|]|(x & ? & ?)]; eauto.
      + intros [|(x & [->|] & ?)]; eauto. }
  destruct (H tris [] ltac:(constructor)) as [S1 I1]. destruct (H quads _ S1) as [S2 I2]. split; auto.
  intros r. rewrite I2, I1. split.
  - intros [[[]|(g & ? & ?)]|(g & ? & ?)]; exists g; rewrite in_app_iff; auto.
  - intros (g & Hg & E). apply in_app_iff in Hg as [|]; eauto.
Qed.
