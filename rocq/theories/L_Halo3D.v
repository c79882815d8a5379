From Coq Require Import Sorting.Permutation Sorting.Sorted ZArith Lia Bool.
From Verif Require Import M_Bytes M_Pack2D M_RemoteGeom M_Transport S_Transport M_Exchange S_Exchange M_MeshIf M_Halo3D S_Halo3D.
From Verif Require Import L_Bytes L_Pack2D L_Transport L_ListX M_Util L_Util L_Exchange L_ExchangeEnd.
From Coq Require Import List.
Import ListNotations.
Local Open Scope Z_scope.

Lemma send_ranks_spec3 size owner d me : rank3_ok size owner d -> 0 <= me < size ->
  exists send rem,
    exchange_get_send_ranks size me owner (k3_elems d) (k3_map d) (unowned_cells owner me (k3_claims d)) = Ok (send, rem) /\
    StronglySorted Z.lt send /\
    (forall b, In b send <-> b <> me /\ exists c, In c (k3_claims d) /\ owner c = b) /\
    (forall b, b <> me -> rank_elems rem b = wanted3 owner d b).
Proof.
  intros (H1 & H2 & H3 & _) Hme. unfold exchange_get_send_ranks.
  assert (Hu : forall c, In c (unowned_cells owner me (k3_claims d)) <-> In c (k3_claims d) /\ owner c <> me).
  { intros c. unfold unowned_cells. rewrite <- in_rev, filter_In. rewrite Bool.negb_true_iff, Z.eqb_neq. tauto. }
  destruct (get_send_ranks_spec (k3_elems d) size me owner (k3_map d) (unowned_cells owner me (k3_claims d)) [] [] (fun _ _ => False)) as (sr & rem & E & S & R & I).
  - intros c Hc. apply Hu in Hc as [Hc1 Hc2]. auto.
  - intros c id _ Hi. eapply H2; eauto.
  - constructor.
  - apply reminv_nil.
  - exists sr, rem. split; [exact E|]. split; [exact S|]. split.
    + intros b. rewrite R. split.
      * intros [[]|(c & Hc & <-)]. apply Hu in Hc as [Hc1 Hc2]. eauto.
      * intros [Hb (c & Hc & <-)]. right. exists c. split; auto. apply Hu. auto.
    + intros b Hb. destruct (I b) as [I1 I2]. apply sorted_map_ext; auto.
      * apply filter_keys_sorted. exact H3.
      * intros id g. rewrite <- (zget_in _ _ _ (keys_sorted_nodup _ I1)). rewrite I2. unfold wanted3. rewrite filter_In.
        rewrite <- (zget_in _ _ _ (keys_sorted_nodup _ H3)). simpl. rewrite existsb_exists. split.
        -- intros [[[]|(c & Hc & Ho & Hi)] Hg]. split; auto. exists c. split; [apply Hu in Hc; tauto|].
           rewrite Ho, Z.eqb_refl. simpl. apply existsb_exists. exists id. split; auto. apply Z.eqb_refl.
        -- intros [Hg (c & Hc & Ht)]. apply Bool.andb_true_iff in Ht as [Ho Hi]. apply Z.eqb_eq in Ho.
           apply existsb_exists in Hi as (i & Hi & Ei). apply Z.eqb_eq in Ei. subst i.
           split; auto. right. exists c. split; auto. apply Hu. split; auto. congruence.
Qed.

(** ** splitting *)
Lemma split_geoms_spec g2 : NoDup (map fst g2) -> forall ids, StronglySorted Z.lt ids ->
  (forall i, In i ids -> exists g, In (i, g) g2 /\ (g2_shape g = int_triangle \/ g2_shape g = int_quadrilateral)) ->
  exists q t, split_geoms g2 ids = Ok (q, t) /\
    keys_sorted q /\ keys_sorted t /\ incl (map fst q) ids /\ incl (map fst t) ids /\
    (forall i g, In (i, g) q <-> In i ids /\ In (i, g) g2 /\ g2_shape g = int_quadrilateral) /\
    (forall i g, In (i, g) t <-> In i ids /\ In (i, g) g2 /\ g2_shape g = int_triangle).
Proof.
  intros Hn. induction ids as [|i ids IH]; intros Hs Hi; simpl.
  - exists [], []. split; [reflexivity|]. split; [constructor|]. split; [constructor|]. split; [intros x []|]. split; [intros x []|].
    split; intros; split; simpl; tauto.
  - apply StronglySorted_inv in Hs as [Hs Hlt]. rewrite Forall_forall in Hlt.
    destruct (IH Hs ltac:(intros; apply Hi; simpl; auto)) as (q & t & E & S1 & S2 & I1 & I2 & M1 & M2).
    destruct (Hi i ltac:(simpl; auto)) as (g & Hg & Hsh). pose proof (proj2 (zget_in _ _ _ Hn) Hg) as Eg. rewrite Eg, E. cbn [obind fst snd].
    assert (Huniq : forall g', In (i, g') g2 -> g' = g).
    { intros g' H'. apply (proj2 (zget_in _ _ _ Hn)) in H'. congruence. }
    destruct (Z.eqb_spec (g2_shape g) int_quadrilateral) as [Eq|Nq].
    + exists ((i, g) :: q), t. split; [reflexivity|]. split; [|split; [|split; [|split; [|split]]]]; auto.
      * constructor; auto. apply Forall_forall. intros x Hx. apply Hlt, I1, Hx.
      * intros x [<-|Hx]; simpl; auto.
      * intros x Hx; right; auto.
      * intros j h. cbn [In]. rewrite M1. split.
        -- intros [E1|(A & B & C)]; [injection E1 as <- <-; auto|auto].
        -- intros ([<-|A] & B & C); [left; f_equal; symmetry; auto|auto].
      * intros j h. cbn [In]. rewrite M2. split; [tauto|]. intros ([<-|A] & B & C); [|auto]. rewrite (Huniq h B) in C. rewrite C in Eq. discriminate.
    + destruct Hsh as [Et|?]; [|congruence]. rewrite (proj2 (Z.eqb_eq _ _) Et).
      exists q, ((i, g) :: t). split; [reflexivity|]. split; [|split; [|split; [|split; [|split]]]]; auto.
      * constructor; auto. apply Forall_forall. intros x Hx. apply Hlt, I2, Hx.
      * intros x Hx; right; auto.
      * intros x [<-|Hx]; simpl; auto.
      * intros j h. cbn [In]. rewrite M1. split; [tauto|]. intros ([<-|A] & B & C); [|auto]. rewrite (Huniq h B) in C. congruence.
      * intros j h. cbn [In]. rewrite M2. split.
        -- intros [E1|(A & B & C)]; [injection E1 as <- <-; auto|auto].
        -- intros ([<-|A] & B & C); [left; f_equal; symmetry; auto|auto].
Qed.
Lemma deconstruct_rank_sorted rank elems : StronglySorted Z.lt (snd (deconstruct_rank rank elems)).
Proof. unfold deconstruct_rank. destruct (deconstruct_rank_gen rank elems [] [] (SSorted_nil _)) as (_ & H & _). exact H. Qed.

Lemma rank_elems_cons {G} r (l : list (Z * G)) m b : rank_elems ((r, l) :: m) b = if b =? r then l else rank_elems m b.
Proof. unfold rank_elems. simpl. destruct (b =? r); reflexivity. Qed.
Lemma rank_elems_absent {G} (m : list (Z * list (Z * G))) b : ~ In b (map fst m) -> rank_elems m b = [].
Proof.
  intros H. unfold rank_elems. destruct (zget m b) eqn:E; auto. exfalso. apply H. apply zget_key. eauto.
Qed.
Lemma add_entry_elems r l m b : ~ In r (map fst m) -> rank_elems (add_entry r l m) b = if b =? r then l else rank_elems m b.
Proof.
  intros H. destruct l as [|x l]; simpl; [|apply rank_elems_cons]. destruct (Z.eqb_spec b r) as [->|]; auto. now apply rank_elems_absent.
Qed.
Lemma add_entry_keys r l m b : In b (map fst (add_entry r l m)) <-> (b = r /\ l <> []) \/ In b (map fst m).
Proof. destruct l as [|x l]; simpl; [intuition congruence|]. intuition (auto; try congruence). Qed.

Section Prepare.
  Context (size me : Z) (owner : Z -> Z) (d : rank3).
  Hypothesis Hok : rank3_ok size owner d.
  Hypothesis Hme : 0 <= me < size.
  Lemma in_faces_of b i : In i (snd (deconstruct_rank me (as_faces (wanted3 owner d b)))) <->
    exists e f, In e (wanted3 owner d b) /\ In f (snd (snd e)) /\ g2_id f = i.
  Proof.
    destruct (deconstruct_rank_spec me (as_faces (wanted3 owner d b))) as (_ & _ & H). rewrite H. unfold as_faces. split.
    - intros (kv & f & Hk & Hf & E). apply in_map_iff in Hk as (e & <- & He). cbn [fst snd] in Hf. apply in_map_iff in Hf as (g & <- & Hg). exists e, g. auto.
    - intros (e & f & He & Hf & E). exists (fst e, (fst (snd e), map face2_of (snd (snd e)))), (face2_of f). split; [apply in_map_iff; eauto|].
      split; [apply in_map; auto|exact E].
  Qed.
  Lemma wanted3_face b e f : In e (wanted3 owner d b) -> In f (snd (snd e)) -> In (g2_id f, f) (k3_faces d) /\ (g2_shape f = int_triangle \/ g2_shape f = int_quadrilateral).
  Proof.
    destruct Hok as (_ & _ & _ & _ & H). intros He Hf. unfold wanted3 in He. apply filter_In in He as [He _]. destruct e as [id e]. destruct (H id e He) as [[_ Hk] H2].
    split; [auto|]. rewrite Forall_forall in Hk. specialize (Hk f Hf). unfold face_kind_ok in Hk. cbn [fst snd] in *. destruct (fst e); auto.
  Qed.
  Lemma split_wanted b : split_geoms (k3_faces d) (snd (deconstruct_rank me (as_faces (wanted3 owner d b)))) =
    Ok (wanted_faces int_quadrilateral owner d b, wanted_faces int_triangle owner d b).
  Proof.
    destruct Hok as (_ & _ & _ & Hsf & _).
    destruct (split_geoms_spec (k3_faces d) (sorted_nodup _ Hsf) (snd (deconstruct_rank me (as_faces (wanted3 owner d b))))) as (q & t & E & S1 & S2 & _ & _ & M1 & M2).
    - apply deconstruct_rank_sorted.
    - intros i Hi. apply in_faces_of in Hi as (e & f & He & Hf & <-). exists f. eapply wanted3_face; eauto.
    - rewrite E. assert (Hx : forall sh l, keys_sorted l ->
        (forall i g, In (i, g) l <-> In i (snd (deconstruct_rank me (as_faces (wanted3 owner d b)))) /\ In (i, g) (k3_faces d) /\ g2_shape g = sh) -> l = wanted_faces sh owner d b).
      { intros sh l Sl Ml. apply sorted_map_ext; auto; [apply filter_keys_sorted; exact Hsf|]. intros i g. rewrite Ml, in_faces_of. unfold wanted_faces. rewrite filter_In. cbn [fst snd].
        rewrite andb_true_iff, Z.eqb_eq, existsb_exists. split.
        - intros ((e & f & He & Hf & E1) & H1 & H2). split; [auto|]. split; [auto|]. exists e. split; auto. apply existsb_exists. exists f. split; auto. now apply Z.eqb_eq.
        - intros (H1 & H2 & e & He & Hf). apply existsb_exists in Hf as (f & Hf & E1). apply Z.eqb_eq in E1. split; [exists e, f; auto|auto]. }
      rewrite (Hx _ _ S1 M1), (Hx _ _ S2 M2). reflexivity.
  Qed.
  Definition stream_of (b : Z) : list Z := concat (map (fun kv => dec_elem (elem_of me kv)) (as_faces (wanted3 owner d b))).
  Lemma decon_ranks_spec rem : (forall b, b <> me -> rank_elems rem b = wanted3 owner d b) ->
    forall sr, NoDup sr -> ~ In me sr ->
    exists o, decon_ranks me (k3_faces d) rem sr = Ok o /\
      (forall b, zget (dc_streams o) b = if existsb (Z.eqb b) sr then Some (stream_of b) else None) /\
      NoDup (map fst (dc_tris o)) /\ NoDup (map fst (dc_quads o)) /\
      (forall b, rank_elems (dc_tris o) b = if existsb (Z.eqb b) sr then wanted_faces int_triangle owner d b else []) /\
      (forall b, rank_elems (dc_quads o) b = if existsb (Z.eqb b) sr then wanted_faces int_quadrilateral owner d b else []) /\
      (forall b, In b (map fst (dc_tris o)) <-> In b sr /\ wanted_faces int_triangle owner d b <> []) /\
      (forall b, In b (map fst (dc_quads o)) <-> In b sr /\ wanted_faces int_quadrilateral owner d b <> []).
  Proof.
    intros Hrem. induction sr as [|r sr IH]; intros Hn Hm; simpl.
    - exists (mkDecon [] [] []). simpl. repeat split; try tauto; try constructor; intros; tauto.
    - inversion Hn; subst. destruct (IH H2 ltac:(simpl in Hm; tauto)) as (o & E & Z1 & N1 & N2 & R1 & R2 & K1 & K2).
      assert (Hr : r <> me) by (intros ->; apply Hm; simpl; auto).
      rewrite (Hrem r Hr), split_wanted, E. cbn [obind fst snd]. eexists. split; [reflexivity|]. cbn [dc_streams dc_tris dc_quads].
      assert (A1 : ~ In r (map fst (dc_tris o))) by (rewrite K1; tauto).
      assert (A2 : ~ In r (map fst (dc_quads o))) by (rewrite K2; tauto).
      split; [|split; [|split; [|split; [|split; [|split]]]]].
      + intros b. cbn [zget existsb]. rewrite Z1. destruct (Z.eqb_spec b r) as [->|]; simpl; auto.
        destruct (deconstruct_rank_spec me (as_faces (wanted3 owner d r))) as (Es & _). now rewrite Es.
      + destruct (wanted_faces int_triangle owner d r); simpl; auto. constructor; auto.
      + destruct (wanted_faces int_quadrilateral owner d r); simpl; auto. constructor; auto.
      + intros b. rewrite add_entry_elems by auto. cbn [existsb]. rewrite R1. destruct (Z.eqb_spec b r) as [->|]; simpl; auto.
      + intros b. rewrite add_entry_elems by auto. cbn [existsb]. rewrite R2. destruct (Z.eqb_spec b r) as [->|]; simpl; auto.
      + intros b. rewrite add_entry_keys, K1. split; [intros [[-> ?]|[? ?]]; auto|intros [[<-|?] ?]; auto].
      + intros b. rewrite add_entry_keys, K2. split; [intros [[-> ?]|[? ?]]; auto|intros [[<-|?] ?]; auto].
  Qed.
  Lemma wanted3_nil b : ~ (exists c, In c (k3_claims d) /\ owner c = b) -> wanted3 owner d b = [].
  Proof.
    intros H. destruct (wanted3 owner d b) as [|e l] eqn:E; auto. exfalso. assert (Hi : In e (wanted3 owner d b)) by (rewrite E; simpl; auto).
    unfold wanted3 in Hi. apply filter_In in Hi as [_ Hi]. apply existsb_exists in Hi as (c & Hc & Ht). apply andb_true_iff in Ht as [Ho _]. apply Z.eqb_eq in Ho. apply H. eauto.
  Qed.
  Lemma wanted_faces_nil sh b : wanted3 owner d b = [] -> wanted_faces sh owner d b = [].
  Proof.
    intros E. unfold wanted_faces. rewrite E. induction (k3_faces d) as [|x l IH]; simpl; auto. rewrite andb_false_r. exact IH.
  Qed.
  Record prepared (o : outgoing) : Prop := {
    pr_send : NoDup (og_send o) /\ forall b, In b (og_send o) <-> b <> me /\ exists c, In c (k3_claims d) /\ owner c = b;
    pr_str : forall b, b <> me -> match zget (dc_streams (og_dec o)) b with Some l => l | None => [] end = stream_of b;
    pr_tri : forall b, b <> me -> rank_elems (dc_tris (og_dec o)) b = wanted_faces int_triangle owner d b;
    pr_quad : forall b, b <> me -> rank_elems (dc_quads (og_dec o)) b = wanted_faces int_quadrilateral owner d b;
    pr_tk : NoDup (map fst (dc_tris (og_dec o))) /\ forall b, In b (map fst (dc_tris (og_dec o))) <-> b <> me /\ wanted_faces int_triangle owner d b <> [];
    pr_qk : NoDup (map fst (dc_quads (og_dec o))) /\ forall b, In b (map fst (dc_quads (og_dec o))) <-> b <> me /\ wanted_faces int_quadrilateral owner d b <> [] }.
  Lemma prepare_spec : exists o, halo3d_prepare size me owner (k3_faces d) (k3_elems d) (k3_map d) (unowned_cells owner me (k3_claims d)) = Ok o /\ prepared o.
  Proof.
    destruct (send_ranks_spec3 size owner d me Hok Hme) as (sr & rem & E & S & R & W).
    assert (Hm : ~ In me sr) by (rewrite R; tauto).
    destruct (decon_ranks_spec rem W sr (sorted_nodup _ S) Hm) as (o & Eo & Z1 & N1 & N2 & R1 & R2 & K1 & K2).
    unfold halo3d_prepare. rewrite E. cbn [obind fst snd]. rewrite Eo. cbn [obind]. eexists. split; [reflexivity|].
    assert (Hin : forall b, existsb (Z.eqb b) sr = true <-> In b sr).
    { intros b. rewrite existsb_exists. split; [intros (x & Hx & Ex); apply Z.eqb_eq in Ex; subst; auto|intros; exists b; split; auto; apply Z.eqb_refl]. }
    assert (Hnil : forall b, b <> me -> existsb (Z.eqb b) sr = false -> wanted3 owner d b = []).
    { intros b Hb Ex. apply wanted3_nil. intros Hc. assert (In b sr) by (apply R; auto). apply Hin in H. congruence. }
    constructor; cbn [og_send og_dec].
    - split; [apply sorted_nodup; auto|exact R].
    - intros b Hb. rewrite Z1. destruct (existsb (Z.eqb b) sr) eqn:Ex; auto. unfold stream_of. rewrite Hnil; auto.
    - intros b Hb. rewrite R1. destruct (existsb (Z.eqb b) sr) eqn:Ex; auto. now rewrite wanted_faces_nil by auto.
    - intros b Hb. rewrite R2. destruct (existsb (Z.eqb b) sr) eqn:Ex; auto. now rewrite wanted_faces_nil by auto.
    - split; [auto|]. intros b. rewrite K1. split; [intros [A B]; split; auto; intros ->; tauto|].
      intros [A B]. split; auto. destruct (existsb (Z.eqb b) sr) eqn:Ex; [now apply Hin|]. exfalso. apply B. apply wanted_faces_nil; auto.
    - split; [auto|]. intros b. rewrite K2. split; [intros [A B]; split; auto; intros ->; tauto|].
      intros [A B]. split; auto. destruct (existsb (Z.eqb b) sr) eqn:Ex; [now apply Hin|]. exfalso. apply B. apply wanted_faces_nil; auto.
  Qed.
End Prepare.

(** ** one exchange of faces *)
Lemma in_others size me a : In a (filter (fun a => negb (a =? me)) (ranks size)) <-> 0 <= a < size /\ a <> me.
Proof. rewrite filter_In, in_ranks, negb_true_iff, Z.eqb_neq. tauto. Qed.
Lemma senders_filter size send me : (forall a, 0 <= a < size -> ~ In a (send a)) -> 0 <= me < size ->
  filter (fun a => existsb (Z.eqb me) (send a)) (ranks size) =
  filter (fun a => existsb (Z.eqb me) (send a)) (filter (fun a => negb (a =? me)) (ranks size)).
Proof.
  intros Hself Hme. assert (Hr : forall a, In a (ranks size) -> 0 <= a < size) by (intros a; apply in_ranks).
  induction (ranks size) as [|a l IH]; simpl; auto.
  destruct (Z.eqb_spec a me) as [->|Hne]; simpl.
  - destruct (existsb (Z.eqb me) (send me)) eqn:Ex; [|apply IH; intros; apply Hr; simpl; auto].
    apply existsb_exists in Ex as (b & Hb & Eb). apply Z.eqb_eq in Eb. subst b. exfalso. eapply Hself; eauto.
  - rewrite IH by (intros; apply Hr; simpl; auto). reflexivity.
Qed.
Lemma existsb_in me l : existsb (Z.eqb me) l = true <-> In me l.
Proof. rewrite existsb_exists. split; [intros (x & Hx & E); apply Z.eqb_eq in E; subst; auto|intros; exists me; split; auto; apply Z.eqb_refl]. Qed.
Lemma faces_delivered size (fm : Z -> list (Z * list (Z * geom2d))) (w : Z -> Z -> list (Z * geom2d)) me arrival order :
  0 <= me < size ->
  (forall a b, 0 <= a < size -> b <> a -> rank_elems (fm a) b = w a b) ->
  (forall a, 0 <= a < size -> NoDup (map fst (fm a)) /\ forall b, In b (map fst (fm a)) <-> b <> a /\ w a b <> []) ->
  (forall a b, 0 <= a < size -> packable size a (w a b)) ->
  Permutation arrival (size_messages size (fun a => face_send (fm a)) (face_msg fm) me) ->
  Permutation order (seq 0 (num_recv_ranks size (fun a => face_send (fm a)) me)) ->
  exists l, exchange_recv (num_recv_ranks size (fun a => face_send (fm a)) me) arrival (fun a => face_msg fm a me) order = XOk (Ok l) /\
    Permutation l (concat (map (fun a => remotes a (w a me)) (filter (fun a => negb (a =? me)) (ranks size)))).
Proof.
  intros Hme Hw Hk Hp HA HO. rewrite size_messages_eq in HA by (intros; now apply Hk).
  set (send := fun a => face_send (fm a)) in *.
  assert (Hself : forall a, 0 <= a < size -> ~ In a (send a)) by (intros a Ha Hi; apply Hk in Hi; tauto).
  set (S := filter (fun a => existsb (Z.eqb me) (send a)) (ranks size)) in *.
  assert (HS : forall a, In a S -> 0 <= a < size /\ a <> me).
  { intros a Hi. unfold S in Hi. rewrite senders_filter in Hi by auto. apply filter_In in Hi as [Hi _]. now apply in_others. }
  exists (concat (map (fun ss => remotes (fst ss) (rank_elems (fm (fst ss)) me)) arrival)). split.
  - apply (exchange_recv_spec arrival (fun a => remotes a (rank_elems (fm a) me))).
    + apply Permutation_length in HA. rewrite map_length in HA. rewrite HA. reflexivity.
    + exact HO.
    + rewrite Forall_forall. intros ss Hi. apply (Permutation_in _ HA) in Hi. apply in_map_iff in Hi as (a & <- & Ha). unfold face_msg. cbn [fst snd].
      destruct (HS a Ha) as [Ha1 Ha2]. destruct (Hp a me Ha1) as [P1 P2]. rewrite (Hw a me) by auto. fold (remotes a (w a me)).
      split; [auto|]. split; [auto|]. pose proof (filter_ranks_le size (fun a => existsb (Z.eqb me) (send a))). fold S in H. specialize (H ltac:(lia)).
      unfold num_recv_ranks. fold S. eapply Z.le_lt_trans; [|exact P2]. apply Z.mul_le_mono_nonneg_l; [lia|exact H].
  - etransitivity; [apply (Permutation_concat_map (fun ss : Z * Z => remotes (fst ss) (rank_elems (fm (fst ss)) me)) _ _ HA)|].
    rewrite map_map. cbn [fst].
    assert (E : concat (map (fun a => remotes a (rank_elems (fm a) me)) S) =
              concat (map (fun a => remotes a (w a me)) (filter (fun a => existsb (Z.eqb me) (send a)) (filter (fun a => negb (a =? me)) (ranks size))))).
    { unfold S at 1. rewrite (senders_filter size send me Hself Hme). f_equal. apply map_ext_in. intros a Ha. apply filter_In in Ha as [Ha _]. apply in_others in Ha as [? ?]. rewrite Hw; auto. }
    change (filter (fun a : Z => existsb (Z.eqb me) (face_send (fm a))) (ranks size)) with S. rewrite E. rewrite concat_filter_nil; [reflexivity|].
    intros a Ha Hx. apply in_others in Ha as [Ha Hne]. destruct (w a me) eqn:Ew; auto. exfalso.
    assert (existsb (Z.eqb me) (send a) = true); [|congruence]. apply existsb_in. apply Hk; auto. split; auto. congruence.
Qed.

(** ** the map of faces *)
Lemma face_at_put m x r i : face_at (put_face m x) r i = if (r =? r2_rank x) && (i =? r2_id x) then Some (r2_geom x) else face_at m r i.
Proof.
  unfold face_at, put_face. rewrite rank_elems_assign. destruct (Z.eqb_spec r (r2_rank x)) as [->|]; simpl; auto. rewrite zget_zassign. reflexivity.
Qed.
Lemma face_at_fold r i g l : forall m, (forall x, In x l -> r2_rank x = r -> r2_id x = i -> r2_geom x = g) ->
  (face_at m r i = Some g \/ exists x, In x l /\ r2_rank x = r /\ r2_id x = i) -> face_at (fold_left put_face l m) r i = Some g.
Proof.
  induction l as [|x l IH]; intros m Hx H; simpl.
  - destruct H as [|(? & [] & _)]; auto.
  - apply IH; [intros; apply Hx; simpl; auto|]. rewrite face_at_put.
    destruct ((r =? r2_rank x) && (i =? r2_id x)) eqn:E.
    + apply andb_true_iff in E as [E1 E2]. apply Z.eqb_eq in E1, E2. left. f_equal. apply Hx; simpl; auto.
    + destruct H as [H|(y & [->|Hy] & A & B)]; [left; auto| |right; eauto].
      subst. rewrite !Z.eqb_refl in E. discriminate.
Qed.

(** ** all ranks *)
Lemma stream_len owner a d b : Z.of_nat (length (stream_of a owner d b)) = stream_ints (wanted3 owner d b).
Proof.
  unfold stream_of, stream_ints, as_faces. induction (wanted3 owner d b) as [|e l IH]; [reflexivity|]. cbn [map concat fold_right].
  rewrite app_length. unfold dec_elem at 1, elem_of at 1, deconstruct_base at 1. cbn [e3_rank e3_id e3_shape e3_faces fst snd length].
  rewrite !map_length, Nat2Z.inj_add, IH. unfold elem_of. cbn [e3_faces fst snd]. rewrite map_length. lia.
Qed.
Lemma stream_ints_nonneg l : 0 <= stream_ints l.
Proof. unfold stream_ints. induction l; cbn [map fold_right]; lia. Qed.
Lemma face2_ok s g : face_kind_ok s g -> match need_of s with Some b => Bool.eqb (f2_tri (face2_of g)) b = true | None => True end.
Proof.
  unfold face_kind_ok, need_of, face2_of. destruct s; simpl; auto; intros ->; reflexivity.
Qed.
Lemma elem_ok_b rank id e : elem3d_ok e -> elem3_okb (mkElem3 rank id (fst e) (map face2_of (snd e))) = true.
Proof.
  intros [H1 H2]. unfold elem3_okb. cbn [e3_faces e3_shape]. apply andb_true_iff. split.
  - apply Nat.eqb_eq. rewrite map_length, H1. destruct (fst e); reflexivity.
  - destruct (need_of (fst e)) eqn:E; auto. apply forallb_forall. intros f Hf. apply in_map_iff in Hf as (g & <- & Hg).
    rewrite Forall_forall in H2. pose proof (face2_ok _ _ (H2 g Hg)) as H. rewrite E in H. exact H.
Qed.
Lemma flat_map_some {A B} (f : A -> option B) (g : A -> B) l : (forall x, In x l -> f x = Some (g x)) ->
  flat_map (fun x => match f x with Some y => [y] | None => [] end) l = map g l.
Proof. induction l as [|x l IH]; simpl; intros H; auto. rewrite H by auto. simpl. f_equal. apply IH; auto. Qed.

Section All.
  Context (size : Z) (owner : Z -> Z) (data : Z -> rank3) (out : Z -> outgoing).
  Hypothesis Hok : forall a, 0 <= a < size -> rank3_ok size owner (data a).
  Hypothesis Hcnt : forall a, 0 <= a < size -> counted size owner a (data a).
  Hypothesis Hout : forall a, 0 <= a < size ->
    halo3d_prepare size a owner (k3_faces (data a)) (k3_elems (data a)) (k3_map (data a)) (unowned_cells owner a (k3_claims (data a))) = Ok (out a).
  Lemma out_prepared a : 0 <= a < size -> prepared a owner (data a) (out a).
  Proof.
    intros Ha. destruct (prepare_spec size a owner (data a) (Hok a Ha) Ha) as (o & E & P). rewrite Hout in E by auto. injection E as <-. exact P.
  Qed.
  Let tm a := dc_tris (og_dec (out a)).
  Let qm a := dc_quads (og_dec (out a)).
  Let others me := filter (fun a => negb (a =? me)) (ranks size).
  Lemma in_all_faces sh me x : In x (concat (map (fun a => remotes a (wanted_faces sh owner (data a) me)) (others me))) <->
    (0 <= r2_rank x < size /\ r2_rank x <> me /\ In (r2_id x, r2_geom x) (wanted_faces sh owner (data (r2_rank x)) me)).
  Proof.
    rewrite in_concat. split.
    - intros (y & Hy & Hx). apply in_map_iff in Hy as (a & <- & Ha). apply in_others in Ha as [? ?]. apply in_remotes in Hx as [<- Hx]. auto.
    - intros (H1 & H2 & H3). eexists. split; [apply in_map_iff; exists (r2_rank x); split; [reflexivity|apply in_others; auto]|]. apply in_remotes. auto.
  Qed.
  Theorem halos3 me ta qa sa to qo so : 0 <= me < size ->
    Permutation ta (size_messages size (fun a => face_send (tm a)) (face_msg tm) me) ->
    Permutation qa (size_messages size (fun a => face_send (qm a)) (face_msg qm) me) ->
    Permutation sa (size_messages size (fun a => og_send (out a)) (stream_msg out) me) ->
    Permutation to (seq 0 (num_recv_ranks size (fun a => face_send (tm a)) me)) ->
    Permutation qo (seq 0 (num_recv_ranks size (fun a => face_send (qm a)) me)) ->
    Permutation so (seq 0 (num_recv_ranks size (fun a => og_send (out a)) me)) ->
    exists tris quads l, create_halos_3d size me out ta qa sa to qo so = H3Ok tris quads l /\
      Permutation tris (concat (map (fun a => remotes a (wanted_faces int_triangle owner (data a) me)) (others me))) /\
      Permutation quads (concat (map (fun a => remotes a (wanted_faces int_quadrilateral owner (data a) me)) (others me))) /\
      Permutation l (concat (map (fun a => remotes3 a (wanted3 owner (data a) me)) (others me))).
  Proof.
    intros Hme HA1 HA2 HA3 HO1 HO2 HO3.
    destruct (faces_delivered size tm (fun a b => wanted_faces int_triangle owner (data a) b) me ta to Hme) as (tris & E1 & P1); auto.
    { intros a b Ha Hb. apply (pr_tri _ _ _ _ (out_prepared a Ha)); auto. }
    { intros a Ha. apply (pr_tk _ _ _ _ (out_prepared a Ha)). }
    { intros a b Ha. apply (Hcnt a Ha). }
    destruct (faces_delivered size qm (fun a b => wanted_faces int_quadrilateral owner (data a) b) me qa qo Hme) as (quads & E2 & P2); auto.
    { intros a b Ha Hb. apply (pr_quad _ _ _ _ (out_prepared a Ha)); auto. }
    { intros a Ha. apply (pr_qk _ _ _ _ (out_prepared a Ha)). }
    { intros a b Ha. apply (Hcnt a Ha). }
    (* streams *)
    set (send := fun a => og_send (out a)) in *.
    assert (Hnd : forall a, 0 <= a < size -> NoDup (send a)) by (intros a Ha; apply (pr_send _ _ _ _ (out_prepared a Ha))).
    rewrite size_messages_eq in HA3 by auto.
    assert (Hself : forall a, 0 <= a < size -> ~ In a (send a)) by (intros a Ha Hi; apply (pr_send _ _ _ _ (out_prepared a Ha)) in Hi; tauto).
    set (S := filter (fun a => existsb (Z.eqb me) (send a)) (ranks size)) in *.
    assert (HS : forall a, In a S -> 0 <= a < size /\ a <> me).
    { intros a Hi. unfold S in Hi. rewrite senders_filter in Hi by auto. apply filter_In in Hi as [Hi _]. now apply in_others. }
    assert (Hstr : forall a, In a S -> stream_msg out a me = stream_of a owner (data a) me).
    { intros a Ha. destruct (HS a Ha). unfold stream_msg. apply (pr_str _ _ _ _ (out_prepared a H)). auto. }
    assert (Hsa : forall ss, In ss sa -> In (fst ss) S /\ snd ss = Z.of_nat (length (stream_msg out (fst ss) me))).
    { intros ss Hi. apply (Permutation_in _ HA3) in Hi. apply in_map_iff in Hi as (a & <- & Ha). auto. }
    assert (Hlen : length sa = num_recv_ranks size send me).
    { apply Permutation_length in HA3. rewrite map_length in HA3. exact HA3. }
    assert (Htot : fold_right Z.add 0 (map snd sa) < 2 ^ 31).
    { assert (Hsz : Z.of_nat (length sa) <= size).
      { rewrite Hlen. unfold num_recv_ranks. apply filter_ranks_le. lia. }
      assert (Hb : forall z, In z (map snd sa) -> 0 <= z /\ z * size < 2 ^ 31).
      { intros z Hz. apply in_map_iff in Hz as (ss & <- & Hs). destruct (Hsa ss Hs) as [H1 H2]. rewrite H2, Hstr, stream_len by auto.
        destruct (HS _ H1) as [H3 _]. split; [apply stream_ints_nonneg|]. apply (Hcnt _ H3). }
      assert (Hg : forall l, (forall z, In z l -> 0 <= z /\ z * size < 2 ^ 31) -> fold_right Z.add 0 l * size <= Z.of_nat (length l) * (2 ^ 31 - 1)).
      { clear. induction l as [|z l IH]; intros H; [simpl; lia|]. cbn [fold_right length]. specialize (IH ltac:(intros; apply H; simpl; auto)).
        destruct (H z) as [_ H2]; [simpl; auto|]. lia. }
      specialize (Hg _ Hb). rewrite map_length in Hg. nia. }
    unfold create_halos_3d. cbv beta zeta. unfold tm in E1; unfold qm in E2; cbv beta in E1, E2. rewrite E1, E2. fold send.
    rewrite Hlen, Nat.eqb_refl. cbn [negb].
    assert (Hall : forallb (fun ss => Z.of_nat (length (stream_msg out (fst ss) me)) <=? snd ss) sa = true).
    { apply forallb_forall. intros ss Hi. destruct (Hsa ss Hi) as [_ ->]. apply Z.leb_refl. }
    rewrite Hall. cbn [negb]. rewrite (proj2 (Z.ltb_lt _ _) Htot). cbn [negb].
    rewrite sendrecv_concat.
    2:{ rewrite map_map. apply map_ext_in. intros ss Hi. destruct (Hsa ss Hi) as [_ ->]. lia. }
    2:{ rewrite map_length, Hlen. exact HO3. }
    (* the elements described by the streams *)
    set (L := concat (map (fun ss => map (elem_of (fst ss)) (as_faces (wanted3 owner (data (fst ss)) me))) sa)).
    assert (EL : concat (map (fun a => stream_msg out a me) (map fst sa)) =
                 concat (map (fun e => deconstruct_base (e3_rank e) (e3_id e) (e3_shape e) (e3_faces e)) L)).
    { unfold L. rewrite map_map. clear - Hsa Hstr. induction sa as [|ss sa IH]; simpl; auto.
      rewrite IH by (intros; apply Hsa; simpl; auto). rewrite map_app, concat_app. f_equal.
      destruct (Hsa ss) as [H1 _]; [simpl; auto|]. rewrite (Hstr _ H1). unfold stream_of. rewrite map_map. reflexivity. }
    assert (HinL : forall e, In e L -> exists a id g, In a S /\ In (id, g) (wanted3 owner (data a) me) /\ e = mkElem3 a id (fst g) (map face2_of (snd g))).
    { intros e He. unfold L in He. apply in_concat in He as (y & Hy & He). apply in_map_iff in Hy as (ss & <- & Hs). apply in_map_iff in He as (kv & <- & Hk).
      unfold as_faces in Hk. apply in_map_iff in Hk as ([id g] & <- & Hg). exists (fst ss), id, g. split; [apply Hsa; auto|]. split; auto. }
    (* the face map *)
    assert (Hface : forall a id g f, In a S -> In (id, g) (wanted3 owner (data a) me) -> In f (snd g) -> face_at (face_map tris quads) a (g2_id f) = Some f).
    { intros a id g f Ha Hg Hf. destruct (HS a Ha) as [Ha1 Ha2]. destruct (wanted3_face size owner (data a) (Hok a Ha1) me (id, g) f Hg Hf) as [Hin Hsh].
      pose proof (Hok a Ha1) as (_ & _ & _ & Hsf & _).
      assert (Hu : forall sh x, In x (concat (map (fun a => remotes a (wanted_faces sh owner (data a) me)) (others me))) -> r2_rank x = a -> r2_id x = g2_id f -> r2_geom x = f).
      { intros sh x Hx <- Ei. apply in_all_faces in Hx as (_ & _ & Hx). unfold wanted_faces in Hx. apply filter_In in Hx as [Hx _]. rewrite Ei in Hx.
        apply (proj2 (zget_in _ _ _ (sorted_nodup _ Hsf))) in Hx, Hin. congruence. }
      assert (Hw : forall sh, g2_shape f = sh -> In (mkRemote2D a (g2_id f) f) (concat (map (fun a => remotes a (wanted_faces sh owner (data a) me)) (others me)))).
      { intros sh Esh. apply in_all_faces. cbn [r2_rank r2_id r2_geom]. split; [auto|]. split; [auto|]. unfold wanted_faces. apply filter_In. split; auto. cbn [fst snd].
        rewrite (proj2 (Z.eqb_eq _ _) Esh). simpl. apply existsb_exists. exists (id, g). split; auto. apply existsb_exists. exists f. split; auto. apply Z.eqb_refl. }
      unfold face_map. apply face_at_fold.
      - intros x Hx. apply (Permutation_in _ P2) in Hx. eapply Hu; eauto.
      - destruct Hsh as [Et|Eq].
        + left. apply face_at_fold; [intros x Hx; apply (Permutation_in _ P1) in Hx; eapply Hu; eauto|]. right. exists (mkRemote2D a (g2_id f) f). split; auto.
          eapply Permutation_in; [symmetry; exact P1|]. auto.
        + right. exists (mkRemote2D a (g2_id f) f). split; auto. eapply Permutation_in; [symmetry; exact P2|]. auto. }
    rewrite EL. rewrite reconstruct_complete.
    - exists tris, quads, (map (with_geoms (face_map tris quads)) L). split; [reflexivity|]. split; [exact P1|]. split; [exact P2|].
      assert (E3 : map (with_geoms (face_map tris quads)) L = concat (map (fun ss => remotes3 (fst ss) (wanted3 owner (data (fst ss)) me)) sa)).
      { unfold L. rewrite concat_map, map_map. f_equal. apply map_ext_in. intros ss Hs. unfold remotes3, as_faces. rewrite !map_map. apply map_ext_in. intros [id g] Hg.
        unfold with_geoms, elem_of. cbn [fst snd e3_rank e3_id e3_shape e3_faces]. f_equal.
        rewrite flat_map_concat_map, map_map, <- flat_map_concat_map. cbn [f2_id face2_of].
        rewrite (flat_map_some (fun x => face_at (face_map tris quads) (fst ss) (g2_id x)) (fun x => x)); [apply map_id|].
        intros f Hf. destruct (Hsa ss Hs) as [H1 _]. eapply Hface; eauto. }
      rewrite E3. etransitivity; [apply (Permutation_concat_map (fun ss : Z * Z => remotes3 (fst ss) (wanted3 owner (data (fst ss)) me)) _ _ HA3)|].
      rewrite map_map. cbn [fst]. unfold S. rewrite (senders_filter size send me Hself Hme). rewrite concat_filter_nil; [reflexivity|].
      intros a Ha Hx. apply in_others in Ha as [Ha Hne]. rewrite (wanted3_nil owner (data a) me); [reflexivity|].
      intros Hc. assert (existsb (Z.eqb me) (send a) = true); [|congruence]. apply existsb_in. apply (pr_send _ _ _ _ (out_prepared a Ha)). auto.
    - apply Forall_forall. intros e He. destruct (HinL e He) as (a & id & g & Ha & Hg & ->). apply elem_ok_b.
      destruct (HS a Ha) as [Ha1 _]. destruct (Hok a Ha1) as (_ & _ & _ & _ & H). unfold wanted3 in Hg. apply filter_In in Hg as [Hg _]. apply (H id g Hg).
    - intros e f He Hf. destruct (HinL e He) as (a & id & g & Ha & Hg & ->). cbn [e3_faces e3_rank] in *. apply in_map_iff in Hf as (x & <- & Hx).
      cbn [f2_id face2_of]. rewrite (Hface a id g x Ha Hg Hx). reflexivity.
  Qed.
End All.

(** ** with the claims of the constructor *)
From Verif Require Import S_Grid S_MeshIf L_MeshIf L_MeshIf2 L_ExchangeMesh.
From Coq Require Import Reals.
From Coq Require Import List.
Section Claims.
  Context (m : mhier) (bx : elem3d -> box) (elems : list (Z * elem3d)).
  Hypothesis Hm : mh_ok m.
  Hypothesis Hb : forall e, In e elems -> length (bx (snd e)) = mh_ndim m.
  Let wb := map (fun e : Z * elem3d => (fst e, bx (snd e))) elems.
  Lemma ok_3 : elems_ok m wb.
  Proof. apply Forall_forall. intros e Hi. apply in_map_iff in Hi as (x & <- & Hx). apply Hb. auto. Qed.
  Lemma claims_spec3 g : In g (fst (interface_claims_3d m bx elems)) <-> exists e c, In e elems /\ fine_cell m g c /\ (0 < overlap_volume (bx (snd e)) c)%R.
  Proof.
    unfold interface_claims_3d. cbn [fst snd]. rewrite claim_elements_run.
    destruct (claim_cells_run (flat_map (elem_claims m) wb)) as [_ H]. unfold run_claims in H. fold wb. rewrite H. split.
    - intros (w & f & Hi & _). apply in_elem_claims in Hi as (e & c & H1 & H2 & H3 & _); auto; [|apply ok_3].
      apply in_map_iff in H1 as (x & <- & Hx). exists x, c. auto.
    - intros (e & c & H1 & H2 & H3). do 2 eexists. split; [apply in_elem_claims; auto; [apply ok_3|]|apply int_weight_pos].
      exists (fst e, bx (snd e)), c. split; [apply in_map_iff; exists e; auto|]. split; [auto|]. split; [auto|]. split; reflexivity.
  Qed.
  Lemma map_spec3 g : geom_ids (snd (interface_claims_3d m bx elems)) g = map fst (filter (fun e => touches m g (bx (snd e))) elems).
  Proof.
    rewrite geom_ids_at. unfold interface_claims_3d. cbn [fst snd]. rewrite (claim_elements_snd m _ g Hm ok_3). simpl.
    unfold wb. clear wb Hb. induction elems as [|e l IH]; [reflexivity|]. cbn [map filter fst snd]. destruct (touches m g (bx (snd e))); cbn [map fst]; now rewrite IH.
  Qed.
  Lemma in_wanted3 faces owner b : NoDup (map fst elems) ->
    forall e, In e (wanted3 owner (mkRank3 faces elems (fst (interface_claims_3d m bx elems)) (snd (interface_claims_3d m bx elems))) b) <->
      In e elems /\ exists g c, owner g = b /\ fine_cell m g c /\ (0 < overlap_volume (bx (snd e)) c)%R.
  Proof.
    intros Hn e. unfold wanted3. cbn [k3_elems k3_claims k3_map]. rewrite filter_In, existsb_exists. split.
    - intros [He (g & Hgi & Ht)]. split; auto. apply Bool.andb_true_iff in Ht as [Ho Hi]. apply Z.eqb_eq in Ho.
      apply existsb_exists in Hi as (i & Hi & Ei). apply Z.eqb_eq in Ei. subst i. rewrite map_spec3 in Hi.
      apply in_map_iff in Hi as (e' & E & Hi). apply filter_In in Hi as [Hi Ht].
      assert (e' = e).
      { destruct e' as [k v], e as [k' v']. simpl in E. subst k'. f_equal.
        apply (proj2 (zget_in elems k v Hn)) in Hi. apply (proj2 (zget_in elems k v' Hn)) in He. congruence. }
      subst e'. apply touches_iff in Ht as (c & H1 & H2); auto. eauto.
    - intros [He (g & c & Ho & H1 & H2)]. split; auto. exists g. split; [apply claims_spec3; exists e, c; auto|].
      cbv beta. rewrite Ho, Z.eqb_refl. simpl. apply existsb_exists. exists (fst e). split; [|apply Z.eqb_refl].
      rewrite map_spec3. apply in_map. apply filter_In. split; auto. apply touches_iff; eauto.
  Qed.
End Claims.
Lemma in_remotes3 a l x : In x (remotes3 a l) <-> r3_rank x = a /\ In (r3_id x, (r3_shape x, r3_faces x)) l.
Proof.
  unfold remotes3. rewrite in_map_iff. split.
  - intros ([i [s f]] & <- & H). simpl. auto.
  - intros [<- H]. exists (r3_id x, (r3_shape x, r3_faces x)). split; auto. destruct x; reflexivity.
Qed.
Lemma nodup_all3 (w : Z -> list (Z * elem3d)) l : NoDup l -> (forall a, In a l -> NoDup (map fst (w a))) ->
  NoDup (concat (map (fun a => remotes3 a (w a)) l)).
Proof.
  induction l as [|a l IH]; simpl; intros Hn Hw; [constructor|]. inversion Hn; subst. apply NoDup_app_intro; auto.
  - apply (NoDup_map_inv r3_id). unfold remotes3. rewrite map_map. cbn [r3_id]. apply Hw; auto.
  - intros x H3 H4. apply in_remotes3 in H3 as [<- _]. apply in_concat in H4 as (y & Hy & Hx).
    apply in_map_iff in Hy as (b & <- & Hb). apply in_remotes3 in Hx as [<- _]. auto.
Qed.
Lemma neighbour3_spec elems : StronglySorted Z.lt (neighbour_ranks_3d elems) /\
  forall r, In r (neighbour_ranks_3d elems) <-> exists g, In g elems /\ r3_rank g = r.
Proof.
  unfold neighbour_ranks_3d.
  assert (H : forall (l : list remote3d) s, StronglySorted Z.lt s -> StronglySorted Z.lt (fold_left (fun s g => set_insert (r3_rank g) s) l s) /\
     forall r, In r (fold_left (fun s g => set_insert (r3_rank g) s) l s) <-> In r s \/ exists g, In g l /\ r3_rank g = r).
  { induction l as [|g l IH]; intros s Hs; simpl.
    - split; auto. intros r. split; auto. intros [|(? & [] & _)]; auto.
    - destruct (IH (set_insert (r3_rank g) s) (set_insert_sorted _ _ Hs)) as [H1 H2]. split; auto. intros r. rewrite H2, in_set_insert. split.
      + intros [[->|]|(x & ? & ?)]; eauto.
      + intros [|(x & [->|] & ?)]; eauto. }
  destruct (H elems [] ltac:(constructor)) as [S1 I1]. split; auto. intros r. rewrite I1. simpl. split; [intros [[]|?]; auto|auto].
Qed.
