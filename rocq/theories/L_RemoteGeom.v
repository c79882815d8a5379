(** Proofs about the RemoteGeom serialisation. *)
From Verif Require Import M_Bytes L_Bytes M_Pack2D L_Pack2D M_RemoteGeom.

Definition anyn (n : nat) : Prop := True.
Lemma anyn_down : down_closed anyn.
Proof. intros a b _ _. exact I. Qed.

Lemma parses_mem_read mem bs : parses anyn (mem_read mem (length bs)) mem bs bs.
Proof. intros pre post E _. eapply mem_read_at; exact E. Qed.

Lemma parses_upop_int mem z : int32_range z -> parses anyn (upop_int mem) mem (enc_int z) z.
Proof.
  intros H. unfold upop_int. eapply parses_map; [apply anyn_down| |apply dec_enc_int; exact H].
  rewrite <- (enc_int_length z) at 1. apply parses_mem_read.
Qed.
Lemma parses_upop_gspec mem z : gspec_ok z -> parses anyn (upop_gspec mem) mem (enc_gspec z) z.
Proof.
  intros H. unfold upop_gspec. eapply parses_map; [apply anyn_down| |apply dec_enc_gspec; exact H].
  rewrite <- (enc_gspec_length z) at 1. apply parses_mem_read.
Qed.
Lemma parses_upop_point mem z : point_ok z -> parses anyn (upop_point mem) mem (enc_point z) z.
Proof.
  intros H. unfold upop_point. eapply parses_map; [apply anyn_down| |apply dec_enc_point; exact H].
  rewrite <- (enc_point_length z) at 1. apply parses_mem_read.
Qed.

Lemma no_curve_ok : gspec_ok no_curve.
Proof. unfold gspec_ok, no_curve, int32_range; cbn; lia. Qed.

Lemma parses_take {A B} mem n (l : list A) (k : list A -> reader B) bs b :
  length l = n -> parses anyn (k l) mem bs b ->
  parses anyn (rbind (take_exact n l) k) mem bs b.
Proof.
  intros <- H pre post E L. unfold rbind, take_exact.
  rewrite Nat.leb_refl, firstn_all. cbn [obind fst snd]. apply (H pre post E L).
Qed.

(** Pure encoders of straight geometry. *)
Definition penc_edge (e : edge) : list Z :=
  enc_int (ed_id e) ++ enc_int (ed_coordim e)
         ++ enc_int (Z.of_nat (length (ed_verts e)))
         ++ concat (map enc_point (ed_verts e)) ++ enc_gspec no_curve.
Definition penc_face (f : face) : list Z :=
  enc_int (fc_id f) ++ enc_int (Z.of_nat (length (fc_edges f)))
  ++ concat (map penc_edge (fc_edges f)) ++ enc_gspec no_curve.
Definition penc_sface (f : face) : list Z := enc_int (face_int f) ++ penc_face f.

Lemma straight_edge_ok e : straight_edge_okb e = true ->
  int32_range (ed_id e) /\ int32_range (ed_coordim e) /\ length (ed_verts e) = 2%nat /\
  forallb point_okb (ed_verts e) = true /\ ed_curve e = None.
Proof.
  unfold straight_edge_okb. rewrite !andb_true_iff, !int32b_ok, Nat.eqb_eq.
  intros [[[[Q1 Q2] Q3] Q4] Q5]. destruct (ed_curve e); [discriminate|]. tauto.
Qed.
Lemma straight_face_ok f : straight_face_okb f = true ->
  int32_range (fc_id f) /\ length (fc_edges f) = (if fc_tri f then 3 else 4)%nat /\
  forallb straight_edge_okb (fc_edges f) = true /\ fc_curve f = None.
Proof.
  unfold straight_face_okb. rewrite !andb_true_iff, !int32b_ok, Nat.eqb_eq.
  intros [[[Q1 Q2] Q3] Q5]. destruct (fc_curve f); [discriminate|]. tauto.
Qed.

Lemma ofold_ok {A} (f : A -> outcome (list Z)) g l :
  (forall a, In a l -> f a = Ok (g a)) -> ofold f l = Ok (concat (map g l)).
Proof.
  induction l as [|a l IH]; intros H; cbn [ofold map concat]; [reflexivity|].
  rewrite (H a) by (left; reflexivity). cbn [obind].
  rewrite IH by (intros x Hx; apply H; right; exact Hx). reflexivity.
Qed.

Lemma ser_edge_straight e : straight_edge_okb e = true -> ser_edge e = Ok (penc_edge e).
Proof. intros H. apply straight_edge_ok in H. unfold ser_edge. destruct H as (_&_&_&_&->). reflexivity. Qed.
Lemma ser_face_straight f : straight_face_okb f = true -> ser_face f = Ok (penc_face f).
Proof.
  intros H. apply straight_face_ok in H. destruct H as (_&_&He&Hc). unfold ser_face.
  rewrite (ofold_ok ser_edge penc_edge).
  - rewrite Hc. reflexivity.
  - intros e Hin. apply ser_edge_straight. rewrite forallb_forall in He. apply He, Hin.
Qed.

Lemma parses_deser_edge mem e : straight_edge_okb e = true ->
  parses anyn (deser_edge mem) mem (penc_edge e) e.
Proof.
  intros H. apply straight_edge_ok in H. destruct H as (Hi & Hc & Hn & Hp & Hcv).
  unfold deser_edge, penc_edge.
  eapply parses_bind; [apply anyn_down | apply parses_upop_int; exact Hi |].
  eapply parses_bind; [apply anyn_down | apply parses_upop_int; exact Hc |].
  eapply parses_bind; [apply anyn_down | apply parses_upop_int |].
  { rewrite Hn; unfold int32_range; lia. }
  rewrite Nat2Z.id.
  eapply parses_bind; [apply anyn_down | |].
  { apply parses_rrep; [apply anyn_down|]. intros p Hin. apply parses_upop_point, point_okb_ok.
    rewrite forallb_forall in Hp. apply Hp, Hin. }
  rewrite <- (app_nil_r (enc_gspec no_curve)).
  eapply parses_bind; [apply anyn_down | apply parses_upop_gspec, no_curve_ok |].
  apply parses_assert; [reflexivity|].
  apply parses_take; [exact Hn|].
  destruct e as [a b v c]; cbn [ed_id ed_coordim ed_verts ed_curve] in *; subst c.
  apply parses_ret.
Qed.

Lemma parses_deser_face mem f : straight_face_okb f = true ->
  parses anyn (deser_face mem (face_int f)) mem (penc_face f) f.
Proof.
  intros H. apply straight_face_ok in H. destruct H as (Hi & Hn & He & Hcv).
  unfold deser_face, penc_face.
  assert (Ht : (face_int f =? int_triangle) = fc_tri f)
    by (unfold face_int; destruct (fc_tri f); reflexivity).
  rewrite Ht.
  eapply parses_bind; [apply anyn_down | apply parses_upop_int; exact Hi |].
  eapply parses_bind; [apply anyn_down | apply parses_upop_int |].
  { rewrite Hn; unfold int32_range; destruct (fc_tri f); lia. }
  rewrite Nat2Z.id.
  eapply parses_bind; [apply anyn_down | |].
  { apply parses_rrep; [apply anyn_down|]. intros p Hin. apply parses_deser_edge.
    rewrite forallb_forall in He. apply He, Hin. }
  rewrite <- (app_nil_r (enc_gspec no_curve)).
  eapply parses_bind; [apply anyn_down | apply parses_upop_gspec, no_curve_ok |].
  apply parses_assert; [reflexivity|].
  apply parses_take; [exact Hn|].
  destruct f as [t i es c]; cbn [fc_tri fc_id fc_edges fc_curve] in *; subst c.
  apply parses_ret.
Qed.

Lemma parses_kind {B} mem b fs (k : unit -> reader B) bs x :
  forallb (fun f => Bool.eqb (fc_tri f) b) fs = true ->
  parses anyn (k tt) mem bs x ->
  parses anyn (rbind (require_kind b fs) k) mem bs x.
Proof.
  intros H1 H2 pre post E L. unfold rbind, require_kind. rewrite H1. cbn [obind fst snd].
  apply (H2 pre post E L).
Qed.

Definition penc_poly (id : Z) (fs : list face) : list Z :=
  enc_int id ++ enc_int (Z.of_nat (length fs)) ++ concat (map penc_sface fs).

Lemma parses_deser_poly mem s id fs :
  int32_range id -> shape3_faces_okb s fs = true -> forallb straight_face_okb fs = true ->
  parses anyn (deser_poly mem (shape3_int s)) mem (penc_poly id fs) (GPoly s id fs).
Proof.
  intros Hi Hs Hf. unfold deser_poly, penc_poly.
  assert (Hlen : (length fs <= 6)%nat).
  { destruct s; cbn [shape3_faces_okb] in Hs; try (apply andb_true_iff in Hs; destruct Hs as [Hs _]);
      apply Nat.eqb_eq in Hs; lia. }
  eapply parses_bind; [apply anyn_down | apply parses_upop_int; exact Hi |].
  eapply parses_bind; [apply anyn_down | apply parses_upop_int |].
  { unfold int32_range; lia. }
  rewrite Nat2Z.id.
  rewrite <- (app_nil_r (concat _)).
  eapply parses_bind; [apply anyn_down | |].
  { apply parses_rrep; [apply anyn_down|]. intros f Hin. unfold penc_sface.
    eapply parses_bind; [apply anyn_down | apply parses_upop_int |].
    - unfold int32_range, face_int, int_triangle, int_quadrilateral. destruct (fc_tri f); lia.
    - apply parses_deser_face. rewrite forallb_forall in Hf. apply Hf, Hin. }
  destruct s; cbn [shape3_faces_okb] in Hs; cbn [shape3_int Z.eqb Pos.eqb].
  - apply andb_true_iff in Hs. destruct Hs as [Hn Hk]. apply Nat.eqb_eq in Hn.
    apply parses_take; [exact Hn|]. apply parses_kind; [|apply parses_ret].
    rewrite forallb_forall in *. intros f Hin. rewrite (Hk f Hin). reflexivity.
  - apply Nat.eqb_eq in Hs. apply parses_take; [exact Hs|]. apply parses_ret.
  - apply Nat.eqb_eq in Hs. apply parses_take; [exact Hs|]. apply parses_ret.
  - apply andb_true_iff in Hs. destruct Hs as [Hn Hk]. apply Nat.eqb_eq in Hn.
    apply parses_take; [exact Hn|]. apply parses_kind; [|apply parses_ret].
    rewrite forallb_forall in *. intros f Hin. specialize (Hk f Hin).
    destruct (fc_tri f); [discriminate|reflexivity].
Qed.

Definition penc_body (g : rgeom) : list Z :=
  match g with
  | GSeg e => penc_edge e
  | GFace f => penc_face f
  | GPoly _ id fs => penc_poly id fs
  end.
Definition penc (r : remote) : list Z :=
  enc_int (rm_rank r) ++ enc_int (rm_id r) ++ enc_int (rgeom_int (rm_geom r))
  ++ penc_body (rm_geom r).

Lemma ser_all_straight r : remote_okb r = true -> ser_all r = Ok (penc r).
Proof.
  destruct r as [rank id g]. unfold remote_okb, ser_all, penc; cbn [rm_rank rm_id rm_geom].
  rewrite !andb_true_iff. intros [[_ _] H]. destruct g as [e|f|s gid fs].
  - rewrite ser_edge_straight by exact H. reflexivity.
  - rewrite ser_face_straight by exact H. reflexivity.
  - rewrite !andb_true_iff in H. destruct H as [_ Hf].
    unfold ser_poly. rewrite (ofold_ok _ penc_sface).
    + cbn [obind penc_body]. unfold penc_poly. reflexivity.
    + intros f Hin. rewrite ser_face_straight; [reflexivity|].
      rewrite forallb_forall in Hf. apply Hf, Hin.
Qed.

Lemma rgeom_int_range g : int32_range (rgeom_int g).
Proof.
  unfold int32_range. destruct g as [e|f|s i fs]; cbn [rgeom_int].
  - unfold int_segment; lia.
  - unfold face_int, int_triangle, int_quadrilateral; destruct (fc_tri f); lia.
  - destruct s; cbn; lia.
Qed.

Lemma parses_deserialise mem r : remote_okb r = true ->
  parses anyn (deserialise_reader mem) mem (penc r) r.
Proof.
  destruct r as [rank id g]. unfold remote_okb, penc; cbn [rm_rank rm_id rm_geom].
  rewrite !andb_true_iff, !int32b_ok. intros [[Hr Hi] H].
  unfold deserialise_reader.
  eapply parses_bind; [apply anyn_down | apply parses_upop_int; exact Hr |].
  eapply parses_bind; [apply anyn_down | apply parses_upop_int; exact Hi |].
  eapply parses_bind; [apply anyn_down | apply parses_upop_int, rgeom_int_range |].
  eapply parses_map with (f := mkRemote rank id); [apply anyn_down | | reflexivity].
  destruct g as [e|f|s gid fs]; cbn [rgeom_int penc_body].
  - cbn. eapply parses_map; [apply anyn_down | apply parses_deser_edge; exact H | reflexivity].
  - replace (face_int f =? int_segment) with false
      by (unfold face_int; destruct (fc_tri f); reflexivity).
    replace ((face_int f =? int_triangle) || (face_int f =? int_quadrilateral)) with true
      by (unfold face_int; destruct (fc_tri f); reflexivity).
    eapply parses_map; [apply anyn_down | apply parses_deser_face; exact H | reflexivity].
  - rewrite !andb_true_iff, int32b_ok in H. destruct H as [[Hg Hs] Hf].
    replace (shape3_int s =? int_segment) with false by (destruct s; reflexivity).
    replace ((shape3_int s =? int_triangle) || (shape3_int s =? int_quadrilateral))
      with false by (destruct s; reflexivity).
    apply parses_deser_poly; assumption.
Qed.

(** sizes *)
Lemma osum_ok {A} (f : A -> outcome nat) g l :
  (forall a, In a l -> f a = Ok (length (g a : list Z))) ->
  osum f l = Ok (length (concat (map g l))).
Proof.
  induction l as [|a l IH]; intros H; cbn [osum map concat]; [reflexivity|].
  rewrite (H a) by (left; reflexivity). cbn [obind].
  rewrite IH by (intros x Hx; apply H; right; exact Hx). cbn [obind].
  rewrite app_length. reflexivity.
Qed.
Lemma concat_points_length l : length (concat (map enc_point l)) = (32 * length l)%nat.
Proof.
  induction l as [|p l IH]; cbn [map concat length]; [reflexivity|].
  rewrite app_length, enc_point_length, IH. lia.
Qed.

(** get_num_bytes and serialise agree for EVERY geometry: they fail the same
    assertion or agree on the length. *)
Definition olen (o : outcome (list Z)) : outcome nat :=
  obind o (fun b => Ok (length b)).

Lemma nb_edge_len e : nb_edge e = olen (ser_edge e).
Proof.
  unfold nb_edge, ser_edge, assert_straight. destruct (ed_curve e); [reflexivity|].
  cbn [olen obind]. rewrite !app_length, !enc_int_length, concat_points_length, enc_gspec_length.
  f_equal; try lia.
Qed.
Lemma osum_olen {A} (f : A -> outcome nat) (g : A -> outcome (list Z)) l :
  (forall a, f a = olen (g a)) -> osum f l = olen (ofold g l).
Proof.
  intros H. induction l as [|a l IH]; cbn [osum ofold]; [reflexivity|].
  rewrite H, IH. destruct (g a) as [x| |]; cbn [olen obind]; [|reflexivity|reflexivity].
  destruct (ofold g l) as [y| |]; cbn [olen obind]; [|reflexivity|reflexivity].
  rewrite app_length. reflexivity.
Qed.
Lemma nb_face_len f : nb_face f = olen (ser_face f).
Proof.
  unfold nb_face, ser_face. rewrite (osum_olen nb_edge ser_edge) by apply nb_edge_len.
  destruct (ofold ser_edge (fc_edges f)) as [es| |]; cbn [olen obind]; [|reflexivity|reflexivity].
  unfold assert_straight. destruct (fc_curve f); [reflexivity|].
  cbn [olen obind]. rewrite !app_length, !enc_int_length, enc_gspec_length. f_equal; try lia.
Qed.
Lemma get_num_bytes_len r : get_num_bytes r = olen (ser_all r).
Proof.
  unfold get_num_bytes, ser_all. generalize (rgeom_int (rm_geom r)) as sh. intros sh.
  destruct (rm_geom r) as [e|f|s id fs].
  - rewrite nb_edge_len. unfold olen. destruct (ser_edge e) as [b| |]; cbn [obind];
      [|reflexivity|reflexivity].
    rewrite !app_length, !enc_int_length. reflexivity.
  - rewrite nb_face_len. unfold olen. destruct (ser_face f) as [b| |]; cbn [obind];
      [|reflexivity|reflexivity].
    rewrite !app_length, !enc_int_length. reflexivity.
  - unfold nb_poly, ser_poly.
    rewrite (osum_olen _ (fun f => obind (ser_face f) (fun b => Ok (enc_int (face_int f) ++ b)))).
    2:{ intros f. rewrite nb_face_len. unfold olen.
        destruct (ser_face f) as [b| |]; cbn [obind]; [|reflexivity|reflexivity].
        rewrite app_length, enc_int_length. reflexivity. }
    unfold olen. destruct (ofold _ fs) as [b| |]; cbn [obind]; [|reflexivity|reflexivity].
    rewrite !app_length, !enc_int_length. reflexivity.
Qed.

Lemma ser_not_ub_edge e : ser_edge e <> UB.
Proof. unfold ser_edge, assert_straight. destruct (ed_curve e); discriminate. Qed.
Lemma ofold_not_ub {A} (g : A -> outcome (list Z)) l :
  (forall a, g a <> UB) -> ofold g l <> UB.
Proof.
  intros H; induction l as [|a l IH]; cbn [ofold]; [discriminate|].
  specialize (H a). destruct (g a); cbn [obind]; try congruence.
  destruct (ofold g l); cbn [obind]; congruence.
Qed.
Lemma ser_not_ub_face f : ser_face f <> UB.
Proof.
  unfold ser_face. pose proof (ofold_not_ub ser_edge (fc_edges f) ser_not_ub_edge).
  destruct (ofold ser_edge _); cbn [obind]; try congruence.
  unfold assert_straight; destruct (fc_curve f); discriminate.
Qed.
Lemma ser_all_not_ub r : ser_all r <> UB.
Proof.
  unfold ser_all. destruct (rm_geom r) as [e|f|s id fs].
  - pose proof (ser_not_ub_edge e). destruct (ser_edge e); cbn [obind]; congruence.
  - pose proof (ser_not_ub_face f). destruct (ser_face f); cbn [obind]; congruence.
  - unfold ser_poly. pose proof (ofold_not_ub (fun f => obind (ser_face f)
        (fun b => Ok (enc_int (face_int f) ++ b))) fs) as H.
    destruct (ofold _ fs); cbn [obind]; try congruence.
    exfalso. apply H; [|reflexivity]. intros f. pose proof (ser_not_ub_face f).
    destruct (ser_face f); cbn [obind]; congruence.
Qed.

Lemma serialise_with_advertised_size r n :
  get_num_bytes r = Ok n ->
  exists bs, serialise r n = Ok bs /\ length bs = n.
Proof.
  rewrite get_num_bytes_len. unfold olen, serialise. intros H.
  destruct (ser_all r) as [b| |]; cbn [obind] in *; try discriminate.
  injection H as <-. exists b. rewrite Nat.ltb_irrefl, Nat.eqb_refl. auto.
Qed.

Lemma remote_round_trip r tail :
  remote_okb r = true ->
  exists n bs, get_num_bytes r = Ok n /\ serialise r n = Ok bs /\ length bs = n /\
    deserialise (bs ++ tail) n = Ok r.
Proof.
  intros H. exists (length (penc r)), (penc r).
  rewrite get_num_bytes_len. unfold olen, serialise.
  rewrite (ser_all_straight r H). cbn [obind].
  rewrite Nat.ltb_irrefl, Nat.eqb_refl.
  split; [reflexivity|split; [reflexivity|split; [reflexivity|]]].
  unfold deserialise.
  pose proof (parses_deserialise (penc r ++ tail) r H [] tail eq_refl I) as HP.
  cbn [length Nat.add] in HP. rewrite HP. cbn [obind fst snd].
  rewrite Nat.eqb_refl. reflexivity.
Qed.

Lemma ofold_assert {A} (g : A -> outcome (list Z)) l :
  (forall a, g a <> UB) -> (exists a, In a l /\ g a = AssertFail) -> ofold g l = AssertFail.
Proof.
  intros HU. induction l as [|a l IH]; intros [x [Hin Hx]]; [destruct Hin|].
  cbn [ofold]. pose proof (HU a) as Ha. destruct (g a) eqn:E; cbn [obind]; try congruence.
  rewrite IH; [reflexivity|]. destruct Hin as [->|Hin]; [congruence|]. exists x; auto.
Qed.
Lemma curved_face_rejected f : face_curved f -> ser_face f = AssertFail.
Proof.
  intros H. unfold ser_face.
  destruct (ofold ser_edge (fc_edges f)) eqn:E; cbn [obind]; try reflexivity.
  - destruct H as [H|[e [Hin He]]].
    + unfold assert_straight. destruct (fc_curve f); [reflexivity|congruence].
    + rewrite ofold_assert in E; [discriminate|apply ser_not_ub_edge|].
      exists e; split; [exact Hin|]. unfold ser_edge, assert_straight, edge_curved in *.
      destruct (ed_curve e); [reflexivity|congruence].
  - exfalso. eapply (ofold_not_ub ser_edge); [apply ser_not_ub_edge|exact E].
Qed.
Lemma curved_rejected r n : geom_curved (rm_geom r) ->
  get_num_bytes r = AssertFail /\ serialise r n = AssertFail.
Proof.
  intros H. assert (HS : ser_all r = AssertFail).
  { unfold ser_all. destruct (rm_geom r) as [e|f|s id fs]; cbn [geom_curved] in H.
    - unfold ser_edge, assert_straight, edge_curved in *. destruct (ed_curve e); [reflexivity|congruence].
    - rewrite curved_face_rejected by exact H. reflexivity.
    - unfold ser_poly. rewrite ofold_assert; [reflexivity| |].
      + intros f. pose proof (ser_not_ub_face f). destruct (ser_face f); cbn [obind]; congruence.
      + destruct H as [f [Hin Hf]]. exists f; split; [exact Hin|].
        rewrite curved_face_rejected by exact Hf. reflexivity. }
  rewrite get_num_bytes_len. unfold serialise. rewrite HS. split; reflexivity.
Qed.

(** witnesses *)
Definition wit_face (tri : bool) (i : Z) : face :=
  mkFace tri i (map (fun k => wit_edge (i + k)) (if tri then [0;1;2] else [0;1;2;3])) None.
Definition wit_prism : remote :=
  mkRemote 2 41 (GPoly Prism 41 [wit_face false 1; wit_face true 2; wit_face false 3; wit_face true 4; wit_face false 5]).
Definition wit_hex : remote :=
  mkRemote 2 42 (GPoly Hex 42 (map (wit_face false) [1;2;3;4;5;6])).
Definition wit_curved : remote :=
  mkRemote 0 1 (GFace (mkFace true 1 [wit_edge 0; wit_curved_edge 1; wit_edge 2] None)).

(** deserialise has no bounds checks: a truncated buffer is read past its end. *)
Lemma deserialise_truncated_ub :
  exists mem : list Z, deserialise mem (length mem) = UB.
Proof. exists (enc_int 1 ++ enc_int 2). vm_compute. reflexivity. Qed.
