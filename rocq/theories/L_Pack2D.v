(** Proofs about the 2D geometry message format. *)
From Verif Require Import M_Bytes L_Bytes M_Pack2D.

Lemma int32b_ok z : int32b z = true <-> int32_range z.
Proof. unfold int32b, int32_range. rewrite andb_true_iff, Z.leb_le, Z.ltb_lt. reflexivity. Qed.
Lemma bits64b_ok z : bits64b z = true <-> bits64_range z.
Proof. unfold bits64b, bits64_range. rewrite andb_true_iff, Z.leb_le, Z.ltb_lt. reflexivity. Qed.
Lemma point_okb_ok p : point_okb p = true -> point_ok p.
Proof.
  unfold point_okb, point_ok. rewrite !andb_true_iff, !int32b_ok, !bits64b_ok. tauto.
Qed.

Definition within (len : Z) (n : nat) : Prop := Z.of_nat n <= len \/ len = -1.

Lemma within_down len : down_closed (within len).
Proof. intros a b Hab [H|H]; [left; lia | right; exact H]. Qed.

Lemma parses_pop mem len bs : parses (within len) (pop mem len (length bs)) mem bs bs.
Proof.
  intros pre post E L. unfold pop.
  replace ((Z.of_nat (length pre + length bs) <=? len) || (len =? -1)) with true.
  - eapply mem_read_at. exact E.
  - symmetry. apply orb_true_iff. destruct L as [L|L]; [left|right].
    + apply Z.leb_le; exact L.
    + apply Z.eqb_eq; exact L.
Qed.

Lemma parses_map {A B} lim mem (r : reader A) (f : A -> B) bs a b :
  down_closed lim -> parses lim r mem bs a -> f a = b ->
  parses lim (rbind r (fun x => rret (f x))) mem bs b.
Proof.
  intros Hd H <-. rewrite <- (app_nil_r bs).
  eapply parses_bind; [exact Hd|exact H|apply parses_ret].
Qed.

Lemma parses_pop_int mem len z : int32_range z ->
  parses (within len) (pop_int mem len) mem (enc_int z) z.
Proof.
  intros H. unfold pop_int. eapply parses_map.
  - apply within_down.
  - rewrite <- (enc_int_length z) at 1. apply parses_pop.
  - apply dec_enc_int; exact H.
Qed.
Lemma parses_pop_gspec mem len g : gspec_ok g ->
  parses (within len) (pop_gspec mem len) mem (enc_gspec g) g.
Proof.
  intros H. unfold pop_gspec. eapply parses_map.
  - apply within_down.
  - rewrite <- (enc_gspec_length g) at 1. apply parses_pop.
  - apply dec_enc_gspec; exact H.
Qed.
Lemma parses_pop_point mem len p : point_ok p ->
  parses (within len) (pop_point mem len) mem (enc_point p) p.
Proof.
  intros H. unfold pop_point. eapply parses_map.
  - apply within_down.
  - rewrite <- (enc_point_length p) at 1. apply parses_pop.
  - apply dec_enc_point; exact H.
Qed.

Lemma parses_points mem len l : forallb point_okb l = true ->
  parses (within len) (rrep (length l) (pop_point mem len)) mem (concat (map enc_point l)) l.
Proof.
  intros H. apply parses_rrep; [apply within_down|].
  intros p Hp. apply parses_pop_point, point_okb_ok.
  rewrite forallb_forall in H. apply H, Hp.
Qed.

Lemma parses_unpack_curve mem len c : curve_okb c = true ->
  parses (within len) (unpack_curve mem len) mem (pack_curve c) c.
Proof.
  intros H. unfold unpack_curve.
  destruct c as [cv|]; cbn [pack_curve].
  - cbn [curve_okb] in H. rewrite !andb_true_iff, !int32b_ok in H.
    destruct H as [[[Hi Ht] Hn] Hp].
    eapply parses_bind; [apply within_down | apply parses_pop_gspec |].
    + split; [exact Hi | split; [exact Ht | exact Hn]].
    + cbn [gs_n gs_a gs_b].
      destruct (Z.ltb_spec (Z.of_nat (length (cv_points cv))) 0) as [?|_]; [lia|].
      rewrite Nat2Z.id.
      eapply parses_map; [apply within_down | apply parses_points; exact Hp |].
      destruct cv; reflexivity.
  - rewrite <- (app_nil_r (enc_gspec _)).
    eapply parses_bind; [apply within_down | apply parses_pop_gspec |].
    + unfold gspec_ok, int32_range; cbn; lia.
    + cbn [gs_n]. apply parses_ret.
Qed.

Lemma parses_unpack_edge mem len e : edge_okb e = true ->
  parses (within len) (unpack_edge mem len) mem (pack_edge e) e.
Proof.
  intros H. unfold edge_okb in H. rewrite !andb_true_iff, !int32b_ok, Nat.eqb_eq in H.
  destruct H as [[[[Hi Hc] Hn] Hp] Hcv].
  unfold unpack_edge, pack_edge.
  eapply parses_bind; [apply within_down | apply parses_pop_gspec |].
  - split; [exact Hi | split; [exact Hc |]]. cbn [gs_n]. rewrite Hn. unfold int32_range; lia.
  - cbn [gs_n gs_a gs_b]. apply parses_assert; [rewrite Hn; reflexivity|].
    rewrite Nat2Z.id.
    eapply parses_bind; [apply within_down | apply parses_points; exact Hp |].
    eapply parses_map; [apply within_down | apply parses_unpack_curve; exact Hcv |].
    destruct e as [i c v cv]; cbn [ed_id ed_coordim ed_verts ed_curve] in *.
    rewrite firstn_all2 by lia. reflexivity.
Qed.

Lemma parses_unpack_geom2d mem len r : remote2d_okb r = true ->
  parses (within len) (unpack_geom2d mem len) mem
    (pack_geom2d (r2_rank r) (r2_id r) (r2_geom r)) r.
Proof.
  destruct r as [rank lid [shape id edges cv]].
  unfold remote2d_okb, geom2d_okb; cbn [r2_rank r2_id r2_geom g2_shape g2_id g2_edges g2_curve].
  rewrite !andb_true_iff, !int32b_ok, orb_true_iff, !Nat.eqb_eq, Z.leb_le.
  intros [[[Hr Hr0] Hl] [[[[Hs Hid] Hn] He] Hc]].
  unfold unpack_geom2d, pack_geom2d; cbn [g2_shape g2_id g2_edges g2_curve].
  eapply parses_bind; [apply within_down | apply parses_pop_int; exact Hs |].
  eapply parses_bind; [apply within_down | apply parses_pop_int; exact Hr |].
  eapply parses_bind; [apply within_down | apply parses_pop_int; exact Hl |].
  eapply parses_bind; [apply within_down | apply parses_pop_int; exact Hid |].
  eapply parses_bind; [apply within_down | apply parses_pop_int |].
  { unfold int32_range. destruct Hn as [-> | ->]; lia. }
  apply parses_assert; [apply Z.leb_le; exact Hr0|].
  apply parses_assert.
  { destruct Hn as [-> | ->]; reflexivity. }
  rewrite Nat2Z.id.
  eapply parses_bind; [apply within_down | |].
  { apply parses_rrep; [apply within_down|]. intros e Hin. apply parses_unpack_edge.
    rewrite forallb_forall in He. apply He, Hin. }
  eapply parses_map; [apply within_down | apply parses_unpack_curve; exact Hc | reflexivity].
Qed.

Lemma pack_unpack_2d r tail len :
  remote2d_okb r = true ->
  let bytes := pack_geom2d (r2_rank r) (r2_id r) (r2_geom r) in
  Z.of_nat (length bytes) <= len \/ len = -1 ->
  unpack_geom2d (bytes ++ tail) len O = Ok (r, length bytes).
Proof.
  intros H bytes L.
  apply (parses_unpack_geom2d (bytes ++ tail) len r H [] tail eq_refl). exact L.
Qed.

(** ** Collections *)
Lemma unpack_loop_pack l : forall pre tail len off,
  Forall (fun r => remote2d_okb r = true) l ->
  length pre = (4 + off)%nat ->
  Z.of_nat (length (concat (map (fun r => pack_geom2d (r2_rank r) (r2_id r) (r2_geom r)) l))) <= len ->
  unpack_loop
    (pre ++ concat (map (fun r => pack_geom2d (r2_rank r) (r2_id r) (r2_geom r)) l) ++ tail)
    len (length l) off
  = Ok (l, (off + length (concat (map (fun r => pack_geom2d (r2_rank r) (r2_id r) (r2_geom r)) l)))%nat).
Proof.
  induction l as [|r l IH]; intros pre tail len off HF Hpre Hlen.
  - cbn. rewrite Nat.add_0_r. reflexivity.
  - inversion HF as [|? ? Hr HF']; subst.
    set (f := fun r => pack_geom2d (r2_rank r) (r2_id r) (r2_geom r)) in *.
    cbn [map concat length unpack_loop] in *.
    rewrite app_length in *.
    replace (skipn (4 + off) (pre ++ (f r ++ concat (map f l)) ++ tail))
      with (f r ++ (concat (map f l) ++ tail)).
    2:{ rewrite <- Hpre, skipn_app, skipn_all, Nat.sub_diag. cbn [skipn app].
        rewrite app_assoc. reflexivity. }
    unfold f at 1.
    rewrite pack_unpack_2d; [|exact Hr|].
    2:{ left. fold (f r). lia. }
    cbn [obind fst snd]. fold (f r).
    specialize (IH (pre ++ f r) tail len (off + length (f r))%nat HF').
    rewrite app_length in IH.
    replace (pre ++ (f r ++ concat (map f l)) ++ tail)
      with ((pre ++ f r) ++ concat (map f l) ++ tail) by (rewrite !app_assoc; reflexivity).
    rewrite IH by lia. cbn [obind fst snd]. f_equal. f_equal. lia.
Qed.

Lemma pack_geom2d_length_pos rank lid g : (1 <= length (pack_geom2d rank lid g))%nat.
Proof. unfold pack_geom2d. rewrite !app_length, enc_int_length. lia. Qed.

Lemma concat_length_ge l :
  (length l <= length (concat (map (fun r => pack_geom2d (r2_rank r) (r2_id r) (r2_geom r)) l)))%nat.
Proof.
  induction l as [|r l IH]; cbn [map concat length]; [lia|].
  rewrite app_length. pose proof (pack_geom2d_length_pos (r2_rank r) (r2_id r) (r2_geom r)). lia.
Qed.

Lemma pack_unpack_geoms2d l tail len :
  Forall (fun r => remote2d_okb r = true) l ->
  Z.of_nat (length l) < 2 ^ 31 ->
  Z.of_nat (length (pack_geoms2d l)) <= len < 2 ^ 31 ->
  unpack_geoms2d (pack_geoms2d l ++ tail) len = Ok (l, (length (pack_geoms2d l) - 4)%nat).
Proof.
  intros HF Hn Hlen. unfold unpack_geoms2d, get_packed_count.
  pose proof (concat_length_ge l) as Hge.
  unfold pack_geoms2d in *. rewrite app_length, enc_int_length in *.
  set (body := concat (map (fun r => pack_geom2d (r2_rank r) (r2_id r) (r2_geom r)) l)) in *.
  rewrite Z.mod_small by lia.
  destruct (Z.geb_spec len 4) as [_|?]; [|lia].
  rewrite <- app_assoc.
  pose proof (mem_read_at (enc_int (Z.of_nat (length l)) ++ body ++ tail) []
                (enc_int (Z.of_nat (length l))) (body ++ tail) eq_refl) as HR.
  rewrite enc_int_length in HR. cbn [length Nat.add] in HR. rewrite HR.
  cbn [obind fst]. rewrite dec_enc_int by (unfold int32_range; lia).
  destruct (Z.leb_spec 0 (Z.of_nat (length l))); [|lia].
  destruct (Z.leb_spec (Z.of_nat (length l)) len); [|lia].
  cbn [andb obind]. rewrite Nat2Z.id.
  unfold body at 1. rewrite unpack_loop_pack; fold body.
  - cbn [obind snd]. rewrite Nat.add_0_l.
    destruct (Z.leb_spec (Z.of_nat (length body)) len); [|lia].
    f_equal. f_equal. lia.
  - exact HF.
  - apply enc_int_length.
  - lia.
Qed.

(** ** Reads stay inside the buffer (single geometry, truthful length) *)
Lemma no_ub_pop mem n : no_ub (pop mem (Z.of_nat (length mem)) n).
Proof.
  intros off. unfold pop.
  destruct (Z.of_nat (length mem) =? -1) eqn:E; [apply Z.eqb_eq in E; lia|].
  rewrite orb_false_r.
  destruct (Z.leb_spec (Z.of_nat (off + n)) (Z.of_nat (length mem))) as [H|H]; [|discriminate].
  unfold mem_read. destruct (Nat.leb_spec (off + n) (length mem)); [discriminate|lia].
Qed.

Ltac noub :=
  repeat first
    [ apply no_ub_ret | apply no_ub_assert | apply no_ub_pop
    | apply no_ub_rrep
    | apply no_ub_bind; [|intros ?]
    | match goal with |- no_ub (if ?c then _ else _) => destruct c end
    | progress unfold unpack_geom2d, unpack_edge, unpack_curve, pop_int, pop_gspec, pop_point ].

Lemma unpack_geom2d_no_ub mem off :
  unpack_geom2d mem (Z.of_nat (length mem)) off <> UB.
Proof. revert off. change (no_ub (unpack_geom2d mem (Z.of_nat (length mem)))). noub. Qed.

(** A well-formed two-dimensional triangle used as witness. *)
Definition wit_point (vid : Z) : point := mkPoint 2 vid 4607182418800017408 0 0.
Definition wit_edge (i : Z) : edge :=
  mkEdge i 2 [wit_point i; wit_point (i + 1)] None.
Definition wit_curved_edge (i : Z) : edge :=
  mkEdge i 2 [wit_point i; wit_point (i + 1)]
    (Some (mkCurve 5 11 [wit_point i; wit_point 77; wit_point (i + 1)])).
Definition wit_tri : remote2d :=
  mkRemote2D 3 17 (mkGeom2D 3 17 [wit_edge 0; wit_curved_edge 1; wit_edge 2] None).
Definition wit_quad : remote2d :=
  mkRemote2D 0 (-5) (mkGeom2D 4 12 [wit_edge 0; wit_edge 1; wit_edge 2; wit_curved_edge 3]
     (Some (mkCurve 9 2 [wit_point 1]))).

Lemma unpack_geoms2d_overread :
  exists mem : list Z, unpack_geoms2d mem (Z.of_nat (length mem)) = UB.
Proof.
  exists (removelast (pack_geoms2d [wit_tri])). vm_compute. reflexivity.
Qed.
