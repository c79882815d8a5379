(** Proofs about the geometry exchanges. *)
From Coq Require Import Permutation Sorted.
From Verif Require Import M_Bytes L_Bytes M_Pack2D L_Pack2D M_RemoteGeom M_Transport S_Transport.

(** * Ring *)
Lemma pos_mod_eq i n : 0 < n -> pos_mod i n = i mod n.
Proof.
  intros Hn. unfold pos_mod.
  assert (H : - n < Z.rem i n < n).
  { pose proof (Z.rem_bound_abs i n ltac:(lia)). lia. }
  rewrite Z.rem_mod_nonneg by lia.
  destruct (Z_le_gt_dec 0 i) as [Hi|Hi].
  - rewrite Z.rem_mod_nonneg by lia.
    rewrite Z.add_mod_idemp_l by lia.
    replace (i + n) with (i + 1 * n) by lia. apply Z.mod_add; lia.
  - pose proof (Z.quot_rem' i n) as Q.
    replace (Z.rem i n + n) with (i + (1 - Z.quot i n) * n) by lia.
    apply Z.mod_add; lia.
Qed.

Lemma in_ranks size r : In r (ranks size) <-> 0 <= r < size.
Proof.
  unfold ranks. rewrite in_map_iff. split.
  - intros (k & <- & Hk). apply in_seq in Hk. lia.
  - intros H. exists (Z.to_nat r). split; [lia|]. apply in_seq. lia.
Qed.
Lemma nodup_ranks size : NoDup (ranks size).
Proof.
  unfold ranks. apply FinFun.Injective_map_NoDup; [|apply seq_NoDup].
  intros a b H. lia.
Qed.

Lemma nodup_map_inj_in {A B} (f : A -> B) l :
  (forall a b, In a l -> In b l -> f a = f b -> a = b) -> NoDup l -> NoDup (map f l).
Proof.
  induction l as [|x l IH]; intros Hf HN; cbn [map]; [constructor|].
  inversion HN as [|? ? Hx HN']; subst. constructor.
  - intros Hin. apply in_map_iff in Hin. destruct Hin as [y [E Hy]].
    apply Hf in E; [subst; tauto|right; exact Hy|left; reflexivity].
  - apply IH; [|exact HN']. intros a b Ha Hb. apply Hf; right; assumption.
Qed.

Lemma filter_unique {A} (p : A -> bool) (l : list A) a :
  NoDup l -> In a l -> (forall x, In x l -> p x = true <-> x = a) -> filter p l = [a].
Proof.
  induction l as [|x l IH]; intros HN HI HP; [destruct HI|].
  inversion HN as [|? ? Hx HN']; subst. cbn [filter].
  destruct (p x) eqn:E.
  - apply HP in E; [|left; reflexivity]. subst x. f_equal.
    clear IH HI HN HN'.
    assert (H : forall y, In y l -> p y = false).
    { intros y Hy. destruct (p y) eqn:E; [|reflexivity].
      apply HP in E; [|right; exact Hy]. congruence. }
    clear HP Hx. induction l as [|y l IH]; [reflexivity|]. cbn [filter].
    rewrite (H y) by (left; reflexivity). apply IH. intros z Hz; apply H; right; exact Hz.
  - destruct HI as [->|HI].
    + exfalso. assert (p a = true) by (apply HP; [left|]; reflexivity). congruence.
    + apply IH; [exact HN'|exact HI|]. intros y Hy. apply HP. right; exact Hy.
Qed.

Lemma mod_shift_back size s r : 0 < size -> 0 <= s < size -> 0 <= r < size ->
  ((s + 1) mod size = r <-> s = (r - 1) mod size).
Proof.
  intros Hs H1 H2. split; intros H.
  - subst r. rewrite Zminus_mod_idemp_l. replace (s + 1 - 1) with s by lia.
    rewrite Z.mod_small; lia.
  - subst s. rewrite Z.add_mod_idemp_l by lia. replace (r - 1 + 1) with r by lia.
    apply Z.mod_small; lia.
Qed.

Lemma recv_msg_eq size send r : 0 <= r < size ->
  recv_msg size send r = send ((r - 1) mod size).
Proof.
  intros Hr. unfold recv_msg, rank_recv, rank_send.
  rewrite (filter_unique _ _ ((r - 1) mod size)); [reflexivity|apply nodup_ranks| |].
  - apply in_ranks. apply Z.mod_pos_bound; lia.
  - intros s Hs. apply in_ranks in Hs.
    rewrite !andb_true_iff, !Z.eqb_eq, !pos_mod_eq by lia.
    rewrite mod_shift_back by lia. tauto.
Qed.

Lemma fold_max_ge l x : In x l -> x <= fold_right Z.max 0 l.
Proof.
  induction l as [|y l IH]; intros H; [destruct H|]. cbn [fold_right].
  destruct H as [->|H]; [lia|]. specialize (IH H). lia.
Qed.

Section RingProof.
  Variable size : Z.
  Variable gm : Z -> list (Z * geom2d).
  Hypothesis Hok : forall r, 0 <= r < size ->
    Forall (fun x => remote2d_okb x = true) (local_remotes gm r).
  Hypothesis Hmax : max_buf_size gm size < 2 ^ 31.

  Lemma msg_len r : 0 <= r < size ->
    Z.of_nat (length (local_message gm r)) <= max_buf_size gm size.
  Proof.
    intros Hr. unfold max_buf_size. apply fold_max_ge.
    apply in_map_iff. exists r. split; [reflexivity|]. apply in_ranks; exact Hr.
  Qed.

  Lemma unpack_padded r : 0 <= r < size ->
    exists k, unpack_geoms2d (padded_message gm size r) (max_buf_size gm size)
              = Ok (local_remotes gm r, k).
  Proof.
    intros Hr. pose proof (msg_len r Hr) as Hl.
    unfold padded_message, local_message in *.
    eexists. apply pack_unpack_geoms2d.
    - apply Hok; exact Hr.
    - pose proof (concat_length_ge (local_remotes gm r)).
      unfold pack_geoms2d in Hl. rewrite app_length in Hl. lia.
    - lia.
  Qed.

  Lemma padded_length r : 0 <= r < size ->
    Z.of_nat (length (padded_message gm size r)) = max_buf_size gm size.
  Proof.
    intros Hr. pose proof (msg_len r Hr). unfold padded_message. rewrite app_length, repeat_length. lia.
  Qed.

  Definition collected (n : nat) (r : Z) : list remote2d :=
    concat (map (fun k => local_remotes gm ((r - 1 - Z.of_nat k) mod size)) (seq 0 n)).

  Lemma collected_S n r : collected (S n) r =
    collected n r ++ local_remotes gm ((r - 1 - Z.of_nat n) mod size).
  Proof.
    unfold collected. rewrite seq_S, map_app, concat_app. cbn [map concat Nat.add].
    rewrite app_nil_r. reflexivity.
  Qed.

  Lemma ring_invariant n : forall r, 0 <= r < size ->
    ring_steps n size (max_buf_size gm size)
      (fun q => Some (padded_message gm size q, Ok [])) r
    = Some (padded_message gm size ((r - Z.of_nat n) mod size), Ok (collected n r)).
  Proof.
    induction n as [|n IH]; intros r Hr; cbn [ring_steps].
    - rewrite Z.sub_0_r, Z.mod_small by lia. reflexivity.
    - unfold ring_step. rewrite (IH r Hr).
      rewrite recv_msg_eq by exact Hr.
      assert (Hp : 0 <= (r - 1) mod size < size) by (apply Z.mod_pos_bound; lia).
      rewrite (IH _ Hp). cbn [option_map fst].
      rewrite Zminus_mod_idemp_l.
      replace (r - 1 - Z.of_nat n) with (r - Z.of_nat (S n)) by lia.
      rewrite padded_length by (apply Z.mod_pos_bound; lia). rewrite Z.eqb_refl.
      f_equal. f_equal. cbn [obind].
      destruct (unpack_padded ((r - Z.of_nat (S n)) mod size)) as [k Hk];
        [apply Z.mod_pos_bound; lia|].
      rewrite Hk. cbn [obind fst]. rewrite collected_S.
      do 2 f_equal. f_equal. f_equal. lia.
  Qed.

  Lemma collected_perm r : 0 <= r < size ->
    Permutation (collected (Z.to_nat (size - 1)) r)
      (concat (map (local_remotes gm) (filter (fun q => negb (q =? r)) (ranks size)))).
  Proof.
    intros Hr. unfold collected.
    rewrite <- (map_map (fun k => (r - 1 - Z.of_nat k) mod size) (local_remotes gm)).
    assert (HP : forall (l1 l2 : list Z), Permutation l1 l2 ->
       Permutation (concat (map (local_remotes gm) l1)) (concat (map (local_remotes gm) l2))).
    { intros l1 l2 H. rewrite <- !flat_map_concat_map. apply Permutation_flat_map. exact H. }
    apply HP. apply NoDup_Permutation.
    - (* distinct *)
      apply nodup_map_inj_in; [|apply seq_NoDup].
      intros a b Ha Hb E. apply in_seq in Ha, Hb.
      set (u := r - 1 - Z.of_nat a) in *. set (v := r - 1 - Z.of_nat b) in *.
      assert (D : (u - v) mod size = 0).
      { rewrite Zminus_mod, E, Z.sub_diag. apply Z.mod_0_l. lia. }
      apply Z.mod_divide in D; [|lia]. destruct D as [q Hq].
      assert (q = 0) by nia. subst q u v. lia.
    - apply NoDup_filter, nodup_ranks.
    - intros x. rewrite in_map_iff, filter_In, in_ranks, negb_true_iff, Z.eqb_neq. split.
      + intros (k & <- & Hk). apply in_seq in Hk. split; [apply Z.mod_pos_bound; lia|].
        intros E.
        assert (D : (r - 1 - Z.of_nat k - r) mod size = 0).
        { rewrite Zminus_mod, E, (Z.mod_small r) by lia. rewrite Z.sub_diag. apply Z.mod_0_l. lia. }
        apply Z.mod_divide in D; [|lia]. destruct D as [q Hq]. assert (Hk2 : 0 <= Z.of_nat k < size - 1) by lia. clear Hk E. assert (q < 0 \/ q >= 0) as [?|?] by lia; nia.
      + intros [Hx Hne].
        exists (Z.to_nat ((r - 1 - x) mod size)). split.
        * rewrite Z2Nat.id by (apply Z.mod_pos_bound; lia).
          rewrite Zminus_mod_idemp_r. replace (r - 1 - (r - 1 - x)) with x by lia.
          apply Z.mod_small; lia.
        * apply in_seq. pose proof (Z.mod_pos_bound (r - 1 - x) size ltac:(lia)).
          assert ((r - 1 - x) mod size <> size - 1).
          { intros E. apply Hne.
            assert (D : (r - 1 - x - (size - 1)) mod size = 0).
            { rewrite Zminus_mod, E, (Z.mod_small (size - 1)) by lia.
              rewrite Z.sub_diag. apply Z.mod_0_l. lia. }
            apply Z.mod_divide in D; [|lia]. destruct D as [q Hq]. assert (q = -1) by nia. subst q. lia. }
          lia.
  Qed.

  Lemma ring_gather r : 0 <= r < size ->
    exists l, get_all_remote_geoms_2d size gm r = Some (Ok l) /\
      Permutation l (concat (map (local_remotes gm) (filter (fun q => negb (q =? r)) (ranks size)))).
  Proof.
    intros Hr. exists (collected (Z.to_nat (size - 1)) r). split.
    - unfold get_all_remote_geoms_2d. rewrite ring_invariant by exact Hr. reflexivity.
    - apply collected_perm; exact Hr.
  Qed.
End RingProof.

(** * Streams *)
Lemma read_faces_enc fm need faces rest :
  (forall f, In f faces -> fm (f2_id f) = Some f) ->
  (match need with Some b => forallb (fun f => Bool.eqb (f2_tri f) b) faces = true | None => True end) ->
  read_faces fm need (length faces) (map f2_id faces ++ rest) = Ok (faces, rest).
Proof.
  induction faces as [|f faces IH]; intros HF HN; [reflexivity|].
  cbn [length read_faces map app next_int obind fst snd].
  rewrite (HF f) by (left; reflexivity). rewrite Z.eqb_refl. cbn [negb].
  assert (Hk : match need with Some b => negb (Bool.eqb (f2_tri f) b) | None => false end = false).
  { destruct need as [b|]; [|reflexivity]. cbn [forallb] in HN.
    apply andb_true_iff in HN. destruct HN as [-> _]. reflexivity. }
  rewrite Hk, IH.
  - reflexivity.
  - intros g Hg. apply HF. right; exact Hg.
  - destruct need as [b|]; [|exact I]. cbn [forallb] in HN. apply andb_true_iff in HN. tauto.
Qed.

Lemma reconstruct_geom_enc fm e rest :
  elem3_okb e = true ->
  (forall f, In f (e3_faces e) -> fm (e3_rank e) (f2_id f) = Some f) ->
  reconstruct_geom fm (dec_elem e ++ rest) = Ok (e, rest).
Proof.
  destruct e as [rank id s faces]. unfold elem3_okb, dec_elem;
    cbn [e3_rank e3_id e3_shape e3_faces]. intros H HF.
  apply andb_true_iff in H. destruct H as [Hn Hk]. apply Nat.eqb_eq in Hn.
  unfold reconstruct_geom, deconstruct_base. cbn [app next_int obind fst snd].
  destruct s; cbn [nfaces need_of shape3_int Z.eqb Pos.eqb] in *;
    rewrite <- Hn; rewrite read_faces_enc; try assumption; try exact I; reflexivity.
Qed.

Lemma reconstruct_loop_enc fm l fuel :
  Forall (fun e => elem3_okb e = true) l ->
  (forall e f, In e l -> In f (e3_faces e) -> fm (e3_rank e) (f2_id f) = Some f) ->
  (length l <= fuel)%nat ->
  reconstruct_loop fuel fm (concat (map dec_elem l)) = Ok l.
Proof.
  revert fuel. induction l as [|e l IH]; intros fuel HF HM Hfuel.
  - destruct fuel; reflexivity.
  - inversion HF as [|? ? He HF']; subst. cbn [map concat length] in *.
    destruct fuel as [|fuel]; [lia|].
    assert (HR := reconstruct_geom_enc fm e (concat (map dec_elem l)) He
                    (fun f Hf => HM e f (or_introl eq_refl) Hf)).
    remember (dec_elem e ++ concat (map dec_elem l)) as s eqn:Es.
    destruct s as [|z s]; [unfold dec_elem, deconstruct_base in Es; discriminate|].
    cbn [reconstruct_loop]. rewrite HR. cbn [obind fst snd].
    rewrite IH; [reflexivity|exact HF'| |lia].
    intros e' f H1 H2. apply HM; [right|]; assumption.
Qed.

Lemma dec_len l : (length l <= length (concat (map dec_elem l)))%nat.
Proof.
  induction l as [|e l IH]; cbn [map concat length]; [lia|].
  rewrite app_length. assert (1 <= length (dec_elem e))%nat by (unfold dec_elem, deconstruct_base; cbn [length]; lia). lia.
Qed.

Lemma reconstruct_complete fm l :
  Forall (fun e => elem3_okb e = true) l ->
  (forall e f, In e l -> In f (e3_faces e) -> fm (e3_rank e) (f2_id f) = Some f) ->
  reconstruct_geoms_3d fm
    (concat (map (fun e => deconstruct_base (e3_rank e) (e3_id e) (e3_shape e) (e3_faces e)) l)) = Ok l.
Proof.
  intros HF HM. unfold reconstruct_geoms_3d.
  apply (reconstruct_loop_enc fm l); [exact HF|exact HM|apply dec_len].
Qed.

Lemma read_faces_sound fm need n : forall l faces rest,
  read_faces fm need n l = Ok (faces, rest) ->
  l = map f2_id faces ++ rest /\ length faces = n /\
  (forall f, In f faces -> fm (f2_id f) = Some f) /\
  (match need with Some b => forallb (fun f => Bool.eqb (f2_tri f) b) faces = true | None => True end).
Proof.
  induction n as [|n IH]; intros l faces rest H; cbn [read_faces] in H.
  - injection H as <- <-. repeat split; [intros f []|]. destruct need; [reflexivity|exact I].
  - destruct l as [|z l]; cbn [next_int obind fst snd] in H; [discriminate|].
    destruct (fm z) as [f|] eqn:Ef; [|discriminate].
    destruct (Z.eqb_spec (f2_id f) z) as [Ez|]; cbn [negb] in H; [|discriminate].
    match type of H with (if ?c then _ else _) = _ => destruct c eqn:Ec end; [discriminate|].
    destruct (read_faces fm need n l) as [[fs r]| |] eqn:Er; cbn [obind fst snd] in H; try discriminate.
    injection H as <- <-. destruct (IH _ _ _ Er) as (E1 & E2 & E3 & E4).
    repeat split.
    + cbn [map app]. rewrite Ez, E1. reflexivity.
    + cbn [length]. lia.
    + intros g [<-|Hg]; [rewrite Ez; exact Ef | apply E3, Hg].
    + destruct need as [b|]; [|exact I]. cbn [forallb].
      apply negb_false_iff in Ec. rewrite Ec, E4. reflexivity.
Qed.

Lemma reconstruct_geom_sound fm l e rest :
  reconstruct_geom fm l = Ok (e, rest) ->
  l = dec_elem e ++ rest /\ elem3_okb e = true /\
  (forall f, In f (e3_faces e) -> fm (e3_rank e) (f2_id f) = Some f).
Proof.
  unfold reconstruct_geom. intros H.
  destruct l as [|rank l]; cbn [next_int obind fst snd] in H; [discriminate|].
  destruct l as [|id l]; cbn [next_int obind fst snd] in H; [discriminate|].
  destruct l as [|sh l]; cbn [next_int obind fst snd] in H; [discriminate|].
  assert (K : forall s n nd, shape3_int s = sh -> nfaces s = n -> need_of s = nd ->
     obind (read_faces (fm rank) nd n l) (fun y => Ok (mkElem3 rank id s (fst y), snd y)) = Ok (e, rest) ->
     rank :: id :: sh :: l = dec_elem e ++ rest /\ elem3_okb e = true /\
     (forall f, In f (e3_faces e) -> fm (e3_rank e) (f2_id f) = Some f)).
  { intros s n nd Hs Hn Hnd HR.
    destruct (read_faces (fm rank) nd n l) as [[fs r]| |] eqn:Er; cbn [obind fst snd] in HR; try discriminate.
    injection HR as <- <-. destruct (read_faces_sound _ _ _ _ _ _ Er) as (E1 & E2 & E3 & E4).
    unfold dec_elem, elem3_okb, deconstruct_base; cbn [e3_rank e3_id e3_shape e3_faces].
    split; [cbn [app]; rewrite Hs, E1; reflexivity|]. split; [|exact E3].
    rewrite Hn, E2, Nat.eqb_refl, Hnd. cbn [andb]. destruct nd; [exact E4|reflexivity]. }
  destruct (Z.eqb_spec sh (shape3_int Hex)) as [E|_]; [eapply (K Hex); eauto|].
  destruct (Z.eqb_spec sh (shape3_int Prism)) as [E|_]; [eapply (K Prism); eauto|].
  destruct (Z.eqb_spec sh (shape3_int Pyr)) as [E|_]; [eapply (K Pyr); eauto|].
  destruct (Z.eqb_spec sh (shape3_int Tet)) as [E|_]; [eapply (K Tet); eauto|].
  discriminate.
Qed.

Lemma reconstruct_loop_sound fm fuel : forall l es,
  reconstruct_loop fuel fm l = Ok es ->
  l = concat (map dec_elem es) /\ Forall (fun e => elem3_okb e = true) es /\
  (forall e f, In e es -> In f (e3_faces e) -> fm (e3_rank e) (f2_id f) = Some f).
Proof.
  induction fuel as [|fuel IH]; intros l es H; destruct l as [|z l]; cbn [reconstruct_loop] in H.
  - injection H as <-. repeat split; [constructor|intros e f []].
  - discriminate.
  - injection H as <-. repeat split; [constructor|intros e f []].
  - destruct (reconstruct_geom fm (z :: l)) as [[e r]| |] eqn:Eg; cbn [obind fst snd] in H; try discriminate.
    destruct (reconstruct_loop fuel fm r) as [es'| |] eqn:El; cbn [obind] in H; try discriminate.
    injection H as <-.
    destruct (reconstruct_geom_sound _ _ _ _ Eg) as (G1 & G2 & G3).
    destruct (IH _ _ El) as (L1 & L2 & L3).
    split; [cbn [map concat]; rewrite G1, L1 at 1; reflexivity|]. split.
    + constructor; assumption.
    + intros e' f [<-|H1] H2; [apply G3, H2 | apply L3; assumption].
Qed.

Lemma reconstruct_sound fm packed l :
  reconstruct_geoms_3d fm packed = Ok l ->
  packed = concat (map (fun e => deconstruct_base (e3_rank e) (e3_id e) (e3_shape e) (e3_faces e)) l) /\
  Forall (fun e => elem3_okb e = true) l /\
  (forall e f, In e l -> In f (e3_faces e) -> fm (e3_rank e) (f2_id f) = Some f).
Proof. apply reconstruct_loop_sound. Qed.

(** ** Per-rank deconstruction *)
Lemma in_set_insert z x s : In x (set_insert z s) <-> x = z \/ In x s.
Proof.
  induction s as [|y s IH]; cbn [set_insert]; [simpl; intuition|].
  destruct (Z.ltb_spec z y); [simpl; intuition|].
  destruct (Z.eqb_spec z y) as [->|]; [simpl; intuition|].
  cbn [In]. rewrite IH. intuition.
Qed.
Lemma set_insert_sorted z s : StronglySorted Z.lt s -> StronglySorted Z.lt (set_insert z s).
Proof.
  induction s as [|y s IH]; intros H; cbn [set_insert]; [repeat constructor|].
  apply StronglySorted_inv in H. destruct H as [Hs Hy].
  destruct (Z.ltb_spec z y) as [Hlt|Hge].
  - constructor; [constructor; assumption|]. constructor; [exact Hlt|].
    eapply Forall_impl; [|exact Hy]. intros a Ha; cbv beta in *; lia.
  - destruct (Z.eqb_spec z y) as [->|Hne]; [constructor; assumption|].
    constructor; [apply IH; exact Hs|].
    apply Forall_forall. intros x Hx. apply in_set_insert in Hx.
    destruct Hx as [->|Hx]; [lia|]. rewrite Forall_forall in Hy. apply Hy, Hx.
Qed.
Lemma sorted_nodup s : StronglySorted Z.lt s -> NoDup s.
Proof.
  induction s as [|y s IH]; intros H; constructor.
  - apply StronglySorted_inv in H. destruct H as [_ Hy]. intros Hin.
    rewrite Forall_forall in Hy. specialize (Hy y Hin). lia.
  - apply IH. apply StronglySorted_inv in H. tauto.
Qed.

Lemma fold_insert_in fs : forall s x,
  In x (fold_left (fun s f => set_insert (f2_id f) s) fs s) <->
  In x s \/ exists f, In f fs /\ f2_id f = x.
Proof.
  induction fs as [|f fs IH]; intros s x; cbn [fold_left].
  - split; [tauto|]. intros [H|[f [[] _]]]; exact H.
  - rewrite IH, in_set_insert. split.
    + intros [[->|H]|[g [Hg E]]]; [right; exists f; split; [left|]; reflexivity | left; exact H |
        right; exists g; split; [right|]; assumption].
    + intros [H|[g [[<-|Hg] E]]]; [left; right; exact H | left; left; symmetry; exact E |
        right; exists g; auto].
Qed.
Lemma fold_insert_sorted fs : forall s, StronglySorted Z.lt s ->
  StronglySorted Z.lt (fold_left (fun s f => set_insert (f2_id f) s) fs s).
Proof.
  induction fs as [|f fs IH]; intros s H; cbn [fold_left]; [exact H|].
  apply IH, set_insert_sorted, H.
Qed.

Lemma deconstruct_rank_gen rank elems : forall a s,
  StronglySorted Z.lt s ->
  let d := fold_left (fun acc kv => deconstruct_geoms_3d rank (fst kv) (snd kv) acc) elems (a, s) in
  fst d = a ++ concat (map (fun kv => dec_elem (elem_of rank kv)) elems) /\
  StronglySorted Z.lt (snd d) /\
  (forall x, In x (snd d) <-> In x s \/ exists kv f, In kv elems /\ In f (snd (snd kv)) /\ f2_id f = x).
Proof.
  induction elems as [|kv elems IH]; intros a s Hs.
  - cbn. rewrite app_nil_r. repeat split; [exact Hs|tauto|].
    intros [H|(kv & f & [] & _)]; exact H.
  - cbn [fold_left]. unfold deconstruct_geoms_3d at 2. cbn [fst snd].
    specialize (IH (a ++ deconstruct_base rank (fst kv) (fst (snd kv)) (snd (snd kv)))
                   (fold_left (fun s f => set_insert (f2_id f) s) (snd (snd kv)) s)
                   (fold_insert_sorted _ _ Hs)).
    destruct IH as (E1 & E2 & E3). cbv zeta. split; [|split].
    + rewrite E1. cbn [map concat]. rewrite <- app_assoc. reflexivity.
    + exact E2.
    + intros x. rewrite E3, fold_insert_in. split.
      * intros [[H|[f [Hf E]]]|(kv' & f & H1 & H2 & H3)].
        -- left; exact H.
        -- right. exists kv, f. repeat split; [left; reflexivity| |]; assumption.
        -- right. exists kv', f. repeat split; [right| |]; assumption.
      * intros [H|(kv' & f & [<-|H1] & H2 & H3)].
        -- left; left; exact H.
        -- left; right. exists f; auto.
        -- right. exists kv', f; auto.
Qed.

Lemma deconstruct_rank_spec rank elems :
  let d := deconstruct_rank rank elems in
  fst d = concat (map (fun kv => dec_elem (elem_of rank kv)) elems) /\
  NoDup (snd d) /\
  (forall x, In x (snd d) <-> exists kv f, In kv elems /\ In f (snd (snd kv)) /\ f2_id f = x).
Proof.
  unfold deconstruct_rank.
  destruct (deconstruct_rank_gen rank elems [] [] (SSorted_nil _)) as (E1 & E2 & E3).
  cbv zeta. split; [exact E1|]. split; [apply sorted_nodup, E2|].
  intros x. rewrite E3. cbn [In]. intuition.
Qed.

Lemma split_faces_spec g2 ids q t :
  split_faces g2 ids = Ok (q, t) ->
  (forall i f, In (i, f) q <-> In i ids /\ g2 i = Some f /\ f2_tri f = false) /\
  (forall i f, In (i, f) t <-> In i ids /\ g2 i = Some f /\ f2_tri f = true) /\
  (forall i, In i ids -> exists f, g2 i = Some f) /\
  (NoDup ids -> NoDup (map fst q) /\ NoDup (map fst t)).
Proof.
  revert q t; induction ids as [|i ids IH]; intros q t H; cbn [split_faces] in H.
  - injection H as <- <-. repeat split; intros; try (cbn in *; tauto); try constructor.
  - destruct (g2 i) as [f|] eqn:Eg; [|discriminate].
    destruct (split_faces g2 ids) as [[q' t']| |] eqn:Es; cbn [obind fst snd] in H; try discriminate.
    destruct (IH _ _ eq_refl) as (H1 & H2 & H3 & H4).
    destruct (f2_tri f) eqn:Et; injection H as <- <-.
    + split; [|split; [|split]].
      * intros j g. rewrite H1. cbn [In]. split; [intuition|].
        intros [[<-|Hj] [Hg Ht]]; [rewrite Eg in Hg; injection Hg as <-; congruence|tauto].
      * intros j g. cbn [In]. rewrite H2. split.
        -- intros [E|(?&?&?)]; [injection E as <- <-; auto|auto].
        -- intros [[<-|Hj] [Hg Ht]]; [left; congruence|right; auto].
      * intros j [<-|Hj]; [exists f; exact Eg|apply H3, Hj].
      * intros HN. inversion HN as [|? ? Hni HN']; subst. destruct (H4 HN') as [N1 N2].
        split; [exact N1|]. cbn [map fst]. constructor; [|exact N2].
        intros Hin. apply in_map_iff in Hin. destruct Hin as [[j g] [E Hin]].
        cbn in E; subst j. apply H2 in Hin. tauto.
    + split; [|split; [|split]].
      * intros j g. cbn [In]. rewrite H1. split.
        -- intros [E|(?&?&?)]; [injection E as <- <-; auto|auto].
        -- intros [[<-|Hj] [Hg Ht]]; [left; congruence|right; auto].
      * intros j g. rewrite H2. cbn [In]. split; [intuition|].
        intros [[<-|Hj] [Hg Ht]]; [rewrite Eg in Hg; injection Hg as <-; congruence|tauto].
      * intros j [<-|Hj]; [exists f; exact Eg|apply H3, Hj].
      * intros HN. inversion HN as [|? ? Hni HN']; subst. destruct (H4 HN') as [N1 N2].
        split; [|exact N2]. cbn [map fst]. constructor; [|exact N1].
        intros Hin. apply in_map_iff in Hin. destruct Hin as [[j g] [E Hin]].
        cbn in E; subst j. apply H1 in Hin. tauto.
Qed.

Lemma split_faces_ok g2 ids :
  (forall i, In i ids -> exists f, g2 i = Some f) -> exists q t, split_faces g2 ids = Ok (q, t).
Proof.
  induction ids as [|i ids IH]; intros H; cbn [split_faces]; [eauto|].
  destruct (H i (or_introl eq_refl)) as [f ->].
  destruct IH as (q & t & ->); [intros j Hj; apply H; right; exact Hj|].
  cbn [obind fst snd]. destruct (f2_tri f); eauto.
Qed.

Lemma assocz_in l i f : NoDup (map fst l) -> (assocz l i = Some f <-> In (i, f) l).
Proof.
  induction l as [|[j g] l IH]; intros HN; cbn; [split; [discriminate|tauto]|].
  inversion HN as [|? ? Hni HN']; subst. unfold assocz in *. cbn [find fst].
  destruct (Z.eqb_spec j i) as [->|Hne].
  - cbn. split; [intros E; injection E as ->; auto|].
    intros [E|Hin]; [injection E as <-; reflexivity|].
    exfalso. apply Hni. apply in_map_iff. exists (i, f). auto.
  - rewrite IH by exact HN'. split; [auto|]. intros [E|H]; [congruence|exact H].
Qed.

Lemma deconstruct_per_rank_spec orig g2 rem send_ranks :
  (forall r kv f, In r send_ranks -> In kv (rem r) -> In f (snd (snd kv)) -> g2 (f2_id f) = Some f) ->
  exists out, deconstruct_per_rank orig g2 rem send_ranks = Ok out /\
    Forall2 (fun r p =>
      pr_stream p = concat (map (fun kv => dec_elem (elem_of orig kv)) (rem r)) /\
      pr_size p = Z.of_nat (length (pr_stream p)) /\
      (forall i f, sent_face p i = Some f <->
         (exists kv, In kv (rem r) /\ In f (snd (snd kv)) /\ f2_id f = i)) /\
      NoDup (map fst (pr_quads p) ++ map fst (pr_tris p)) /\
      Forall (fun kf => f2_tri (snd kf) = false) (pr_quads p) /\
      Forall (fun kf => f2_tri (snd kf) = true) (pr_tris p)) send_ranks out.
Proof.
  induction send_ranks as [|r rs IH]; intros HG; cbn [deconstruct_per_rank].
  - exists []. split; [reflexivity|constructor].
  - destruct (deconstruct_rank_spec orig (rem r)) as (D1 & D2 & D3).
    set (d := deconstruct_rank orig (rem r)) in *. cbv zeta in *.
    destruct (split_faces_ok g2 (snd d)) as (q & t & Es).
    { intros i Hi. apply D3 in Hi. destruct Hi as (kv & f & H1 & H2 & <-).
      exists f. eapply HG; eauto. left; reflexivity. }
    destruct IH as (out & Eo & HF).
    { intros r' kv f H1. apply HG. right; exact H1. }
    rewrite Es, Eo. cbn [obind fst snd]. eexists. split; [reflexivity|].
    constructor; [|exact HF]. cbn [pr_stream pr_size pr_quads pr_tris].
    destruct (split_faces_spec _ _ _ _ Es) as (S1 & S2 & S3 & S4).
    destruct (S4 D2) as [N1 N2].
    split; [exact D1|]. split; [reflexivity|]. split; [|split; [|split]].
    + intros i f. unfold sent_face; cbn [pr_quads pr_tris].
      split.
      * intros H. assert (Hf : In i (snd d) /\ g2 i = Some f).
        { destruct (assocz q i) as [f'|] eqn:Eq.
          - injection H as ->. apply (assocz_in q i _ N1) in Eq. apply S1 in Eq. tauto.
          - apply (assocz_in t i _ N2) in H. apply S2 in H. tauto. }
        destruct Hf as [Hi Hg]. apply D3 in Hi. destruct Hi as (kv & f' & H1 & H2 & H3).
        exists kv. assert (g2 (f2_id f') = Some f') by (eapply HG; eauto; left; reflexivity).
        rewrite H3, Hg in H0. injection H0 as <-. auto.
      * intros (kv & H1 & H2 & H3).
        assert (Hg : g2 i = Some f) by (rewrite <- H3; eapply HG; eauto; left; reflexivity).
        assert (Hi : In i (snd d)) by (apply D3; exists kv, f; auto).
        destruct (f2_tri f) eqn:Et.
        -- destruct (assocz q i) as [f'|] eqn:Eq.
           ++ apply (assocz_in q i _ N1) in Eq. apply S1 in Eq. destruct Eq as (_ & Hg' & Ht').
              rewrite Hg in Hg'. injection Hg' as <-. congruence.
           ++ apply (assocz_in t i _ N2). apply S2. auto.
        -- assert (Eq : assocz q i = Some f) by (apply (assocz_in q i _ N1), S1; auto).
           rewrite Eq. reflexivity.
    + eapply Permutation_NoDup; [apply Permutation_app_comm|]. clear HF Eo.
      assert (Hdis : forall i, In i (map fst t) -> ~ In i (map fst q)).
      { intros i Hi Hq. apply in_map_iff in Hi, Hq.
        destruct Hi as [[i1 f1] [<- Hi]], Hq as [[i2 f2] [E2 Hq]]. cbn in *. subst i2.
        apply S2 in Hi. apply S1 in Hq. destruct Hi as (_ & G1 & T1), Hq as (_ & G2 & T2).
        congruence. }
      clear -N1 N2 Hdis. induction (map fst t) as [|x l IH]; cbn [app]; [exact N1|].
      inversion N2; subst. constructor.
      * rewrite in_app_iff. intros [H|H]; [tauto|]. apply (Hdis x); [left; reflexivity|exact H].
      * apply IH; [assumption|]. intros i Hi. apply Hdis. right; exact Hi.
    + apply Forall_forall. intros [i f] Hin. apply S1 in Hin. cbn. tauto.
    + apply Forall_forall. intros [i f] Hin. apply S2 in Hin. cbn. tauto.
Qed.

(** * Exchange *)
Lemma write_at_length off m b : (off + length m <= length b)%nat ->
  length (write_at off m b) = length b.
Proof.
  intros H. unfold write_at. rewrite !app_length, firstn_length, skipn_length. lia.
Qed.
Lemma nth_error_write_at off m b j : (off + length m <= length b)%nat ->
  nth_error (write_at off m b) j =
  if (Nat.leb off j && Nat.ltb j (off + length m))%bool then nth_error m (j - off) else nth_error b j.
Proof.
  intros H. unfold write_at.
  assert (L1 : length (firstn off b) = off) by (rewrite firstn_length; lia).
  destruct (Nat.leb_spec off j) as [H1|H1]; cbn [andb].
  - rewrite nth_error_app2 by lia. rewrite L1.
    destruct (Nat.ltb_spec j (off + length m)) as [H2|H2].
    + rewrite nth_error_app1 by lia. reflexivity.
    + rewrite nth_error_app2 by lia.
      rewrite <- (firstn_skipn (off + length m) b) at 2.
      rewrite nth_error_app2; rewrite firstn_length; [|lia].
      f_equal. lia.
  - rewrite nth_error_app1 by lia.
    rewrite <- (firstn_skipn off b) at 2. rewrite nth_error_app1 by lia. reflexivity.
Qed.

Lemma fold_writes (T : list Z) (posted : list (nat * Z)) (data : Z -> list Z) :
  (forall i off s, nth_error posted i = Some (off, s) ->
     (off + length (data s) <= length T)%nat /\
     forall k, (k < length (data s))%nat -> nth_error T (off + k) = nth_error (data s) k) ->
  forall order buf, length buf = length T ->
  let res := fold_left (fun buf i => match nth_error posted i with
              | Some (off, s) => write_at off (data s) buf | None => buf end) order buf in
  length res = length T /\
  forall j, nth_error res j = nth_error T j \/
     (nth_error res j = nth_error buf j /\
      forall i off s, In i order -> nth_error posted i = Some (off, s) ->
         ~ (off <= j < off + length (data s))%nat).
Proof.
  intros HP. induction order as [|i order IH]; intros buf HL; cbv zeta; cbn [fold_left].
  - split; [exact HL|]. intros j. right. split; [reflexivity|]. intros i off s [].
  - destruct (nth_error posted i) as [[off s]|] eqn:Ei.
    + destruct (HP _ _ _ Ei) as [HB HV].
      assert (HL' : length (write_at off (data s) buf) = length T)
        by (rewrite write_at_length; lia).
      destruct (IH _ HL') as [R1 R2]. split; [exact R1|]. intros j.
      destruct (R2 j) as [R|[R Rn]]; [left; exact R|].
      rewrite nth_error_write_at in R by lia.
      destruct (Nat.leb_spec off j) as [H1|H1]; cbn [andb] in R.
      * destruct (Nat.ltb_spec j (off + length (data s))) as [H2|H2].
        -- left. rewrite R. rewrite <- HV by lia. f_equal. lia.
        -- right. split; [exact R|]. intros i' off' s' [<-|Hin] E'; [|eapply Rn; eauto].
           rewrite Ei in E'. injection E' as <- <-. lia.
      * right. split; [exact R|]. intros i' off' s' [<-|Hin] E'; [|eapply Rn; eauto].
        rewrite Ei in E'. injection E' as <- <-. lia.
    + destruct (IH _ HL) as [R1 R2]. split; [exact R1|]. intros j.
      destruct (R2 j) as [R|[R Rn]]; [left; exact R|right]. split; [exact R|].
      intros i' off' s' [<-|Hin] E'; [congruence|eapply Rn; eauto].
Qed.

Lemma fold_add_acc l : forall a, fold_left Nat.add l a = (a + fold_left Nat.add l 0)%nat.
Proof.
  induction l as [|x l IH]; intros a; cbn [fold_left]; [lia|].
  rewrite IH, (IH (0 + x)%nat). lia.
Qed.

Lemma posted_nth (data : Z -> list Z) rs : forall base i off s,
  nth_error (combine (recv_offsets base (map (fun s => length (data s)) rs)) rs) i = Some (off, s) ->
  (base <= off)%nat /\
  (off + length (data s) <= base + length (concat (map data rs)))%nat /\
  (forall k, (k < length (data s))%nat ->
     nth_error (concat (map data rs)) (off - base + k) = nth_error (data s) k).
Proof.
  induction rs as [|r rs IH]; intros base i off s H; cbn [map recv_offsets combine] in H.
  - destruct i; discriminate.
  - cbn [map concat]. rewrite app_length. destruct i as [|i]; cbn [nth_error] in H.
    + injection H as <- <-. split; [lia|]. split; [lia|].
      intros k Hk. rewrite nth_error_app1 by lia. f_equal. lia.
    + destruct (IH _ _ _ _ H) as (H1 & H2 & H3). split; [lia|]. split; [lia|].
      intros k Hk. rewrite nth_error_app2 by lia. rewrite <- H3 by exact Hk. f_equal. lia.
Qed.

Lemma posted_cover (data : Z -> list Z) rs : forall base j,
  (base <= j < base + length (concat (map data rs)))%nat ->
  exists i off s,
   (i < length rs)%nat /\
   nth_error (combine (recv_offsets base (map (fun s => length (data s)) rs)) rs) i = Some (off, s) /\
   (off <= j < off + length (data s))%nat.
Proof.
  induction rs as [|r rs IH]; intros base j H; cbn [map concat length] in H; [lia|].
  rewrite app_length in H. cbn [map recv_offsets combine].
  destruct (le_lt_dec (base + length (data r)) j) as [Hge|Hlt].
  - destruct (IH (base + length (data r))%nat j) as (i & off & s & H1 & H2 & H3); [lia|].
    exists (S i), off, s. cbn [nth_error length]. split; [lia|]. auto.
  - exists O, base, r. cbn [nth_error length]. split; [lia|]. split; [reflexivity|]. lia.
Qed.

Lemma recv_total_concat (data : Z -> list Z) rs :
  recv_total (map (fun s => length (data s)) rs) = length (concat (map data rs)).
Proof.
  unfold recv_total. induction rs as [|r rs IH]; [reflexivity|].
  cbn [map fold_left concat]. rewrite fold_add_acc, IH, app_length. lia.
Qed.

Lemma sendrecv_concat recv_ranks recv_sizes data order :
  recv_sizes = map (fun s => length (data s)) recv_ranks ->
  Permutation order (seq 0 (length recv_ranks)) ->
  sendrecv_geoms_3d recv_ranks recv_sizes data order = concat (map data recv_ranks).
Proof.
  intros -> HP. unfold sendrecv_geoms_3d.
  set (T := concat (map data recv_ranks)).
  set (posted := combine _ recv_ranks).
  destruct (fold_writes T posted data) with
     (order := order) (buf := repeat 0 (recv_total (map (fun s => length (data s)) recv_ranks)))
     as [L HN].
  - intros i off s E. destruct (posted_nth data recv_ranks 0 i off s E) as (H1 & H2 & H3).
    split; [exact H2|]. intros k Hk. unfold T. rewrite <- H3 by exact Hk. f_equal. lia.
  - rewrite repeat_length. apply recv_total_concat.
  - cbv zeta in *. set (res := fold_left _ _ _) in *.
    assert (HE : forall j, nth_error res j = nth_error T j).
    { intros j. destruct (HN j) as [H|[H Hn]]; [exact H|].
      destruct (le_lt_dec (length T) j) as [Hge|Hlt].
      - transitivity (@None Z); [|symmetry]; apply nth_error_None; lia.
      - exfalso. destruct (posted_cover data recv_ranks 0 j) as (i & off & s & H1 & H2 & H3).
        { fold T. lia. }
        eapply Hn; [|exact H2|exact H3].
        eapply Permutation_in; [symmetry; exact HP|]. apply in_seq. lia. }
    clear -HE. revert HE. generalize T as T0. generalize res as res0. clear.
    intros res0. induction res0 as [|x l IH]; intros T0 H.
    + destruct T0; [reflexivity|]. specialize (H O). discriminate.
    + destruct T0 as [|y t]; [specialize (H O); discriminate|].
      pose proof (H O) as H0. cbn in H0. injection H0 as <-. f_equal.
      apply IH. intros j. exact (H (S j)).
Qed.

Lemma receiver_reconstructs orig g2 rem r :
  Forall (fun kv => elem3_okb (elem_of orig kv) = true) (rem r) ->
  (forall kv f, In kv (rem r) -> In f (snd (snd kv)) -> g2 (f2_id f) = Some f) ->
  exists p, deconstruct_per_rank orig g2 rem [r] = Ok [p] /\
    reconstruct_geoms_3d (fun q i => if q =? orig then sent_face p i else None) (pr_stream p)
    = Ok (map (elem_of orig) (rem r)).
Proof.
  intros HF HG.
  destruct (deconstruct_per_rank_spec orig g2 rem [r]) as (out & E & H2).
  { intros r' kv f [<-|[]]. apply HG. }
  inversion H2 as [|? p ? ? Hp Hnil]; subst. inversion Hnil; subst.
  exists p. split; [exact E|]. destruct Hp as (S1 & _ & S3 & _).
  rewrite S1, <- map_map. apply reconstruct_complete.
  - rewrite Forall_map. exact HF.
  - intros e f He Hf. apply in_map_iff in He. destruct He as (kv & <- & Hkv).
    cbn [elem_of e3_rank e3_faces] in *. rewrite Z.eqb_refl. apply S3. exists kv. auto.
Qed.

(** Streams of well formed elements are never read past their end; a missing face is always noticed. *)
Lemma read_faces_total fm need faces rest :
  read_faces fm need (length faces) (map f2_id faces ++ rest) = AssertFail \/
  (exists fs, read_faces fm need (length faces) (map f2_id faces ++ rest) = Ok (fs, rest)) /\ forall f, In f faces -> fm (f2_id f) <> None.
Proof.
  induction faces as [|f faces IH].
  - right. split; [exists []; reflexivity|intros f []].
  - cbn [length read_faces map app next_int obind fst snd].
    destruct (fm (f2_id f)) as [g|] eqn:E; [|auto]. destruct (negb (f2_id g =? f2_id f)); [auto|].
    destruct (match need with Some b => negb (Bool.eqb (f2_tri g) b) | None => false end); [auto|].
    destruct IH as [->|[(fs & ->) H]]; [auto|]. right. split; [exists (g :: fs); reflexivity|].
    intros h [<-|Hh]; [congruence|auto].
Qed.
Lemma reconstruct_geom_total fm e rest : elem3_okb e = true ->
  reconstruct_geom fm (dec_elem e ++ rest) = AssertFail \/
  (exists e', reconstruct_geom fm (dec_elem e ++ rest) = Ok (e', rest)) /\ forall f, In f (e3_faces e) -> fm (e3_rank e) (f2_id f) <> None.
Proof.
  destruct e as [rank id s faces]. unfold elem3_okb, dec_elem; cbn [e3_rank e3_id e3_shape e3_faces]. intros H.
  apply andb_true_iff in H. destruct H as [Hn Hk]. apply Nat.eqb_eq in Hn.
  unfold reconstruct_geom, deconstruct_base. cbn [app next_int obind fst snd].
  destruct s; cbn [nfaces need_of shape3_int Z.eqb Pos.eqb] in *; rewrite <- Hn;
    match goal with |- context [read_faces ?a ?b (length faces) _] => destruct (read_faces_total a b faces rest) as [->|[(fs & ->) H]] end;
    cbn [obind]; auto; right; (split; [eexists; reflexivity|exact H]).
Qed.
Lemma reconstruct_loop_total fm l fuel : Forall (fun e => elem3_okb e = true) l -> (length l <= fuel)%nat ->
  reconstruct_loop fuel fm (concat (map dec_elem l)) = AssertFail \/
  (exists l', reconstruct_loop fuel fm (concat (map dec_elem l)) = Ok l') /\ forall e f, In e l -> In f (e3_faces e) -> fm (e3_rank e) (f2_id f) <> None.
Proof.
  revert fuel. induction l as [|e l IH]; intros fuel HF Hfuel.
  - right. split; [exists []; destruct fuel; reflexivity|intros e f []].
  - inversion HF as [|? ? He HF']; subst. cbn [map concat length] in *. destruct fuel as [|fuel]; [lia|].
    assert (HR := reconstruct_geom_total fm e (concat (map dec_elem l)) He).
    remember (dec_elem e ++ concat (map dec_elem l)) as s eqn:Es.
    destruct s as [|z s]; [unfold dec_elem, deconstruct_base in Es; discriminate|].
    cbn [reconstruct_loop]. destruct HR as [->|[(e' & ->) H]]; [auto|]. cbn [obind fst snd].
    destruct (IH fuel HF' ltac:(lia)) as [->|[(l' & ->) H2]]; [auto|]. right. split; [eexists; reflexivity|].
    intros e2 f [<-|Hi] Hf; eauto.
Qed.
