From Coq Require Import Sorting.Permutation Sorting.Sorted ZArith Reals Lia Bool.
From Verif Require Import M_Bytes M_Pack2D M_RemoteGeom M_Transport M_Exchange S_Exchange M_MeshIf S_Grid S_MeshIf M_Halo S_Halo M_Halo3D S_Halo3D M_HaloExt3 S_HaloExt3.
From Verif Require Import M_Util L_Util L_Bytes L_Pack2D L_Grid L_MeshIf L_MeshIf2 L_Transport L_Exchange L_ExchangeMesh L_ExchangeEnd L_HaloCells L_Halo L_Halo2 L_ListX.
From Coq Require Import List.
Import ListNotations.
Local Open Scope Z_scope.

(** ** receiving the faces, for any replies of known objects *)
Section Faces.
  Context (size : Z) (m : mhier) (bx : geom2d -> box) (elems : Z -> list (Z * geom2d)) (sts : Z -> rank_state).
  Hypothesis He : elems_wf size m bx elems.
  Hypothesis Hst : forall a, 0 <= a < size -> state_wf size elems a (sts a) /\ sendable size a (sts a).
  Context (a : Z) (rv : list Z) (rp : Z -> remote2d -> Prop) (td qd : Z -> list remote2d).
  Hypothesis Ha : 0 <= a < size.
  Hypothesis Hnd : NoDup rv.
  Hypothesis Hrv : forall b, In b rv -> 0 <= b < size.
  Hypothesis Hrp : forall b x, In b rv -> rp b x -> knows b (sts b) x.
  Hypothesis Hd : forall b, In b rv -> exists l, NoDup (map key_of l) /\ (forall x, In x l <-> rp b x) /\
    td b = filter (fun x => is_tri (r2_geom x)) l /\ qd b = filter (fun x => negb (is_tri (r2_geom x)) && is_quad (r2_geom x)) l.
  Definition fgot (x : remote2d) : Prop := exists b, In b rv /\ rp b x.
  Lemma f_in_received (d : Z -> list remote2d) (p : remote2d -> bool) :
    (forall b, In b rv -> exists l, NoDup (map key_of l) /\ (forall x, In x l <-> rp b x) /\ d b = filter p l) ->
    forall x, In x (concat (map d rv)) <-> fgot x /\ p x = true.
  Proof.
    intros H x. rewrite in_concat. split.
    - intros (y & Hy & Hx). apply in_map_iff in Hy as (b & <- & Hb). destruct (H b Hb) as (l & _ & Hl & E). rewrite E in Hx.
      apply filter_In in Hx as [Hx Hp]. split; auto. exists b. split; auto. now apply Hl.
    - intros [(b & Hb & R) Hp]. exists (d b). split; [apply in_map; auto|]. destruct (H b Hb) as (l & _ & Hl & E). rewrite E. apply filter_In. split; auto. now apply Hl.
  Qed.
  Lemma f_sendable b l (p : remote2d -> bool) : In b rv -> NoDup (map key_of l) -> (forall x, In x l <-> rp b x) ->
    Forall (fun x => remote2d_okb x = true) (filter p l) /\ Z.of_nat (length (pack_geoms2d (filter p l))) * size < 2 ^ 31.
  Proof.
    intros Hb Hn Hl. destruct (Hst b (Hrv b Hb)) as [_ [S1 S2]].
    assert (Hi : incl (filter p l) (remotes b (rk_own (sts b)) ++ rk_tris (sts b) ++ rk_quads (sts b))).
    { intros x Hx. apply filter_In in Hx as [Hx _]. apply Hl in Hx. apply (Hrp b x Hb) in Hx as [[E H]|H]; apply in_app_iff; auto. left. apply in_remotes. auto. }
    split.
    - rewrite Forall_forall in *. intros x Hx. apply S1. apply Hi; auto.
    - pose proof (pack_len_incl (filter p l) _ (NoDup_filter _ (NoDup_map_inv _ _ Hn)) Hi). nia.
  Qed.
  Lemma f_receive (d : Z -> list remote2d) (p : remote2d -> bool) order :
    (forall b, In b rv -> exists l, NoDup (map key_of l) /\ (forall x, In x l <-> rp b x) /\ d b = filter p l) ->
    Permutation order (seq 0 (length rv)) ->
    halo_receive rv (fun b => pack_geoms2d (d b)) order = XOk (Ok (concat (map d rv))).
  Proof.
    intros H HO. unfold halo_receive. rewrite (exchange_recv_spec _ d).
    - f_equal. f_equal. rewrite map_map. cbn [fst]. reflexivity.
    - now rewrite map_length.
    - exact HO.
    - apply Forall_forall. intros ss Hi. apply in_map_iff in Hi as (b & <- & Hb). cbn [fst snd]. split; auto.
      destruct (H b Hb) as (l & Hn & Hl & E). rewrite E. destruct (f_sendable b l p Hb Hn Hl) as [R1 R2]. split; [exact R1|].
      eapply Z.le_lt_trans; [|exact R2]. apply Z.mul_le_mono_nonneg_l; [lia|].
      assert (Hle : (length rv <= length (ranks size))%nat).
      { apply NoDup_incl_length; auto. intros c Hc. apply in_ranks. auto. }
      unfold ranks in Hle. rewrite map_length, seq_length in Hle. lia.
  Qed.
  Lemma f_finish torder qorder : Permutation torder (seq 0 (length rv)) -> Permutation qorder (seq 0 (length rv)) ->
    exists rt rq k1 k2 nt nq,
      halo_receive rv (fun b => pack_geoms2d (td b)) torder = XOk (Ok rt) /\ halo_receive rv (fun b => pack_geoms2d (qd b)) qorder = XOk (Ok rq) /\
      halo_unpack (rank_to_geoms a (sts a)) rt (rk_tris (sts a)) = (k1, rk_tris (sts a) ++ nt) /\
      halo_unpack k1 rq (rk_quads (sts a)) = (k2, rk_quads (sts a) ++ nq) /\
      state_wf size elems a (mkRankState (rk_own (sts a)) (rk_tris (sts a) ++ nt) (rk_quads (sts a) ++ nq)) /\
      (forall x, In x (nt ++ nq) <-> fgot x /\ ~ knows a (sts a) x) /\
      (forall x, fgot x -> kget k2 (key_of x) = Some (r2_geom x)).
  Proof.
    intros HT HQ.
    set (pt := fun x => is_tri (r2_geom x)). set (pq := fun x => negb (is_tri (r2_geom x)) && is_quad (r2_geom x)).
    assert (RT : forall b, In b rv -> exists l, NoDup (map key_of l) /\ (forall x, In x l <-> rp b x) /\ td b = filter pt l).
    { intros b B2. destruct (Hd b B2) as (l & A & B & C & _). exists l. auto. }
    assert (RQ : forall b, In b rv -> exists l, NoDup (map key_of l) /\ (forall x, In x l <-> rp b x) /\ qd b = filter pq l).
    { intros b B2. destruct (Hd b B2) as (l & A & B & _ & C). exists l. auto. }
    pose proof (f_in_received td pt RT) as IT. pose proof (f_in_received qd pq RQ) as IQ.
    set (rt := concat (map td rv)) in *. set (rq := concat (map qd rv)) in *.
    destruct (unpack_spec rt (rank_to_geoms a (sts a)) (rk_tris (sts a))) as (k1 & nt & E1 & N1 & A1 & B1 & C1).
    destruct (unpack_spec rq k1 (rk_quads (sts a))) as (k2 & nq & E2 & N2 & A2 & B2 & C2).
    exists rt, rq, k1, k2, nt, nq. split; [apply (f_receive td pt torder RT HT)|]. split; [apply (f_receive qd pq qorder RQ HQ)|]. split; [exact E1|]. split; [exact E2|].
    assert (Hg : forall x, fgot x -> exists b, 0 <= b < size /\ knows b (sts b) x) by (intros x (b & Hb & R); exists b; auto).
    assert (Keq : forall a b x y, 0 <= a < size -> 0 <= b < size -> knows a (sts a) x -> knows b (sts b) y -> key_of x = key_of y -> x = y) by exact (knows_eq size m bx elems sts He Hst).
    assert (Kiff : forall b x, 0 <= b < size -> (kget (rank_to_geoms b (sts b)) (key_of x) = Some (r2_geom x) <-> knows b (sts b) x)) by exact (known_iff size m bx elems sts He Hst).
    assert (Ht : forall x, In x nt -> fgot x /\ is_tri (r2_geom x) = true) by (intros x Hx; apply IT; apply A1; auto).
    assert (Hq : forall x, In x nq -> fgot x /\ pq x = true) by (intros x Hx; apply IQ; apply A2; auto).
    assert (Hkn : forall x, fgot x -> (kget (rank_to_geoms a (sts a)) (key_of x) <> None <-> knows a (sts a) x)).
    { intros x Gx. destruct (Hg x Gx) as (b & Hb & Kb). split.
      - intros Hne. destruct (kget (rank_to_geoms a (sts a)) (key_of x)) as [g|] eqn:E; [|congruence].
        assert (Ky : knows a (sts a) (mkRemote2D (r2_rank x) (r2_id x) g)) by (apply Kiff; auto).
        rewrite (Keq b a x _ Hb Ha Kb Ky eq_refl). exact Ky.
      - intros Kx. apply Kiff in Kx; auto. congruence. }
    assert (Hkn1 : forall x, fgot x -> (kget k1 (key_of x) <> None <-> knows a (sts a) x \/ In x nt)).
    { intros x Gx. destruct (Hg x Gx) as (b & Hb & Kb). split.
      - intros Hne. destruct (kget k1 (key_of x)) as [g|] eqn:E; [|congruence]. apply B1 in E as [E|E].
        + left. apply Hkn; auto. congruence.
        + right. cbn [key_of fst snd] in E. destruct (Ht _ E) as [Gy _]. destruct (Hg _ Gy) as (b' & Hb' & Kb').
          rewrite (Keq b b' x _ Hb Hb' Kb Kb' eq_refl). exact E.
      - intros [Kx|Hx].
        + apply Kiff in Kx; auto. assert (E : kget k1 (key_of x) = Some (r2_geom x)) by (apply B1; auto). congruence.
        + assert (E : kget k1 (key_of x) = Some (r2_geom x)) by (apply B1; right; now destruct x). congruence. }
    assert (Hin : forall x, In x (nt ++ nq) <-> fgot x /\ ~ knows a (sts a) x).
    { intros x. rewrite in_app_iff. split.
      - intros [Hx|Hx].
        + destruct (Ht x Hx) as [Gx _]. split; auto. intros Kx. apply Hkn in Kx; auto. apply Kx. apply A1. auto.
        + destruct (Hq x Hx) as [Gx _]. split; auto. intros Kx. destruct (A2 x Hx) as [_ E]. apply (proj2 (Hkn1 x Gx)); auto.
      - intros [Gx Kx]. destruct (Hg x Gx) as (b & Hb & Kb). destruct (is_tri (r2_geom x)) eqn:Et.
        + left. assert (Hr : In x rt) by (apply IT; auto). pose proof (C1 x Hr) as Hne. apply Hkn1 in Hne as [|]; auto. tauto.
        + assert (Hp : pq x = true).
          { unfold pq. rewrite Et. simpl. destruct (knows_geom size m bx elems sts He Hst b x Hb Kb) as (_ & [|] & _); [congruence|auto]. }
          assert (Hr : In x rq) by (apply IQ; auto). pose proof (C2 x Hr) as Hne.
          destruct (kget k2 (key_of x)) as [g|] eqn:E; [|congruence]. apply B2 in E as [E|E].
          * assert (H : kget k1 (key_of x) <> None) by congruence. apply Hkn1 in H as [|]; auto. tauto.
          * right. cbn [key_of fst snd] in E. destruct (Hq _ E) as [Gy _]. destruct (Hg _ Gy) as (b' & Hb' & Kb').
            rewrite (Keq b b' x _ Hb Hb' Kb Kb' eq_refl). exact E. }
    split; [|split; [exact Hin|]].
    - destruct (Hst a Ha) as [(W1 & W2 & W3 & W4 & W5) _].
      assert (Hold : forall x, In x (rk_tris (sts a) ++ rk_quads (sts a)) -> knows a (sts a) x) by (intros; right; auto).
      split; [exact W1|]. cbn [rk_tris rk_quads rk_own]. split; [|split; [|split]].
      + intros x Hx. assert (Hc : In x (rk_tris (sts a) ++ rk_quads (sts a)) \/ In x (nt ++ nq)) by (rewrite !in_app_iff in *; tauto).
        destruct Hc as [Hc|Hc]; [auto|]. apply Hin in Hc as [Gx Kx]. destruct (Hg x Gx) as (b & Hb & Kb).
        destruct (knows_facts size elems sts Hst b x Hb Kb) as [F1 F2]. split; [auto|]. split; [|auto]. intros Er. apply Kx. left. rewrite W1, <- Er. auto.
      + intros x Hx. apply in_app_iff in Hx as [|Hx]; auto. apply Ht; auto.
      + intros x Hx. apply in_app_iff in Hx as [|Hx]; auto. destruct (Hq x Hx) as [_ Hp]. unfold pq in Hp. apply andb_true_iff in Hp. tauto.
      + assert (Hdis : NoDup (map key_of ((rk_tris (sts a) ++ rk_quads (sts a)) ++ (nt ++ nq)))).
        { rewrite map_app. apply NoDup_app_intro; auto.
          - rewrite map_app. apply NoDup_app_intro; auto. intros k K1 K2. apply in_map_iff in K1 as (x & <- & Hx). apply in_map_iff in K2 as (y & Ey & Hy).
            destruct (A2 y Hy) as [_ E]. rewrite Ey in E. assert (Gx : fgot x) by apply (Ht x Hx). apply (proj2 (Hkn1 x Gx)); auto.
          - intros k K1 K2. apply in_map_iff in K1 as (x & <- & Hx). apply in_map_iff in K2 as (y & Ey & Hy). apply Hin in Hy as [Gy Ky].
            destruct (Hg y Gy) as (b & Hb & Kb). apply Ky. rewrite (Keq b a y x Hb Ha Kb (Hold x Hx) Ey). auto. }
        eapply Permutation_NoDup; [|exact Hdis]. apply Permutation_map. rewrite <- !app_assoc. apply Permutation_app_head.
        rewrite !app_assoc. apply Permutation_app_tail. apply Permutation_app_comm.
    - intros x Gx. assert (Hk : kget (rank_to_geoms a (sts a)) (key_of x) = Some (r2_geom x) \/ In x (nt ++ nq)).
      { destruct (kget (rank_to_geoms a (sts a)) (key_of x)) as [g|] eqn:E.
        - left. assert (Kx : knows a (sts a) x) by (apply Hkn; auto; congruence). apply Kiff in Kx; auto. congruence.
        - right. apply Hin. split; auto. intros Kx. apply Kiff in Kx; auto. congruence. }
      apply B2. destruct Hk as [Hk|Hk]; [left; apply B1; auto|]. apply in_app_iff in Hk as [Hk|Hk].
      + left. apply B1. right. now destruct x.
      + right. now destruct x.
  Qed.
End Faces.
