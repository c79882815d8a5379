(** Lemmas for C100. *)
From Verif Require Import M_Util M_Loop M_Bary M_Coord M_NewtonMap M_NewtonBind M_Generic3D M_CurvedMap L_NewtonMap.
From Verif Require Import S_Loop S_Bary S_Coord L_RealBase L_Coord S_Newton S_Generic3D L_Generic3D L_Generic3D2 L_Generic3D3.
From Coq Require Import Lia Lra List.
Import ListNotations.
Open Scope R_scope.

Definition agree (lo hi : nat) (l l' : buf) : Prop := forall j, (lo <= j < hi)%nat -> l j = l' j.
Definition frame (lo hi : nat) (l l' : buf) : Prop := forall j, ~ (lo <= j < hi)%nat -> l' j = l j.
Definition local (lo hi : nat) (P : buf -> Prop) : Prop := forall l l', agree lo hi l l' -> P l -> P l'.
(** whatever happens outside the block, the item ends with result r *)
Inductive leads {A} (lo hi : nat) (r : A) : (buf -> Prop) -> item A -> Prop :=
| L_ret (P : buf -> Prop) : leads lo hi r P (Ret r)
| L_act (P : buf -> Prop) (w : buf -> buf) (n : buf -> item A) : (forall l, P l -> frame lo hi l (w l) /\ exists Q : buf -> Prop, local lo hi Q /\ Q (w l) /\ leads lo hi r Q (n l)) -> leads lo hi r P (Act w n).
Definition any : buf -> Prop := fun _ => True.
Lemma leads_weaken {A} lo hi (r : A) (P Q : buf -> Prop) (it : item A) : (forall l, P l -> Q l) -> leads lo hi r Q it -> leads lo hi r P it.
Proof. intros H L. destruct L as [Q|Q w n HL]; constructor. intros l Hl. apply HL. auto. Qed.
Lemma local_any lo hi : local lo hi any.
Proof. intros l l' _ _. exact I. Qed.

Definition hw s x xi base (loc : buf) : Prop := has_weights s x xi (at_ loc base).
Lemma hw_local s x d xi base size : written s x d -> (g_local d <= size)%nat -> local base (base + size) (hw s x xi base).
Proof.
  intros W Hs l l' Ag (H0 & H1 & H2). rewrite (wr_local _ _ _ W) in Hs. split; [|split]; intros i Hi; unfold at_ in *.
  - rewrite <- Ag by lia. apply H0. exact Hi.
  - rewrite <- Ag by lia. apply H1. exact Hi.
  - rewrite <- Ag by lia. apply H2. exact Hi.
Qed.
Lemma resid_leads {A} s x d base size xi p (r : A) k (v : R) (f : pt3) fin : good_xmap s x -> written s x d -> (g_local d <= size)%nat ->
  nt_resid (element_type s x) xi p fin = Some (v, f) -> leads base (base + size) r (hw s x xi base) (k (Some (v, f))) ->
  leads base (base + size) r any (resid_item base d xi p k).
Proof.
  intros Hg W Hs E L. constructor. intros loc _. destruct (resid_eq s x d xi p fin (at_ loc base) Hg W) as (v' & f' & l & E1 & E2 & HW & Fr).
  rewrite E in E1. injection E1 as <- <-. rewrite E2. split.
  - intros j Hj. unfold put_block. destruct (Nat.ltb_spec j base); [reflexivity|]. rewrite Fr by lia. unfold at_. f_equal. lia.
  - exists (hw s x xi base). split; [apply (hw_local s x d); auto|]. split; [|exact L].
    unfold hw. destruct HW as (H0 & H1 & H2). split; [|split]; intros i Hi; unfold at_, put_block.
    + destruct (Nat.ltb_spec (base + i) base); [lia|]. rewrite <- H0 by exact Hi. f_equal. lia.
    + destruct (Nat.ltb_spec (base + (npts x 0 + i)) base); [lia|]. rewrite <- H1 by exact Hi. f_equal. lia.
    + destruct (Nat.ltb_spec (base + (npts x 0 + npts x 1 + i)) base); [lia|]. rewrite <- H2 by exact Hi. f_equal. lia.
Qed.
Lemma step_leads {A} s x d base size xi p f (r : A) k : good_xmap s x -> written s x d ->
  leads base (base + size) r any (k (nt_step (element_type s x) xi p f)) -> leads base (base + size) r (hw s x xi base) (step_item base d xi f k).
Proof.
  intros Hg W L. constructor. intros loc HW. split; [intros j _; reflexivity|]. exists any. split; [apply local_any|]. split; [exact I|].
  rewrite (step_ok s x d xi f (at_ loc base) Hg W HW). exact L.
Qed.
Lemma loop_leads {A} s x d base size p tol (r : A) k : good_xmap s x -> written s x d -> (g_local d <= size)%nat ->
  forall fuel xi v f dv, leads base (base + size) r any (k (inverse_loop (element_type s x) p tol fuel xi v f dv)) ->
  leads base (base + size) r (hw s x xi base) (loop_item base d p tol fuel xi v f dv k).
Proof.
  intros Hg W Hs. induction fuel as [|n IH]; intros xi v f dv L; cbn [loop_item inverse_loop] in *; [eapply leads_weaken; [|exact L]; intros; exact I|].
  destruct (Rlt_bool tol v && negb dv); [|eapply leads_weaken; [|exact L]; intros; exact I].
  apply (step_leads s x d base size xi p f r _ Hg W). destruct (nt_step (element_type s x) xi p f) as [xin|]; [|exact L].
  destruct (resid_eq s x d xin p f (fun _ => 0) Hg W) as (v' & f' & l & E1 & _). rewrite E1 in L.
  apply (resid_leads s x d base size xin p r _ v' f' f Hg W Hs E1). apply IH. exact L.
Qed.
Lemma inverse_leads {A} s x d base size p xi_in mx tol ov (r : A) k : good_xmap s x -> written s x d -> (g_local d <= size)%nat ->
  leads base (base + size) r any (k (x_inverse_kernel (element_type s x) p xi_in mx tol ov)) ->
  leads base (base + size) r any (inverse_item base d p xi_in mx tol ov k).
Proof.
  intros Hg W Hs L. unfold inverse_item, x_inverse_kernel in *.
  assert (E : (if ov then Some xi_in else nt_init (element_type s x) p) = Some (if ov then xi_in else g3_init)).
  { destruct ov; auto. cbn [element_type nt_init]. unfold g3_init. f_equal. apply pair3; field. }
  rewrite E in L. set (xi := if ov then xi_in else g3_init) in *.
  destruct (resid_eq s x d xi p (0, 0, 0) (fun _ => 0) Hg W) as (v & f & l & E1 & _). rewrite E1 in L.
  apply (resid_leads s x d base size xi p r _ v f (0, 0, 0) Hg W Hs E1). apply loop_leads; auto.
Qed.
Lemma try_leads {A} s x d base size p xi_in mx tol ctol ov (r : A) k : good_xmap s x -> written s x d -> (g_local d <= size)%nat ->
  leads base (base + size) r any (k (try_cell (element_type s x) p xi_in mx tol ctol ov)) ->
  leads base (base + size) r any (try_item base d p xi_in mx tol ctol ov k).
Proof.
  intros Hg W Hs L. unfold try_item. apply (inverse_leads s x d base size p xi_in mx tol ov r _ Hg W Hs). unfold try_cell in L.
  destruct (x_inverse_kernel _ p xi_in mx tol ov) as [o c]. cbn [fst snd]. destruct o as [xi|]; cbn [bind] in L; [|exact L].
  rewrite (wr_shape _ _ _ W). destruct (generic3 s xi) as [-> _]. cbn [element_type nt_coll nt_loc] in L. rewrite coll_eq in *. cbn [bind] in L.
  destruct (generic3 s (clamp3 ctol (collapsed s xi))) as [_ ->].
  set (xi' := to_loc3 s (clamp3 ctol (collapsed s xi))) in *. destruct (resid_eq s x d xi' p (clamp3 ctol (collapsed s xi)) (fun _ => 0) Hg W) as (v & f & l & E1 & _).
  rewrite E1 in L. cbn [bind fst] in L. apply (resid_leads s x d base size _ p r _ v f (clamp3 ctol (collapsed s xi)) Hg W Hs E1).
  eapply leads_weaken; [|exact L]. intros; exact I.
Qed.
Lemma find_leads {A} s x d base size p mx tol ctol (r : A) k : good_xmap s x -> written s x d -> (g_local d <= size)%nat -> forall starts,
  leads base (base + size) r any (k (find_first (fun st => try_cell (element_type s x) p st mx tol ctol true) starts)) ->
  leads base (base + size) r any (find_item base d p mx tol ctol starts k).
Proof.
  intros Hg W Hs. induction starts as [|st l IH]; intros L; cbn [find_item M_NewtonBind.find_first] in *; [exact L|].
  apply (try_leads s x d base size p st mx tol ctol true r _ Hg W Hs). destruct (try_cell _ p st mx tol ctol true); [exact L|]. apply IH. exact L.
Qed.

(** the data of an element fits the block and is that of its map *)
Definition data_ok (size : nat) (g : mgeom) (d : g3data) : Prop :=
  exists s x, good_xmap s x /\ written s x d /\ (g_local d <= size)%nat /\ g_newton g = element_type s x.
Lemma candidates_leads base size gs ds (r : option particle) try tryi : Forall2 (data_ok size) gs ds ->
  (forall g d k, data_ok size g d -> leads base (base + size) r any (k (try g)) -> leads base (base + size) r any (tryi d k)) ->
  forall cands k,
  match candidate_loop (map Some gs) try cands with Some found => leads base (base + size) r any (k found) | None => r = None end ->
  leads base (base + size) r any (candidates_item size (map Some gs) (map Some ds) tryi cands k).
Proof.
  intros HF Ht. induction cands as [|i cands IH]; intros k H; cbn [candidate_loop candidates_item] in *; [exact H|].
  assert (Hr : (rdZ (map Some gs) i = None /\ rdZ (map Some ds) i = None) \/ exists g d, rdZ (map Some gs) i = Some (Some g) /\ rdZ (map Some ds) i = Some (Some d) /\ data_ok size g d).
  { unfold rdZ. destruct (Z.ltb i 0); [left; split; reflexivity|]. rewrite !nth_error_map. generalize (Z.to_nat i). clear - HF. induction HF as [|g d gs ds Hd HF IHF]; intros [|n]; cbn [nth_error option_map]; auto.
    right. eauto. }
  destruct Hr as [[E1 E2]|(g & d & E1 & E2 & Hd)]; rewrite E1, ?E2 in *; cbn [bind] in H; [subst; constructor|].
  pose proof Hd as (s & x & _ & _ & Hl & _). apply Nat.leb_le in Hl. rewrite Hl. apply (Ht g d _ Hd). destruct (try g) as [xi|]; [exact H|]. apply IH. exact H.
Qed.

Definition mapper_ok (m : curved_mapper) : Prop :=
  exists gs ds, nm_tables (cm_map m) = map Some gs /\ cm_data m = map Some ds /\ Forall2 (data_ok (cm_local m)) gs ds.
Definition kernel_of (m : curved_mapper) (final : bool) (q : particle) : option particle :=
  if final then final_kernel (cm_map m) q else initial_kernel (cm_map m) q.
Lemma item_leads m final base q : mapper_ok m -> leads base (base + cm_local m) (kernel_of m final q) any (curved_item m final base q).
Proof.
  intros (gs & ds & Et & Ed & HF). unfold curved_item, kernel_of, final_kernel, initial_kernel, newton_kernel, coarse_kernel.
  destruct (Nat.eqb (nm_num_geoms (cm_map m)) 0); [destruct final; constructor|].
  destruct (Z.ltb (q_rank q) 0); [|destruct final; constructor].
  destruct (nm_lookup (cm_map m)) as [lk|]; cbn [bind]; [|destruct final; constructor].
  destruct (kernel_candidates lk (q_pos q)) as [cands|]; cbn [bind]; [|destruct final; constructor].
  set (p := kernel_pos (nm_ndim (cm_map m)) q). rewrite Et, Ed.
  set (tr := fun g => if final then try_final (cm_map m) g p else try_initial (cm_map m) g p).
  apply (candidates_leads base (cm_local m) gs ds _ tr); auto.
  - intros g d k (s & x & Hg & W & Hs & E) L. unfold tr, try_final, try_initial in L. rewrite E in L. destruct final.
    + apply (find_leads s x d); auto.
    + apply (try_leads s x d); auto.
  - unfold tr. destruct final.
    + destruct (candidate_loop (map Some gs) (fun g => try_final (cm_map m) g p) cands) as [found|]; cbn [bind]; [constructor|reflexivity].
    + destruct (candidate_loop (map Some gs) (fun g => try_initial (cm_map m) g p) cands) as [found|]; cbn [bind]; [constructor|reflexivity].
Qed.

(** * The group *)
Definition on_track {A} (L : nat) (rs : list A) (its : list (item A)) (loc : buf) : Prop :=
  length its = length rs /\
  forall k it, nth_error its k = Some it -> exists r (P : buf -> Prop), nth_error rs k = Some r /\ local (k * L) (k * L + L) P /\ P loc /\ leads (k * L) (k * L + L) r P it.
Lemma nth_mid {B} (pre : list B) x post : nth_error (pre ++ x :: post) (length pre) = Some x.
Proof. rewrite nth_error_app2 by lia. rewrite Nat.sub_diag. reflexivity. Qed.
Lemma nth_other {B} (pre : list B) x y post k : k <> length pre -> nth_error (pre ++ x :: post) k = nth_error (pre ++ y :: post) k.
Proof.
  intros Hk. destruct (Nat.lt_ge_cases k (length pre)) as [H|H]; [rewrite !nth_error_app1 by auto; reflexivity|].
  rewrite !nth_error_app2 by lia. destruct (k - length pre)%nat eqn:E; [lia|]. reflexivity.
Qed.
Lemma on_track_step {A} L (rs : list A) its loc its' loc' : on_track L rs its loc -> gstep (its, loc) (its', loc') ->
  on_track L rs its' loc' /\ frame 0 (length rs * L) loc loc'.
Proof.
  intros [Hl HT] Hs. inversion Hs as [pre w n post loc0 E1 E2]. subst its loc0 its' loc'. clear Hs.
  destruct (HT (length pre) (Act w n) (nth_mid pre _ post)) as (r & P & Er & LP & HP & HL).
  inversion HL as [|P0 w0 n0 HA]. subst P0 w0 n0. destruct (HA loc HP) as (Fr & Q & LQ & HQ & HLQ). clear HL HA.
  assert (Hk : (length pre < length rs)%nat) by (apply nth_error_Some; congruence).
  assert (Hb : (length pre * L + L <= length rs * L)%nat) by nia.
  split; [split|].
  - rewrite <- Hl, !app_length. cbn [length]. lia.
  - intros k it Ek. destruct (Nat.eq_dec k (length pre)) as [->|Hn].
    + rewrite nth_mid in Ek. injection Ek as <-. eauto 6.
    + rewrite (nth_other pre _ (Act w n)) in Ek by exact Hn. destruct (HT k it Ek) as (r' & P' & Er' & LP' & HP' & HL').
      exists r', P'. split; [exact Er'|]. split; [exact LP'|]. split; [|exact HL']. apply (LP' loc); [|exact HP'].
      intros j Hj. symmetry. apply Fr. assert (k <> length pre) by auto. destruct (Nat.lt_ge_cases k (length pre)); nia.
  - intros j Hj. apply Fr. nia.
Qed.
Lemma on_track_steps {A} L (rs : list A) s t : gsteps s t -> on_track L rs (fst s) (snd s) ->
  on_track L rs (fst t) (snd t) /\ frame 0 (length rs * L) (snd s) (snd t).
Proof.
  intros H H0. induction H as [s|s t u Hst IH Htu]; [split; [exact H0|intros j _; reflexivity]|].
  destruct (IH H0) as [H1 F1]. destruct t as [its loc], u as [its' loc']. cbn [fst snd] in *. destruct (on_track_step L rs its loc its' loc' H1 Htu) as [H2 F2].
  split; [exact H2|]. intros j Hj. rewrite F2 by exact Hj. apply F1. exact Hj.
Qed.
Lemma on_track_done {A} L (rs : list A) its loc k a : on_track L rs its loc -> nth_error its k = Some (Ret a) -> nth_error rs k = Some a.
Proof. intros [_ HT] Ek. destruct (HT k _ Ek) as (r & P & Er & _ & _ & HL). inversion HL. subst. exact Er. Qed.
Lemma work_group_length m final qs : forall k, length (work_group m final k qs) = length qs.
Proof. induction qs as [|q qs IH]; intros k; cbn [work_group length]; auto. Qed.
Lemma work_group_nth m final qs : forall k j it, nth_error (work_group m final k qs) j = Some it ->
  exists q, nth_error qs j = Some q /\ it = curved_item m final ((k + j) * cm_local m) q.
Proof.
  induction qs as [|q qs IH]; intros k [|j] it H; cbn [work_group nth_error] in *; try discriminate.
  - injection H as <-. exists q. rewrite Nat.add_0_r. auto.
  - destruct (IH (S k) j it H) as (q' & E & ->). exists q'. split; [exact E|]. f_equal. lia.
Qed.
Lemma start_on_track m final qs loc : mapper_ok m -> on_track (cm_local m) (map (kernel_of m final) qs) (work_group m final 0 qs) loc.
Proof.
  intros Hm. split; [rewrite work_group_length, map_length; reflexivity|]. intros k it E.
  destruct (work_group_nth m final qs 0 k it E) as (q & Eq & ->). cbn [Nat.add]. exists (kernel_of m final q), any. split; [rewrite nth_error_map, Eq; reflexivity|].
  split; [apply local_any|]. split; [exact I|]. apply item_leads. exact Hm.
Qed.
(** termination *)
Definition lstep {A} (a b : list (item A)) : Prop := exists pre w n post l, a = pre ++ Act w n :: post /\ b = pre ++ n l :: post.
Lemma lstep_acc {A} (its : list (item A)) : Acc (fun b a => lstep a b) its.
Proof.
  induction its as [|it its IH].
  - constructor. intros y (pre & w & n & post & l & E & _). destruct pre; discriminate.
  - revert its IH. induction it as [a|w n IHn]; intros its IH.
    + induction IH as [its _ IHa]. constructor. intros y (pre & w & n & post & l & E & ->). destruct pre as [|x pre]; [discriminate|].
      injection E as <- E. cbn [app]. apply IHa. exists pre, w, n, post, l. auto.
    + induction IH as [its Hacc IHa]. constructor. intros y (pre & w' & n' & post & l & E & ->). destruct pre as [|x pre].
      * injection E as <- <- <-. apply IHn. constructor. exact Hacc.
      * injection E as <- E. cbn [app]. apply IHa. exists pre, w', n', post, l. auto.
Qed.
Lemma gstep_lstep {A} (s t : list (item A) * buf) : gstep s t -> lstep (fst s) (fst t).
Proof. intros []. exists pre, w, n, post, loc. auto. Qed.
Lemma no_infinite_run {A} (run : nat -> list (item A) * buf) : ~ forall i, gstep (run i) (run (S i)).
Proof.
  intros H. assert (G : forall its, Acc (fun b a => lstep a b) its -> forall i, fst (run i) = its -> False).
  { intros its HA. induction HA as [its _ IH]. intros i <-. apply (IH (fst (run (S i))) (gstep_lstep _ _ (H i)) (S i) eq_refl). }
  exact (G _ (lstep_acc (fst (run 0%nat))) 0%nat eq_refl).
Qed.

(** * The constructor *)
Lemma fill_data_spec all : NoDup (map g_id (map fst all)) -> forall post pre ds local, all = pre ++ post ->
  Forall (fun gx => exists s, good_xmap s (snd gx)) post -> length ds = length pre ->
  exists ds' local', fill_data (map fst all) post (map Some ds ++ repeat None (length post)) local = Ok (map Some (ds ++ ds'), local') /\
    (local <= local')%nat /\ Forall2 (fun gx d => g3_write (snd gx) = Ok d /\ (g_local d <= local')%nat) post ds' /\
    (local' = local \/ Exists (fun d => g_local d = local') ds').
Proof.
  intros Hn post. induction post as [|[g x] post IH]; intros pre ds local E Hg Hl.
  - exists [], local. cbn [fill_data length repeat]. rewrite !app_nil_r. auto.
  - cbn [fill_data]. inversion Hg as [|? ? [s Hx] Hg']. subst. cbn [snd] in Hx.
    rewrite (lookup_id_spec _ 0%Z (length pre) g Hn).
    2:{ rewrite map_app, nth_error_app2 by (rewrite map_length; lia). rewrite map_length, Nat.sub_diag. reflexivity. }
    destruct (write_ok s x Hx) as (d & Ed & _). rewrite Ed. cbn [obind]. rewrite Z.add_0_l.
    assert (U : updZ (map Some ds ++ repeat None (length ((g, x) :: post))) (Z.of_nat (length pre)) (Some d) = Some (map Some (ds ++ [d]) ++ repeat None (length post))).
    { cbn [length repeat]. rewrite map_app, <- app_assoc. cbn [map app]. unfold updZ. destruct (Z.ltb_spec (Z.of_nat (length pre)) 0); [lia|].
      rewrite Nat2Z.id. rewrite <- Hl, <- (map_length (@Some g3data) ds). apply upd_app. }
    rewrite U. destruct (IH (pre ++ [(g, x)]) (ds ++ [d]) (Nat.max local (g_local d))) as (ds' & local' & E' & L' & F' & M'); auto.
    { rewrite <- app_assoc. reflexivity. } { rewrite !app_length. cbn [length]. lia. }
    exists (d :: ds'), local'. rewrite E'. rewrite <- app_assoc. split; [reflexivity|]. split; [lia|]. split; [constructor; [split; [exact Ed|lia]|exact F']|].
    destruct M' as [->|M']; [|right; apply Exists_cons_tl; exact M']. destruct (Nat.max_spec local (g_local d)) as [[_ ->]|[_ ->]]; auto.
Qed.
