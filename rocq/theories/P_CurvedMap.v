(** Property theorems C100 (curved elements in the particle mapper: the work items of a group share local memory). *)
From Verif Require Import M_Util M_Loop M_Bary M_Coord M_NewtonMap M_NewtonBind M_Generic3D M_CurvedMap L_NewtonMap.
From Verif Require Import S_Loop S_Bary S_Coord L_RealBase L_Coord S_NewtonBind S_Generic3D L_Generic3D L_Generic3D2 L_Generic3D3 L_CurvedMap P_NewtonBind.
From Verif Require P_Generic3D.
From Coq Require Import Lia Lra List.
Import ListNotations.
Open Scope R_scope.

(** Curved elements: each geometry comes with the Nektar++ map of its shape, and its inverse is Newton's method on that map. *)
Definition curved (gx : mgeom * xmap) : Prop := exists s, good_xmap s (snd gx) /\ g_newton (fst gx) = element_type s (snd gx).
Definition finished {A} (its : list (item A)) : Prop := Forall (fun it => exists a, it = Ret a) its.

(** C100: the mapper can be built for every mesh of curved elements; the data of an element is stored at the index the coarse
    lookup gives it, and a block of local memory has exactly the size of the largest request. *)
Theorem C100_constructor : forall conf geoms, good_geoms 3 (map fst geoms) -> Forall curved geoms ->
  exists m nm, make_curved_mapper conf geoms = Ok m /\ make_newton_mapper 3 conf (map fst geoms) = Some nm /\ cm_map m = nm /\
    length (cm_data m) = length geoms /\
    (forall k g x, nth_error geoms k = Some (g, x) -> exists d, g3_write x = Ok d /\ nth_error (cm_data m) k = Some (Some d) /\ (g_local d <= cm_local m)%nat) /\
    (cm_local m = 0%nat \/ exists g x d, In (g, x) geoms /\ g3_write x = Ok d /\ cm_local m = g_local d).
Proof.
  intros conf geoms Hg Hc. destruct (C47_mapper_exists 3 conf (map fst geoms) ltac:(lia) Hg) as (nm & En).
  destruct (fill_data_spec geoms (proj1 Hg) geoms [] [] 0%nat eq_refl) as (ds & loc & E & _ & F & M).
  { rewrite Forall_forall in *. intros gx Hi. destruct (Hc gx Hi) as (s & Hx & _). eauto. } { reflexivity. }
  cbn [map app] in E. exists {| cm_map := nm; cm_data := map Some ds; cm_local := loc |}, nm. unfold make_curved_mapper. rewrite En, E. cbn [obind fst snd cm_map cm_data cm_local].
  assert (Ll : length geoms = length ds) by (clear - F; induction F; cbn; auto).
  split; [reflexivity|]. split; [reflexivity|]. split; [reflexivity|]. split; [rewrite map_length; auto|]. split.
  - intros k g x Hk. rewrite nth_error_map. clear - F Hk. revert k Hk. induction F as [|[g0 x0] d l ds [Ed Hl] F IH]; intros [|k] Hk; try discriminate; cbn [nth_error option_map] in *.
    + injection Hk as <- <-. exists d. auto.
    + apply IH. exact Hk.
  - destruct M as [->|M]; [left; reflexivity|]. right. clear - F M. induction F as [|[g0 x0] d l ds [Ed Hl] F IH]; [inversion M|]. inversion M as [? ? H1|? ? H1]; subst.
    + exists g0, x0, d. cbn [In snd] in *. auto.
    + destruct (IH H1) as (g & x & d' & Hi & Ed' & El). exists g, x, d'. cbn [In]. auto.
Qed.
Print Assumptions C100_constructor.

Lemma built_ok conf geoms m : good_geoms 3 (map fst geoms) -> Forall curved geoms -> make_curved_mapper conf geoms = Ok m -> mapper_ok m /\ make_newton_mapper 3 conf (map fst geoms) = Some (cm_map m).
Proof.
  intros Hg Hc Em. destruct (C100_constructor conf geoms Hg Hc) as (m' & nm & Em' & En & Ecm & _). rewrite Em in Em'. injection Em' as <-.
  split; [|rewrite Ecm; exact En]. unfold make_curved_mapper in Em. rewrite En in Em.
  destruct (fill_data_spec geoms (proj1 Hg) geoms [] [] 0%nat eq_refl) as (ds & loc & E & _ & F & _).
  { rewrite Forall_forall in *. intros gx Hi. destruct (Hc gx Hi) as (s & Hx & _). eauto. } { reflexivity. }
  cbn [map app] in E. rewrite E in Em. cbn [obind fst snd] in Em. injection Em as <-. exists (map fst geoms), ds. cbn [cm_map cm_data cm_local].
  split; [|split; [reflexivity|]].
  - destruct geoms as [|[g x] gs]; [cbn in En; injection En as <-; reflexivity|]. assert (Ha : map fst ((g, x) :: gs) <> []) by discriminate.
    revert En Hg Ha. generalize (map fst ((g, x) :: gs)). clear. intros all En Hg Ha. unfold make_newton_mapper in En. destruct all as [|g0 r]; [congruence|].
    destruct (make_lookup 3 (map g_box (g0 :: r))) as [lk|]; [|discriminate]. cbn [bind] in En.
    pose proof (fill_tables_spec (g0 :: r) (proj1 Hg) (g0 :: r) [] eq_refl) as Ft. cbn [map app] in Ft.
    match type of Ft with fill_tables _ _ ?b = _ => change b with (repeat (@None mgeom) (length (g0 :: r))) in Ft end.
    rewrite Ft in En. cbn [bind] in En. injection En as <-. reflexivity.
  - clear - Hc F. induction F as [|[g x] d l ds [Ed Hl] F IH]; [constructor|]. inversion Hc as [|? ? [s [Hx Hn]] Hc']; subst. cbn [map]. constructor; [|auto].
    destruct (write_ok s x Hx) as (d' & Ed' & W). cbn [fst snd] in *. rewrite Ed in Ed'. injection Ed' as <-. exists s, x. auto.
Qed.

(** C100: however the accesses of the work items to the shared local memory interleave, and whatever that memory held, an item
    that is finished has the result of the pass run on its particle alone, and no memory beyond the blocks was written. *)
Theorem C100_work_group : forall conf geoms m final qs loc its loc', good_geoms 3 (map fst geoms) -> Forall curved geoms ->
  make_curved_mapper conf geoms = Ok m -> gsteps (work_group m final 0 qs, loc) (its, loc') ->
  length its = length qs /\
  (forall k r, nth_error its k = Some (Ret r) -> exists q, nth_error qs k = Some q /\ r = (if final then final_kernel (cm_map m) q else initial_kernel (cm_map m) q)) /\
  forall j, (length qs * cm_local m <= j)%nat -> loc' j = loc j.
Proof.
  intros conf geoms m final qs loc its loc' Hg Hc Em Hs. destruct (built_ok conf geoms m Hg Hc Em) as [Hm _].
  destruct (on_track_steps (cm_local m) (map (kernel_of m final) qs) _ _ Hs (start_on_track m final qs loc Hm)) as [HT HF]. cbn [fst snd] in *. rewrite map_length in HF.
  split; [destruct HT as [-> _]; apply map_length|]. split.
  - intros k r Hk. pose proof (on_track_done _ _ _ _ _ _ HT Hk) as E. rewrite nth_error_map in E. destruct (nth_error qs k) as [q|]; [|discriminate].
    cbn [option_map] in E. injection E as <-. exists q. split; [reflexivity|]. unfold kernel_of. destruct final; reflexivity.
  - intros j Hj. apply HF. lia.
Qed.
Print Assumptions C100_work_group.
(** C100: the group cannot run for ever, and from wherever it is it can run to the end. *)
Theorem C100_terminates : forall A (run : nat -> list (item A) * buf), ~ forall i, gstep (run i) (run (S i)).
Proof. intros A run. apply no_infinite_run. Qed.
Theorem C100_completes : forall A (its : list (item A)) loc, exists its' loc', gsteps (its, loc) (its', loc') /\ finished its'.
Proof.
  intros A its. assert (St : forall (s t : list (item A) * buf), gstep s t -> forall u, gsteps t u -> gsteps s u).
  { intros s t Hst u H. induction H; [eapply gsteps_step; [constructor|exact Hst]|eapply gsteps_step; eauto]. }
  induction (lstep_acc its) as [its _ IH]. intros loc.
  assert (D : finished its \/ exists pre w n post, its = pre ++ Act w n :: post).
  { clear. induction its as [|[a|w n] its IH]; [left; constructor|..].
    - destruct IH as [F|(pre & w & n & post & ->)]; [left; constructor; eauto|right; exists (Ret a :: pre), w, n, post; reflexivity].
    - right. exists [], w, n, its. reflexivity. }
  destruct D as [F|(pre & w & n & post & ->)]; [exists its, loc; split; [constructor|exact F]|].
  destruct (IH (pre ++ n loc :: post) ltac:(exists pre, w, n, post, loc; auto) (w loc)) as (its' & loc' & Hs & F).
  exists its', loc'. split; [|exact F]. eapply St; [constructor|exact Hs].
Qed.
Print Assumptions C100_completes.
(** C100: in terms of C47 and C85: when the group is finished every unbound particle with a candidate cell is bound to the first
    candidate whose map accepts it, with reference coordinates that map back to its position within tolerance. *)
Theorem C100_bound : forall conf geoms m final qs loc its loc' k q, good_geoms 3 (map fst geoms) -> Forall curved geoms -> geoms <> [] ->
  make_curved_mapper conf geoms = Ok m -> gsteps (work_group m final 0 qs, loc) (its, loc') -> finished its ->
  nth_error qs k = Some q -> (3 <= length (q_ref q))%nat -> (q_rank q < 0)%Z ->
  exists lk cands q', make_lookup 3 (map g_box (map fst geoms)) = Some lk /\ kernel_candidates lk (q_pos q) = Some cands /\
    nth_error its k = Some (Ret (Some q')) /\
    binds_first 3 (map fst geoms) cands
      (if final then accepts_final (read_config conf) 3 (grid_size_of (read_config conf) (fold_left Z.max (map g_modes (map fst geoms)) 0%Z)) (kernel_pos 3 q)
       else accepts_initial (read_config conf) (kernel_pos 3 q)) q q' /\
    (q' <> q -> 0 <= contained_tol (read_config conf) -> exists g x s xi, In (g, x) geoms /\ good_xmap s x /\ bound_to 3 (g_id g) (g_rank g) xi q q' /\
       forall a, (a < 3)%nat -> Rabs (elem_X s x xi a - comp (kernel_pos 3 q) a) * comp (xm_scale x) a <= newton_tol (read_config conf)).
Proof.
  intros conf geoms m final qs loc its loc' k q Hg Hc Hne Em Hs Hf Hk Hl Hr.
  destruct (C100_work_group conf geoms m final qs loc its loc' Hg Hc Em Hs) as (Ll & HR & _). destruct (built_ok conf geoms m Hg Hc Em) as [_ En].
  assert (Hit : exists r, nth_error its k = Some (Ret r)).
  { destruct (nth_error its k) as [it|] eqn:E.
    - unfold finished in Hf. rewrite Forall_forall in Hf. destruct (Hf it (nth_error_In _ _ E)) as [r ->]. eauto.
    - apply nth_error_None in E. assert (k < length qs)%nat by (apply nth_error_Some; congruence). lia. }
  destruct Hit as [r Hit]. destruct (HR k r Hit) as (q0 & Eq & ->). rewrite Hk in Eq. injection Eq as <-.
  assert (Hne' : map fst geoms <> []) by (destruct geoms; [congruence|discriminate]).
  assert (B : exists lk cands q', make_lookup 3 (map g_box (map fst geoms)) = Some lk /\ kernel_candidates lk (q_pos q) = Some cands /\
    (if final then final_kernel (cm_map m) q else initial_kernel (cm_map m) q) = Some q' /\
    binds_first 3 (map fst geoms) cands
      (if final then accepts_final (read_config conf) 3 (grid_size_of (read_config conf) (fold_left Z.max (map g_modes (map fst geoms)) 0%Z)) (kernel_pos 3 q)
       else accepts_initial (read_config conf) (kernel_pos 3 q)) q q').
  { destruct final; [apply (C47_final_binds_first 3 conf (map fst geoms) (cm_map m) q En ltac:(lia) Hne' Hg Hl Hr)|apply (C47_initial_binds_first 3 conf (map fst geoms) (cm_map m) q En ltac:(lia) Hne' Hg Hl Hr)]. }
  destruct B as (lk & cands & q' & E1 & E2 & E3 & HB). rewrite E3 in Hit. exists lk, cands, q'. split; [exact E1|]. split; [exact E2|]. split; [exact Hit|]. split; [exact HB|].
  intros Hq Hct. destruct HB as [(l1 & i & l2 & g & xi & _ & Hi & HA & _ & Hb)|[_ Heq]]; [|congruence].
  rewrite nth_error_map in Hi. destruct (nth_error geoms i) as [[g0 x]|] eqn:Ei; [|discriminate]. cbn [option_map fst] in Hi. injection Hi as ->.
  pose proof (nth_error_In _ _ Ei) as Hin. rewrite Forall_forall in Hc. destruct (Hc _ Hin) as (s & Hx & Hn). cbn [fst snd] in *.
  exists g, x, s, xi. split; [exact Hin|]. split; [exact Hx|]. split; [exact Hb|].
  assert (T : exists st ov, try_cell (element_type s x) (kernel_pos 3 q) st (newton_max_iteration (read_config conf)) (newton_tol (read_config conf)) (contained_tol (read_config conf)) ov = Some xi).
  { destruct final; unfold accepts_final, accepts_initial in HA; rewrite Hn in HA; [|eauto].
    induction (grid_starts 3 _) as [|st l IH]; cbn [M_NewtonBind.find_first] in HA; [discriminate|].
    destruct (try_cell (element_type s x) (kernel_pos 3 q) st (newton_max_iteration (read_config conf)) (newton_tol (read_config conf)) (contained_tol (read_config conf)) true) eqn:E; [injection HA as ->; eauto|auto]. }
  destruct T as (st & ov & T). apply (accepted s x) in T; [apply T|exact Hct].
Qed.
Print Assumptions C100_bound.
(** Non-vacuity: two twisted hexahedra, two particles, and a finished group. *)
Definition ex_hex (i : Z) (b : list (R * R)) : mgeom := {| g_box := b; g_id := i; g_rank := 1; g_newton := element_type Hex P_Generic3D.ex_map; g_modes := 2;
  M_NewtonBind.g_shape := 8; g_regular := false; g_linear := false; g_verts := fun _ _ => 0 |}.
Definition ex_curved : list (mgeom * xmap) := [(ex_hex 5 [(-2, 2); (0, 2); (-3, 3)], P_Generic3D.ex_map); (ex_hex 9 [(2, 6); (0, 2); (-3, 3)], P_Generic3D.ex_map)].
Definition ex_p (x : R) : particle := {| q_pos := [x; 1; 0]; q_cell := 0; q_rank := -1; q_ref := [0; 0; 0] |}.
Example C100_nonvacuous : good_geoms 3 (map fst ex_curved) /\ Forall curved ex_curved /\
  exists m, make_curved_mapper {| get_real := fun _ => None; get_int := fun _ => None |} ex_curved = Ok m /\ cm_local m = 6%nat /\
  forall final loc, exists its loc', gsteps (work_group m final 0 [ex_p 0; ex_p 4], loc) (its, loc') /\ finished its /\
    (exists a b, its = [Ret (Some a); Ret (Some b)]) /\ loc' 12%nat = loc 12%nat.
Proof.
  assert (Hg : good_geoms 3 (map fst ex_curved)).
  { split; [|split].
    - repeat constructor; cbn; intuition discriminate.
    - repeat constructor; cbn; discriminate.
    - apply Forall_cons; [|apply Forall_cons; [|constructor]]; (split; [reflexivity|]); repeat constructor; cbn; lra. }
  assert (Hc : Forall curved ex_curved).
  { destruct P_Generic3D.C85_nonvacuous as [Hx _]. apply Forall_cons; [|apply Forall_cons; [|constructor]]; exists Hex; auto. }
  split; [exact Hg|]. split; [exact Hc|]. set (conf := {| get_real := fun _ => None; get_int := fun _ => None |}).
  destruct (C100_constructor conf ex_curved Hg Hc) as (m & nm & Em & En & Ecm & Ld & Hd & Hm). exists m. split; [exact Em|]. split.
  { destruct Hm as [H0|(g & x & d & Hi & Ed & ->)].
    - destruct (Hd 0%nat _ _ eq_refl) as (d & Ed & _ & Hle). cbn in Ed. injection Ed as <-. cbn in Hle. lia.
    - destruct Hi as [E|[E|[]]]; injection E as <- <-; cbn in Ed; injection Ed as <-; reflexivity. }
  intros final loc. destruct (C100_completes _ (work_group m final 0 [ex_p 0; ex_p 4]) loc) as (its & loc' & Hs & Hf).
  exists its, loc'. split; [exact Hs|]. split; [exact Hf|].
  destruct (C100_work_group conf ex_curved m final _ loc its loc' Hg Hc Em Hs) as (Ll & HR & Hm').
  destruct (C100_bound conf ex_curved m final _ loc its loc' 0 (ex_p 0) Hg Hc ltac:(discriminate) Em Hs Hf eq_refl ltac:(cbn; lia) ltac:(cbn; lia)) as (_ & _ & a & _ & _ & Ea & _).
  destruct (C100_bound conf ex_curved m final _ loc its loc' 1 (ex_p 4) Hg Hc ltac:(discriminate) Em Hs Hf eq_refl ltac:(cbn; lia) ltac:(cbn; lia)) as (_ & _ & b & _ & _ & Eb & _).
  split.
  - exists a, b. destruct its as [|i0 [|i1 [|]]]; try discriminate. cbn in Ea, Eb. congruence.
  - apply Hm'. destruct Hm as [H0|(g & x & d & Hi & Ed & ->)]; [rewrite H0; cbn; lia|].
    destruct Hi as [E|[E|[]]]; injection E as <- <-; cbn in Ed; injection Ed as <-; cbn; lia.
Qed.
