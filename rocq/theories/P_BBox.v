(** Property theorems C86 (bounding boxes of 3D elements). *)
From Verif Require Import M_RealBase L_RealBase M_Loop S_Loop L_Loop S_Bary L_Bary S_Coord M_Coord L_Coord M_NewtonBind M_Generic3D M_BBox S_Newton S_Generic3D L_Generic3D L_Generic3D2 S_BBox L_BBox L_BBox2.
From Coq Require Import Lia Lra String List Permutation.
Import ListNotations.
Open Scope string_scope.
Open Scope list_scope.
Open Scope R_scope.

Lemma written_of s x d : good_xmap s x -> g3_write x = Ok d -> written s x d.
Proof. intros Hg E. destruct (write_ok s x Hg) as (d' & E' & W). congruence. Qed.
(** C86: for every element, grid and order of the atomic updates, and whatever the scratch memory holds, the box is in each
    direction the smallest and largest coordinate over the grid points of the six faces, moved outwards by
    pad_rel * width + pad_abs. *)
Theorem C86_sampled : forall s x d gs pad_rel pad_abs items, good_xmap s x -> g3_write x = Ok d -> (2 <= gs)%nat -> all_items gs items ->
  (forall e a, face_grid gs e -> (a < 3)%nat -> Rabs (elem_X s x (to_loc3 s e) a) <= DBL_MAX) ->
  exists lo hi, xmap_bounding_box d gs pad_rel pad_abs items = Some (lo, hi) /\
    forall a, (a < 3)%nat -> exists m M,
      least (face_grid gs) (fun e => elem_X s x (to_loc3 s e) a) m /\ largest (face_grid gs) (fun e => elem_X s x (to_loc3 s e) a) M /\
      comp lo a = m - (pad_rel * (M - m) + pad_abs) /\ comp hi a = M + (pad_rel * (M - m) + pad_abs).
Proof. intros. apply bbox_sampled; auto. now apply written_of. Qed.
Print Assumptions C86_sampled.
(** C86: the box does not depend on the schedule or on the scratch memory. *)
Theorem C86_schedule : forall s x d gs pad_rel pad_abs items items', good_xmap s x -> g3_write x = Ok d -> (2 <= gs)%nat ->
  all_items gs items -> all_items gs items' ->
  (forall e a, face_grid gs e -> (a < 3)%nat -> Rabs (elem_X s x (to_loc3 s e) a) <= DBL_MAX) ->
  xmap_bounding_box d gs pad_rel pad_abs items = xmap_bounding_box d gs pad_rel pad_abs items'.
Proof.
  intros s x d gs pr pa items items' Hg Hw Hgs P P' Hr.
  destruct (C86_sampled s x d gs pr pa items Hg Hw Hgs P Hr) as (lo & hi & -> & H).
  destruct (C86_sampled s x d gs pr pa items' Hg Hw Hgs P' Hr) as (lo' & hi' & -> & H').
  assert (K : forall a, (a < 3)%nat -> comp lo a = comp lo' a /\ comp hi a = comp hi' a).
  { intros a La. destruct (H a La) as (m & M & [A1 (e1 & B1 & C1)] & [A2 (e2 & B2 & C2)] & -> & ->).
    destruct (H' a La) as (m' & M' & [A1' (e1' & B1' & C1')] & [A2' (e2' & B2' & C2')] & -> & ->).
    pose proof (A1 e1' B1'). pose proof (A1' e1 B1). pose proof (A2 e2' B2'). pose proof (A2' e2 B2).
    replace m' with m by lra. replace M' with M by lra. split; reflexivity. }
  f_equal. destruct lo as [[? ?] ?], hi as [[? ?] ?], lo' as [[? ?] ?], hi' as [[? ?] ?].
  pose proof (K 0%nat ltac:(lia)) as K0. pose proof (K 1%nat ltac:(lia)) as K1. pose proof (K 2%nat ltac:(lia)) as K2. cbn [comp] in K0, K1, K2. destruct K0 as [-> ->], K1 as [-> ->], K2 as [-> ->]. reflexivity.
Qed.
Print Assumptions C86_schedule.

(** C86: parameters. Everything else is rejected; without a store there is no padding, even for curved elements. *)
Theorem C86_plan : forall (is_linear : bool) modes (ps : option store), (0 <= modes)%Z ->
  let factor := match ps with Some c => get_or (get_int c "get_bounding_box/nonlinear_grid_size_factor") 4%Z | None => 4%Z end in
  let key (k : string) := match ps with Some c => get_real c k | None => Some 0 end in
  let pr := if is_linear then get_or (key "get_bounding_box/linear_pad_rel") 0 else get_or (key "get_bounding_box/nonlinear_pad_rel") (5 / 100) in
  let pa := if is_linear then get_or (key "get_bounding_box/linear_pad_abs") 0 else get_or (key "get_bounding_box/nonlinear_pad_abs") 0 in
  (0 <= factor * modes < 2 ^ 64)%Z -> (0 <= factor)%Z ->
  let gs := if is_linear then 2%Z else (factor * modes)%Z in
  bb_plan is_linear modes ps = if Z.leb 2 gs && Rle_bool 0 pr && Rle_bool 0 pa then Ok (gs, pr, pa) else AssertFail.
Proof.
  intros lin modes ps Hm factor key pr pa Hf Hf0 gs. unfold bb_plan.
  destruct lin.
  - subst pr pa gs key. destruct ps as [c|]; cbn [get_or]; destruct (Z.leb 2 2); cbn [andb]; auto; destruct (Rle_bool 0 _); cbn [andb]; auto; destruct (Rle_bool 0 _); auto.
  - subst pr pa gs key. unfold factor in *. destruct ps as [c|].
    + set (f := get_or (get_int c "get_bounding_box/nonlinear_grid_size_factor") 4%Z) in *.
      assert (E : ((f mod 2 ^ 64 * modes) mod 2 ^ 64 = f * modes)%Z) by (rewrite Z.mul_mod_idemp_l by lia; apply Z.mod_small; lia). rewrite E.
      destruct (Z.leb 2 (f * modes)); cbn [andb]; auto; destruct (Rle_bool 0 _); cbn [andb]; auto; destruct (Rle_bool 0 _); auto.
    + rewrite Z.mod_small by lia. destruct (Z.leb 2 _); cbn [andb get_or]; auto; destruct (Rle_bool 0 0); cbn [andb]; auto.
Qed.
Print Assumptions C86_plan.
(** C86 refuted: a negative grid factor is not rejected; it becomes a grid of about 2^64 points. *)
Theorem C86_negative_factor_refuted : exists c modes, (0 < modes)%Z /\ get_int c "get_bounding_box/nonlinear_grid_size_factor" = Some (-1)%Z /\
  bb_plan false modes (Some c) = Ok ((2 ^ 64 - modes)%Z, 5 / 100, 0).
Proof.
  exists {| get_real := fun _ => None; get_int := fun _ => Some (-1)%Z |}, 3%Z. split; [lia|]. split; [reflexivity|].
  unfold bb_plan. cbn [get_int get_real get_or]. rewrite !Rle_bool_true by lra. reflexivity.
Qed.
Print Assumptions C86_negative_factor_refuted.

(** C86: elements of fewer than three dimensions keep Nektar++'s own box. *)
Theorem C86_lower_dim : forall ndim own lin modes ps x ls items, (ndim < 3)%nat -> get_bounding_box ndim own lin modes ps x ls items = Ok own.
Proof. intros. unfold get_bounding_box. now rewrite (proj2 (Nat.ltb_lt _ _) H). Qed.
Print Assumptions C86_lower_dim.

(** C86: linear elements. For any vertices, work group size, schedule and scratch memory, the box spans exactly the vertices,
    extended by the padding, and contains every point of the element. *)
Theorem C86_linear : forall e c x own modes (ps : option store) ls items, e <> EQuad -> good_xmap (shape_of e) x ->
  (forall a, (a < 3)%nat -> (2 <= npts x a)%nat) ->
  (forall a, (a < 3)%nat -> sampled x (shape_of e) (xm_phys x a) (fun xi => Xmap e c xi a)) ->
  (forall i a, (i < nverts e)%nat -> (a < 3)%nat -> Rabs (c i a) <= DBL_MAX) ->
  (0 < ls)%nat -> INR ls < 10 ^ 6 - 1 -> (forall gs, all_items gs (items gs)) ->
  let pr := match ps with Some st => get_or (get_real st "get_bounding_box/linear_pad_rel") 0 | None => 0 end in
  let pa := match ps with Some st => get_or (get_real st "get_bounding_box/linear_pad_abs") 0 | None => 0 end in
  0 <= pr -> 0 <= pa ->
  exists lo hi, get_bounding_box 3 own true modes ps x ls items = Ok (lo, hi) /\
    forall a, (a < 3)%nat -> exists m M,
      least (fun i => (i < nverts e)%nat) (fun i => c i a) m /\ largest (fun i => (i < nverts e)%nat) (fun i => c i a) M /\
      comp lo a = m - (pr * (M - m) + pa) /\ comp hi a = M + (pr * (M - m) + pa) /\
      forall xi, in_ref3 (shape_of e) xi -> m <= Xmap e c xi a <= M /\ comp lo a <= Xmap e c xi a <= comp hi a.
Proof.
  intros e c x own modes ps ls items He Hg Hn Hs Hv Hls Hlm Hi pr pa Hpr Hpa.
  destruct (write_ok _ x Hg) as (d & Ew & W).
  assert (PL : bb_plan true modes ps = Ok (2%Z, pr, pa)).
  { unfold bb_plan. subst pr pa. destruct ps as [st|]; change (Z.leb 2 2) with true; rewrite !Rle_bool_true by auto; reflexivity. }
  destruct (next_multiple_spec 2 ls Hls) as [NM _]. set (gs := next_multiple 2 ls) in *.
  assert (Hg2 : (2 <= gs)%nat) by lia.
  assert (Hgm : INR gs <= 10 ^ 6). { assert (L : INR gs <= INR (ls + 1)) by (apply le_INR; lia). rewrite plus_INR in L. cbn [INR] in L. lra. }
  assert (Hr : represents_G (shape_of e) x (Xmap e c)) by now apply linear_represents.
  assert (B : forall a, (a < 3)%nat -> forall xi, in_ref3 (shape_of e) xi -> - DBL_MAX <= Xmap e c xi a <= DBL_MAX).
  { intros a La. apply linear_between; auto. intros u v w Hu Hv' Hw. destruct (corner_vertex e c a u v w He Hu Hv' Hw) as (i & Hi' & ->).
    pose proof (Hv i a Hi' La) as Q. apply Rabs_le_inv in Q. exact Q. }
  assert (Hd : double_range (shape_of e) (Xmap e c)) by (intros xi a Hx La; apply Rabs_le, B; auto).
  destruct (bbox_G (shape_of e) x d (Xmap e c) gs pr pa (items gs) Hg W Hr Hd Hg2 Hgm (Hi gs)) as (lo & hi & E & H).
  exists lo, hi. split.
  { unfold get_bounding_box. change (Nat.ltb 3 3) with false. cbv iota. rewrite Ew. cbn [obind]. rewrite PL. cbn [obind]. change (Z.to_nat 2) with 2%nat. fold gs. now rewrite E. }
  intros a La. destruct (H a La) as (m & M & [A1 (e1 & B1 & C1)] & [A2 (e2 & B2 & C2)] & L & U). exists m, M.
  assert (BT : forall xi, in_ref3 (shape_of e) xi -> m <= Xmap e c xi a <= M).
  { apply linear_between; auto. intros u v w Hu Hv' Hw. split; [apply A1|apply A2]; now apply corner_grid. }
  assert (VT : forall i, (i < nverts e)%nat -> m <= c i a <= M).
  { intros i Hi'. destruct (vertex_corner e c a i He Hi') as (u & v & w & Hu & Hv' & Hw & <-). split; [apply A1|apply A2]; now apply corner_grid. }
  (* the extreme is attained at a vertex *)
  assert (FT : forall lo' hi' xi, in_ref3 (shape_of e) xi -> (forall i, (i < nverts e)%nat -> lo' <= c i a <= hi') -> lo' <= Xmap e c xi a <= hi').
  { intros lo' hi' xi Hx Hb. apply (linear_between e c a lo' hi' He); auto. intros u v w Hu Hv' Hw. destruct (corner_vertex e c a u v w He Hu Hv' Hw) as (i & Hi' & ->). auto. }
  assert (VMin : forall n, (0 < n)%nat -> exists i, (i < n)%nat /\ forall j, (j < n)%nat -> c i a <= c j a).
  { induction n as [|[|n] IH]; intros Hn'; [lia|exists 0%nat; split; [lia|]; intros j Hj; replace j with 0%nat by lia; lra|].
    destruct IH as (i & Hi' & Hm); [lia|]. destruct (Rle_dec (c i a) (c (S n) a)) as [Q|Q].
    - exists i. split; [lia|]. intros j Hj. destruct (Nat.eq_dec j (S n)) as [->|Nj]; auto. apply Hm. lia.
    - exists (S n). split; [lia|]. intros j Hj. destruct (Nat.eq_dec j (S n)) as [->|Nj]; [lra|]. pose proof (Hm j ltac:(lia)). lra. }
  assert (VMax : forall n, (0 < n)%nat -> exists i, (i < n)%nat /\ forall j, (j < n)%nat -> c j a <= c i a).
  { induction n as [|[|n] IH]; intros Hn'; [lia|exists 0%nat; split; [lia|]; intros j Hj; replace j with 0%nat by lia; lra|].
    destruct IH as (i & Hi' & Hm); [lia|]. destruct (Rle_dec (c (S n) a) (c i a)) as [Q|Q].
    - exists i. split; [lia|]. intros j Hj. destruct (Nat.eq_dec j (S n)) as [->|Nj]; auto. apply Hm. lia.
    - exists (S n). split; [lia|]. intros j Hj. destruct (Nat.eq_dec j (S n)) as [->|Nj]; [lra|]. pose proof (Hm j ltac:(lia)). lra. }
  assert (NV : (0 < nverts e)%nat) by (destruct e; cbn; lia).
  destruct (VMin (nverts e) NV) as (im & Him & Hm). destruct (VMax (nverts e) NV) as (iM & HiM & HM).
  assert (Em : c im a = m).
  { apply Rle_antisym; [|apply VT; auto]. rewrite <- C1. apply (FT (c im a) (c iM a) (to_loc3 (shape_of e) e1)); [apply cube_to_ref3; now apply (face_grid_cube gs)|]. intros; auto. }
  assert (EM : c iM a = M).
  { apply Rle_antisym; [apply VT; auto|]. rewrite <- C2. apply (FT (c im a) (c iM a) (to_loc3 (shape_of e) e2)); [apply cube_to_ref3; now apply (face_grid_cube gs)|]. intros; auto. }
  split; [split; [intros i Hi'; now apply VT|exists im; auto]|]. split; [split; [intros i Hi'; now apply VT|exists iM; auto]|].
  split; [exact L|]. split; [exact U|]. intros xi Hx. pose proof (BT xi Hx) as Q. split; [exact Q|]. rewrite L, U.
  assert (0 <= pr * (M - m)) by (apply Rmult_le_pos; lra). lra.
Qed.
Print Assumptions C86_linear.

(** C86: curved elements. If the coordinates change by at most K per unit of collapsed coordinate on the faces and the padding is at
    least K / (grid size - 1), the box contains the image of every face; and so of the whole element when its extreme
    coordinates are on the faces. *)
Theorem C86_boundary_covered : forall s x d G gs pad_rel pad_abs items K a, good_xmap s x -> g3_write x = Ok d -> represents_G s x G ->
  double_range s G -> (2 <= gs)%nat -> INR gs <= 10 ^ 6 -> all_items gs items -> (a < 3)%nat ->
  (forall e e' h, on_cube_face e -> on_cube_face e' -> (forall b, (b < 3)%nat -> Rabs (comp e b - comp e' b) <= h) ->
     Rabs (G (to_loc3 s e) a - G (to_loc3 s e') a) <= K * h) ->
  exists lo hi m M, xmap_bounding_box d gs pad_rel pad_abs items = Some (lo, hi) /\
    least (face_grid gs) (fun e => G (to_loc3 s e) a) m /\ largest (face_grid gs) (fun e => G (to_loc3 s e) a) M /\
    (K * (1 / INR (gs - 1)) <= pad_rel * (M - m) + pad_abs ->
     (forall e, on_cube_face e -> comp lo a <= G (to_loc3 s e) a <= comp hi a) /\
     ((forall xi, in_ref3 s xi -> exists e e', on_cube_face e /\ on_cube_face e' /\ G (to_loc3 s e) a <= G xi a <= G (to_loc3 s e') a) ->
      forall xi, in_ref3 s xi -> comp lo a <= G xi a <= comp hi a)).
Proof.
  intros s x d G gs pr pa items K a Hg Hw Hr Hd Hgs Hgm P La Hk.
  destruct (bbox_G s x d G gs pr pa items Hg (written_of s x d Hg Hw) Hr Hd Hgs Hgm P) as (lo & hi & E & H).
  destruct (H a La) as (m & M & [A1 B1] & [A2 B2] & L & U). exists lo, hi, m, M. split; auto. split; [split; auto|]. split; [split; auto|]. intros Hp.
  assert (F : forall e, on_cube_face e -> comp lo a <= G (to_loc3 s e) a <= comp hi a).
  { intros e He. destruct (near_face gs e Hgs He) as (e' & Fe & Oe & De). pose proof (Hk e e' _ He Oe De) as Q. apply Rabs_le_inv in Q.
    pose proof (A1 e' Fe) as X1. pose proof (A2 e' Fe) as X2. cbv beta in X1, X2. rewrite L, U. lra. }
  split; auto. intros Hx xi Hi. destruct (Hx xi Hi) as (e & e' & He & He' & Q). pose proof (F e He). pose proof (F e' He'). lra.
Qed.
Print Assumptions C86_boundary_covered.

Transparent DBL_MAX.
Lemma dbl_max_4 : 4 <= DBL_MAX.
Proof.
  unfold DBL_MAX. assert (H : 4 <= 2 ^ 1023) by (replace 4 with (2 ^ 2) by ring; apply Rle_pow; [lra|lia]).
  assert (H1 : / 2 ^ 52 <= / 1) by (apply Rinv_le_contravar; [lra|apply pow_R1_Rle; lra]). rewrite Rinv_1 in H1.
  set (p := 2 ^ 1023) in *. clearbody p. set (q := / 2 ^ 52) in *. clearbody q. nra.
Qed.
Opaque DBL_MAX.
(** A curved hexahedron on the points -1, 0, 1 of each direction: (xi0, xi1, xi2 + (1 - xi0^2) / 2). *)
Definition bump_G (xi : pt3) (a : nat) : R := match a with 0%nat => comp xi 0 | 1%nat => comp xi 1 | _ => comp xi 2 + (1 - comp xi 0 * comp xi 0) / 2 end.
Definition bump_map : xmap := {| xm_base := [([-1; 0; 1], [1/2; -1; 1/2]); ([-1; 0; 1], [1/2; -1; 1/2]); ([-1; 0; 1], [1/2; -1; 1/2])]; xm_tot := 27;
  xm_phys := fun a => flat_map (fun z => flat_map (fun y => map (fun x => bump_G (x, y, z) a) [-1; 0; 1]) [-1; 0; 1]) [-1; 0; 1];
  xm_deriv := fun v _ => v; xm_scale := (1, 1, 1); xm_shape := 8 |}.
Definition plain_items (gs : nat) : list (nat * nat * buf) := map (fun p => (p, (fun _ => 0) : buf)) (list_prod (seq 0 6) (seq 0 (gs * gs))).
Lemma plain_all gs : all_items gs (plain_items gs).
Proof. unfold all_items, plain_items. rewrite map_map. cbn [fst]. rewrite map_id. apply Permutation_refl. Qed.
Lemma bump_good : good_xmap Hex bump_map.
Proof.
  split; [reflexivity|]. split; [reflexivity|]. split; [reflexivity|]. intros a Ha.
  assert (C : npts bump_map a = 3%nat /\ (forall i, node bump_map a i = nth i [-1; 0; 1] 0) /\ wts bump_map a = [1/2; -1; 1/2]) by (destruct a as [|[|[|a]]]; try lia; repeat split; reflexivity).
  destruct C as (-> & N & ->). split; [lia|]. split; [reflexivity|]. split.
  - intros [|[|[|i]]] [|[|[|j]]] Hi Hj E; try lia; auto; rewrite !N in E; cbn [nth] in E; lra.
  - exists 1. split; [lra|]. intros [|[|[|i]]] Hi; try lia; cbn [prodn Nat.eqb]; rewrite !N; cbn [nth]; field.
Qed.
Lemma bump_represents : represents_G Hex bump_map bump_G.
Proof.
  intros a La. split.
  - exists (fun i j k => match a, i, j, k with 0%nat, 1%nat, 0%nat, 0%nat => 1 | 1%nat, 0%nat, 1%nat, 0%nat => 1 | 2%nat, 0%nat, 0%nat, 0%nat => 1/2 | 2%nat, 2%nat, 0%nat, 0%nat => -1/2 | 2%nat, 0%nat, 0%nat, 1%nat => 1 | _, _, _, _ => 0 end).
    intros. change (to_loc3 Hex (e0, e1, e2)) with (e0, e1, e2). change (npts bump_map 0) with 3%nat. change (npts bump_map 1) with 3%nat. change (npts bump_map 2) with 3%nat.
    unfold polynomial3. destruct a as [|[|[|a]]]; try lia; cbn [sumn pow bump_G comp]; field.
  - intros i0 i1 i2. change (npts bump_map 0) with 3%nat. change (npts bump_map 1) with 3%nat. change (npts bump_map 2) with 3%nat. intros H0 H1 H2.
    unfold nodal. change (npts bump_map 0 * npts bump_map 1)%nat with 9%nat. change (npts bump_map 0) with 3%nat.
    destruct i0 as [|[|[|i0]]], i1 as [|[|[|i1]]], i2 as [|[|[|i2]]]; try lia; reflexivity.
Qed.
Lemma bump_range : double_range Hex bump_G.
Proof.
  intros [[x y] z] a (Hx & Hy & Hz) La. pose proof DBL_MAX_ge_1 as D. pose proof dbl_max_4 as D2.
  apply Rabs_le. assert (0 <= x * x <= 1) by nra. destruct a as [|[|[|a]]]; try lia; cbn [bump_G comp]; lra.
Qed.
Lemma bump_grid gs e : (2 <= gs)%nat -> Nat.even gs = true -> face_grid gs e -> bump_G e 2 <= 3 / 2 - 1 / (2 * (INR (gs - 1) * INR (gs - 1))).
Proof.
  intros Hgs Hev F. pose proof (face_grid_cube gs e Hgs F) as C. destruct F as (a & La & Hs & Hb). destruct e as [[x y] z]. unfold in_cube3 in C. cbn [fst snd] in C. destruct C as (C0 & C1 & C2).
  assert (D : 0 < INR (gs - 1)) by (apply lt_0_INR; lia). set (N := INR (gs - 1)) in *.
  assert (X : 1 / (N * N) <= x * x).
  { assert (D1 : 1 <= N) by (change 1 with (INR 1); apply le_INR; lia).
    assert (X1 : 1 / (N * N) <= 1) by (apply L_Sol.div_le; nra).
    destruct (Nat.eq_dec a 0) as [->|Na]; [cbn [comp] in Hs; destruct Hs; subst x; lra|].
    destruct (Hb 0%nat ltac:(lia) ltac:(lia)) as (i & Hi & E). cbn [comp] in E.
    apply Nat.even_spec in Hev. destruct Hev as (h & Hh).
    assert (E' : x = (2 * INR i - N) / N) by (rewrite E; field; lra).
    assert (Q : 1 <= (2 * INR i - N) * (2 * INR i - N)).
    { unfold N. assert (Z1 : (2 * i <= gs - 2)%nat \/ (gs <= 2 * i)%nat) by lia. destruct Z1 as [Z1|Z1]; apply le_INR in Z1; rewrite mult_INR in Z1; rewrite ?minus_INR in * by lia; cbn [INR] in *; nra. }
    rewrite E'. replace ((2 * INR i - N) / N * ((2 * INR i - N) / N)) with ((2 * INR i - N) * (2 * INR i - N) / (N * N)) by (field; lra).
    unfold Rdiv. apply Rmult_le_compat_r; [|exact Q]. left. apply Rinv_0_lt_compat. nra. }
  cbn [bump_G comp]. replace (1 / (2 * (N * N))) with (1 / (N * N) / 2) by (field; lra). lra.
Qed.
Lemma bump_plan c : (forall k, get_real c k = None) -> (forall k, get_int c k = None) -> bb_plan false 3 (Some c) = Ok (12%Z, 5 / 100, 0) /\ bb_plan false 3 None = Ok (12%Z, 0, 0).
Proof.
  intros H1 H2. unfold bb_plan. rewrite !H1, !H2. cbn [get_or]. rewrite !Rle_bool_true by lra. split; reflexivity.
Qed.
Lemma bump_box own ls d : g3_write bump_map = Ok d -> (0 < ls)%nat -> INR ls <= 1000 -> let gs := next_multiple 12 ls in
  exists lo hi, get_bounding_box 3 own false 3 None bump_map ls plain_items = Ok (lo, hi) /\ largest (face_grid gs) (fun e => bump_G e 2) (comp hi 2).
Proof.
  intros Ew Hls Hl gs. destruct (next_multiple_spec 12 ls Hls) as [NM _]. fold gs in NM.
  assert (Hgm : INR gs <= 10 ^ 6). { assert (L : INR gs <= INR (12 + ls)) by (apply le_INR; lia). rewrite plus_INR in L. cbn [INR] in L. lra. }
  destruct (bbox_G Hex bump_map d bump_G gs 0 0 (plain_items gs) bump_good (written_of _ _ _ bump_good Ew) bump_represents bump_range ltac:(lia) Hgm (plain_all gs)) as (lo & hi & E & H).
  exists lo, hi. split.
  - unfold get_bounding_box. change (Nat.ltb 3 3) with false. cbv iota. rewrite Ew. cbn [obind].
    destruct (bump_plan {| get_real := fun _ => None; get_int := fun _ => None |} ltac:(auto) ltac:(auto)) as [_ ->]. cbn [obind].
    change (next_multiple (Z.to_nat 12) ls) with gs. now rewrite E.
  - destruct (H 2%nat ltac:(lia)) as (m & M & _ & B & _ & U). replace (comp hi 2) with M by (rewrite U; ring). exact B.
Qed.
(** C86 refuted: without a parameter store the box of a curved element does not contain the element. *)
Theorem C86_curved_refuted : exists lo hi, get_bounding_box 3 ((0,0,0),(0,0,0)) false 3 None bump_map 4 plain_items = Ok (lo, hi) /\
  good_xmap Hex bump_map /\ represents_G Hex bump_map bump_G /\ in_ref3 Hex (0, 0, 1) /\ comp hi 2 < bump_G (0, 0, 1) 2.
Proof.
  destruct (write_ok Hex bump_map bump_good) as (d & Ew & _).
  destruct (bump_box ((0,0,0),(0,0,0)) 4 d Ew ltac:(lia) ltac:(cbn [INR]; lra)) as (lo & hi & E & [_ (e & Fe & Ee)]). exists lo, hi. split; auto.
  split; [apply bump_good|]. split; [apply bump_represents|]. split; [cbn; lra|].
  pose proof (bump_grid (next_multiple 12 4) e ltac:(cbn; lia) eq_refl Fe) as Q. cbn [bump_G comp] in *. rewrite <- Ee.
  assert (0 < 1 / (2 * (INR (next_multiple 12 4 - 1) * INR (next_multiple 12 4 - 1)))).
  { assert (0 < INR (next_multiple 12 4 - 1)) by (apply lt_0_INR; cbn; lia). apply Rdiv_lt_0_compat; [lra|]. nra. }
  lra.
Qed.
Print Assumptions C86_curved_refuted.
(** C86 refuted: the box of a curved element depends on the work group size of the device. *)
Theorem C86_device_refuted : exists b b', get_bounding_box 3 ((0,0,0),(0,0,0)) false 3 None bump_map 4 plain_items = Ok b /\
  get_bounding_box 3 ((0,0,0),(0,0,0)) false 3 None bump_map 16 plain_items = Ok b' /\ comp (snd b) 2 < comp (snd b') 2.
Proof.
  destruct (write_ok Hex bump_map bump_good) as (d & Ew & _).
  destruct (bump_box ((0,0,0),(0,0,0)) 4 d Ew ltac:(lia) ltac:(cbn [INR]; lra)) as (lo & hi & E & [_ (e & Fe & Ee)]).
  destruct (bump_box ((0,0,0),(0,0,0)) 16 d Ew ltac:(lia) ltac:(cbn [INR]; lra)) as (lo' & hi' & E' & [Le _]).
  exists (lo, hi), (lo', hi'). split; auto. split; auto. cbn [snd].
  pose proof (bump_grid (next_multiple 12 4) e ltac:(cbn; lia) eq_refl Fe) as Q. rewrite Ee in Q.
  change (next_multiple 12 4 - 1)%nat with 11%nat in Q. change (next_multiple 12 16) with 16%nat in Le.
  assert (Fe' : face_grid 16 (1 / 15, 1, 1)).
  { exists 2%nat. split; [lia|]. split; [right; reflexivity|]. intros [|[|[|b]]] Hb Hn; try lia; cbn [comp]; change (16 - 1)%nat with 15%nat.
    - exists 8%nat. split; [lia|]. cbn [INR]. field.
    - exists 15%nat. split; [lia|]. field. apply not_0_INR. lia. }
  pose proof (Le _ Fe') as Q'. cbn [bump_G comp] in Q'. cbn [INR] in Q. lra.
Qed.
Print Assumptions C86_device_refuted.
(** Non-vacuity of C86_boundary_covered: with the default store the curved element above is inside its box. *)
Lemma bump_lipschitz e e' h : on_cube_face e -> on_cube_face e' -> (forall b, (b < 3)%nat -> Rabs (comp e b - comp e' b) <= h) ->
  Rabs (bump_G (to_loc3 Hex e) 2 - bump_G (to_loc3 Hex e') 2) <= 2 * h.
Proof.
  intros [C _] [C' _] H. change (to_loc3 Hex e) with e. change (to_loc3 Hex e') with e'. destruct e as [[x y] z], e' as [[x' y'] z'].
  pose proof (H 0%nat ltac:(lia)) as H0. pose proof (H 2%nat ltac:(lia)) as H2. cbn [comp] in H0, H2. unfold in_cube3 in *. cbn [fst snd] in *. cbn [bump_G comp].
  replace (z + (1 - x * x) / 2 - (z' + (1 - x' * x') / 2)) with ((z - z') + - ((x + x') / 2) * (x - x')) by field.
  eapply Rle_trans; [apply Rabs_triang|]. rewrite Rabs_mult. rewrite Rabs_Ropp.
  assert (Rabs ((x + x') / 2) <= 1) by (apply Rabs_le; lra).
  assert (Rabs ((x + x') / 2) * Rabs (x - x') <= 1 * h) by (apply Rmult_le_compat; auto using Rabs_pos). lra.
Qed.
Example C86_boundary_nonvacuous : exists d lo hi, g3_write bump_map = Ok d /\ xmap_bounding_box d 12 (5 / 100) 1 (plain_items 12) = Some (lo, hi) /\
  forall xi, in_ref3 Hex xi -> comp lo 2 <= bump_G xi 2 <= comp hi 2.
Proof.
  destruct (write_ok Hex bump_map bump_good) as (d & Ew & _). exists d.
  destruct (C86_boundary_covered Hex bump_map d bump_G 12 (5 / 100) 1 (plain_items 12) 2 2%nat bump_good Ew bump_represents bump_range ltac:(lia) ltac:(cbn [INR]; lra) (plain_all 12) ltac:(lia) bump_lipschitz)
    as (lo & hi & m & M & E & [A1 (e1 & B1 & C1)] & [A2 _] & H).
  exists lo, hi. split; auto. split; auto. apply H.
  - change (12 - 1)%nat with 11%nat. pose proof (A2 e1 B1) as Q. cbv beta in Q, C1. cbn [INR]. lra.
  - intros [[x y] z] (Hx & Hy & Hz). exists (x, y, -1), (x, y, 1).
    split; [split; [unfold in_cube3; cbn; lra|exists 2%nat; split; [lia|left; reflexivity]]|].
    split; [split; [unfold in_cube3; cbn; lra|exists 2%nat; split; [lia|right; reflexivity]]|].
    change (to_loc3 Hex (x, y, -1)) with (x, y, -1). change (to_loc3 Hex (x, y, 1)) with (x, y, 1). cbn [bump_G comp]. lra.
Qed.
(** Non-vacuity of C86_linear: a tetrahedron with vertices (0,0,0), (4,0,0), (0,1,0), (0,-1,2) on two points per direction,
    one of them not the end of the interval. *)
Definition tet_c (i a : nat) : R := comp (nth i [(0,0,0); (4,0,0); (0,1,0); (0,-1,2)] (0,0,0)) a.
Definition tet_map : xmap := {| xm_base := [([-1; 1], [-1; 1]); ([-1; 0], [-1; 1]); ([-1; 0], [-1; 1])]; xm_tot := 8;
  xm_phys := fun a => flat_map (fun z => flat_map (fun y => map (fun x => Xmap ETet tet_c (to_loc3 Tet (x, y, z)) a) [-1; 1]) [-1; 0]) [-1; 0];
  xm_deriv := fun v _ => v; xm_scale := (1, 1, 1); xm_shape := 5 |}.
Example C86_linear_nonvacuous : exists lo hi, get_bounding_box 3 ((0,0,0),(0,0,0)) true 2 None tet_map 8 plain_items = Ok (lo, hi) /\
  comp lo 0 = 0 /\ comp hi 0 = 4 /\ comp lo 1 = -1 /\ comp hi 1 = 1 /\ comp lo 2 = 0 /\ comp hi 2 = 2.
Proof.
  assert (Hg : good_xmap Tet tet_map).
  { split; [reflexivity|]. split; [reflexivity|]. split; [reflexivity|]. intros a Ha.
    assert (C : exists q, q <> -1 /\ npts tet_map a = 2%nat /\ node tet_map a 0 = -1 /\ node tet_map a 1 = q /\ wts tet_map a = [-1; 1])
      by (destruct a as [|[|[|a]]]; try lia; [exists 1|exists 0|exists 0]; (split; [intros ?; lra|repeat split; reflexivity])).
    destruct C as (q & Nq & -> & N0 & N1 & ->). split; [lia|]. split; [reflexivity|]. split.
    - intros [|[|i]] [|[|j]] Hi Hj E; try lia; auto; rewrite N0, N1 in E; exfalso; apply Nq; auto.
    - exists (q + 1). split; [lra|]. intros [|[|i]] Hi; try lia; cbn [prodn Nat.eqb nth]; rewrite N0, N1; field; try (intros ?; apply Nq; lra). }
  pose proof DBL_MAX_ge_1 as D. pose proof dbl_max_4 as D4.
  destruct (C86_linear ETet tet_c tet_map ((0,0,0),(0,0,0)) 2 None 8 plain_items) as (lo & hi & E & H); auto.
  - discriminate.
  - intros a Ha. destruct a as [|[|[|a]]]; try lia; cbn; lia.
  - intros a Ha i0 i1 i2. change (npts tet_map 0) with 2%nat. change (npts tet_map 1) with 2%nat. change (npts tet_map 2) with 2%nat. intros H0 H1 H2.
    unfold nodal. change (npts tet_map 0 * npts tet_map 1)%nat with 4%nat. change (npts tet_map 0) with 2%nat.
    destruct i0 as [|[|i0]], i1 as [|[|i1]], i2 as [|[|i2]]; try lia; reflexivity.
  - intros i a Hi Ha. cbn [nverts] in Hi. apply Rabs_le. destruct i as [|[|[|[|i]]]]; try lia; destruct a as [|[|[|a]]]; try lia; unfold tet_c; cbn [nth comp]; lra.
  - lia.
  - cbn [INR]. lra.
  - apply plain_all.
  - lra.
  - lra.
  - exists lo, hi. split; auto.
    assert (K : forall a, (a < 3)%nat -> exists m M, least (fun i => (i < 4)%nat) (fun i => tet_c i a) m /\ largest (fun i => (i < 4)%nat) (fun i => tet_c i a) M /\ comp lo a = m /\ comp hi a = M).
    { intros a La. destruct (H a La) as (m & M & A & B & L & U & _). exists m, M. split; auto. split; auto. split; [rewrite L|rewrite U]; ring. }
    clear H.
    assert (V : forall a v w, (a < 3)%nat -> (forall i, (i < 4)%nat -> v <= tet_c i a <= w) -> (exists i, (i < 4)%nat /\ tet_c i a = v) -> (exists i, (i < 4)%nat /\ tet_c i a = w) -> comp lo a = v /\ comp hi a = w).
    { intros a v w La Hb (i & Hi & Ei) (j & Hj & Ej). destruct (K a La) as (m & M & [A (i' & Hi' & Ei')] & [B (j' & Hj' & Ej')] & -> & ->).
      pose proof (A i Hi). pose proof (B j Hj). pose proof (Hb i' Hi'). pose proof (Hb j' Hj'). cbv beta in *. split; lra. }
    destruct (V 0%nat 0 4 ltac:(lia)) as [-> ->]; [intros [|[|[|[|i]]]] Hi; try lia; unfold tet_c; cbn [nth comp]; lra|exists 0%nat; split; [lia|reflexivity]|exists 1%nat; split; [lia|reflexivity]|].
    destruct (V 1%nat (-1) 1 ltac:(lia)) as [-> ->]; [intros [|[|[|[|i]]]] Hi; try lia; unfold tet_c; cbn [nth comp]; lra|exists 3%nat; split; [lia|reflexivity]|exists 2%nat; split; [lia|reflexivity]|].
    destruct (V 2%nat 0 2 ltac:(lia)) as [-> ->]; [intros [|[|[|[|i]]]] Hi; try lia; unfold tet_c; cbn [nth comp]; lra|exists 0%nat; split; [lia|reflexivity]|exists 3%nat; split; [lia|reflexivity]|].
    repeat split; reflexivity.
Qed.
