From Verif Require Import M_LinePlane S_LinePlane L_RealBase.

Ltac v3r := repeat match goal with v : v3 |- _ => destruct v end; unfold in_plane, parallel, dist2, dist2_centre, dot, cross, vsub, along in *; cbn [vx vy vz] in *.
Lemma v3_eq a b : vx a = vx b -> vy a = vy b -> vz a = vz b -> a = b.
Proof. destruct a, b; simpl; congruence. Qed.
Lemma dot_nonneg a : 0 <= dot a a.
Proof. v3r. nra. Qed.
Lemma dot_zero a : dot a a = 0 -> a = mkV3 0 0 0.
Proof.
  destruct a as [x y z]. unfold dot. cbn [vx vy vz]. intros H.
  assert (x = 0) by nra. assert (y = 0) by nra. assert (z = 0) by nra. subst. reflexivity.
Qed.
Lemma sqrt_unit s : s <> 0 -> 0 <= s -> s * (1 / sqrt s) * (1 / sqrt s) = 1.
Proof.
  intros H H0. assert (Hs : 0 < sqrt s) by (apply sqrt_lt_R0; lra). pose proof (sqrt_sqrt s H0). 
  field_simplify; [|lra]. apply (Rmult_eq_reg_r (sqrt s * sqrt s)); [|nra]. rewrite pow2_sqrt by auto. field_simplify; [|lra]. lra.
Qed.
(** ** normals *)
Lemma normal_1d_spec curved a b n : normal_1d curved a b = Some n ->
  curved = false /\ a <> b /\ fst n * fst n + snd n * snd n = 1 /\ fst n * (fst b - fst a) + snd n * (snd b - snd a) = 0.
Proof.
  unfold normal_1d. cbv zeta. destruct curved; [discriminate|]. case Req_bool_spec; intros Hs; [discriminate|]. intros [= <-]. cbn [fst snd].
  split; auto. split; [intros ->; apply Hs; ring|]. assert (H0 : 0 <= - (snd b - snd a) * - (snd b - snd a) + (fst b - fst a) * (fst b - fst a)) by (clear; apply Rplus_le_le_0_compat; [apply Rle_0_sqr|apply Rle_0_sqr]).
  set (s := - (snd b - snd a) * - (snd b - snd a) + (fst b - fst a) * (fst b - fst a)) in *.
  split; [|ring]. pose proof (sqrt_unit s Hs H0) as H. set (k := 1 / sqrt s) in *. rewrite <- H. unfold s. ring.
Qed.
Lemma normal_1d_total a b : a <> b -> exists n, normal_1d false a b = Some n.
Proof.
  intros H. unfold normal_1d. case Req_bool_spec; intros Hs; [|eauto]. exfalso. apply H. destruct a as [x y], b as [x' y']. cbv zeta in *. cbn [fst snd] in *.
  assert (- (y' - y) = 0 /\ x' - x = 0) as [? ?] by (apply Rplus_sqr_eq_0; exact Hs). f_equal; lra.
Qed.
Lemma normal_2d_inv curved verts n : normal_2d curved verts = Some n -> exists v0 v1 rest, verts = v0 :: v1 :: rest /\ curved = false /\
  let nt := cross (vsub v1 v0) (vsub (last verts v0) v0) in dot nt nt <> 0 /\
  exists s, 0 < s /\ s * s * dot nt nt = 1 /\ n = mkV3 (vx nt * s) (vy nt * s) (vz nt * s).
Proof.
  unfold normal_2d. cbv zeta. destruct curved; [discriminate|]. destruct verts as [|v0 [|v1 rest]]; try discriminate.
  set (nt := cross _ _). case Req_bool_spec; intros Hs; [discriminate|]. intros [= <-]. exists v0, v1, rest. split; auto. split; auto. cbn zeta. fold nt. split; [exact Hs|].
  exists (1 / sqrt (dot nt nt)). pose proof (dot_nonneg nt) as H0. assert (0 < sqrt (dot nt nt)) by (apply sqrt_lt_R0; lra). split.
  - unfold Rdiv. rewrite Rmult_1_l. now apply Rinv_0_lt_compat.
  - split; auto. pose proof (sqrt_unit (dot nt nt) Hs H0). lra.
Qed.
Lemma cross_orth_l a b : dot (cross a b) a = 0.
Proof. v3r. ring. Qed.
Lemma cross_orth_r a b : dot (cross a b) b = 0.
Proof. v3r. ring. Qed.
Lemma dot_scale nt s x : dot (mkV3 (vx nt * s) (vy nt * s) (vz nt * s)) x = s * dot nt x.
Proof. v3r. ring. Qed.
Lemma dot_comm a b : dot a b = dot b a.
Proof. v3r. ring. Qed.
Lemma normal_2d_spec curved verts n : normal_2d curved verts = Some n ->
  dot n n = 1 /\ exists v0 v1, nth_error verts 0 = Some v0 /\ nth_error verts 1 = Some v1 /\
    dot n (vsub v1 v0) = 0 /\ dot n (vsub (last verts v0) v0) = 0.
Proof.
  intros H. apply normal_2d_inv in H as (v0 & v1 & rest & -> & _ & H). cbn zeta in H. destruct H as (_ & s & Hs & Hu & ->). split.
  - rewrite dot_scale, dot_comm, dot_scale. lra.
  - exists v0, v1. split; auto. split; auto. rewrite !dot_scale, cross_orth_l, cross_orth_r. lra.
Qed.
Lemma triple_identity m x nt : dot m m * dot x nt = dot m x * dot m nt + dot (cross m x) (cross m nt).
Proof. v3r. ring. Qed.
Lemma cross_cross m a b : dot a m = 0 -> dot b m = 0 -> cross m (cross a b) = mkV3 0 0 0.
Proof.
  intros Ha Hb. assert (E : cross m (cross a b) = mkV3 (vx a * dot b m - vx b * dot a m) (vy a * dot b m - vy b * dot a m) (vz a * dot b m - vz b * dot a m)).
  { v3r. f_equal; ring. }
  rewrite E, Ha, Hb. f_equal; ring.
Qed.
(** a planar element: the normal is orthogonal to all differences of vertices *)
Lemma planar_orth curved verts n : normal_2d curved verts = Some n -> planar verts ->
  forall a b, In a verts -> In b verts -> dot (vsub b a) n = 0.
Proof.
  intros H (p & m & Hm & Hp) a b Ha Hb. apply normal_2d_inv in H as (v0 & v1 & rest & Ev & _ & H). cbn zeta in H. destruct H as (Hn & s & Hs & Hu & ->).
  set (v2 := last verts v0) in *. assert (H2 : In v2 verts).
  { unfold v2. rewrite Ev. destruct (exists_last (l := v0 :: v1 :: rest) ltac:(discriminate)) as (l & x & ->). rewrite last_last. apply in_app_iff. simpl. auto. }
  assert (H0 : In v0 verts) by (rewrite Ev; simpl; auto). assert (H1 : In v1 verts) by (rewrite Ev; simpl; auto).
  rewrite Forall_forall in Hp. assert (Hd : forall x y, In x verts -> In y verts -> dot (vsub y x) m = 0).
  { intros x y Hx Hy. pose proof (Hp x Hx) as A. pose proof (Hp y Hy) as B. clear -A B. v3r. lra. }
  rewrite dot_comm, dot_scale. set (nt := cross _ _) in *.
  assert (Hc : cross m nt = mkV3 0 0 0) by (apply cross_cross; apply Hd; auto).
  pose proof (triple_identity m (vsub b a) nt) as T. rewrite Hc, (dot_comm m (vsub b a)), (Hd a b Ha Hb) in T.
  assert (Hz : dot (cross m (vsub b a)) (mkV3 0 0 0) = 0) by (unfold dot; cbn [vx vy vz]; ring). rewrite Hz in T.
  assert (Hmm : dot m m <> 0) by (intros E; apply Hm; now apply dot_zero).
  assert (Hz2 : dot (vsub b a) nt = 0) by (apply (Rmult_eq_reg_l (dot m m)); [rewrite T; ring|exact Hmm]). rewrite (dot_comm nt (vsub b a)), Hz2. ring.
Qed.
(** ** the average *)
Lemma avg_fold verts : forall s, let r := fold_left (fun s v => mkV3 (vx s + vx v) (vy s + vy v) (vz s + vz v)) verts s in
  let w := wsum (map (fun v => (1, v)) verts) in vx r = vx s + vx w /\ vy r = vy s + vy w /\ vz r = vz s + vz w.
Proof.
  induction verts as [|v verts IH]; intros s; cbn zeta in *; cbn [fold_left map wsum].
  - cbn [vx vy vz]. lra.
  - match goal with |- context [fold_left _ verts ?s'] => destruct (IH s') as (A & B & C) end. cbn [vx vy vz] in *. lra.
Qed.
Lemma wsum_in_plane p n wv : (forall w v, In (w, v) wv -> in_plane p n v) -> dot (wsum wv) n = wtotal wv * dot p n.
Proof.
  induction wv as [|[w v] wv IH]; intros H; cbn [wsum wtotal]; [v3r; ring|].
  assert (Hv : in_plane p n v) by (eapply H; simpl; eauto). assert (I : dot (wsum wv) n = wtotal wv * dot p n) by (apply IH; intros; eapply H; simpl; eauto).
  set (s := wsum wv) in *. clearbody s. set (t := wtotal wv) in *. clearbody t. clear -Hv I.
  assert (E : dot v n = dot p n) by (clear I; v3r; lra).
  assert (D : dot {| vx := w * vx v + vx s; vy := w * vy v + vy s; vz := w * vz v + vz s |} n = w * dot v n + dot s n) by (unfold dot; cbn [vx vy vz]; ring).
  rewrite D, I, E. ring.
Qed.
Lemma wtotal_ones (verts : list v3) : wtotal (map (fun v => (1, v)) verts) = INR (length verts).
Proof. induction verts as [|v verts IH]; [reflexivity|]. cbn [map wtotal length]. rewrite IH, S_INR. lra. Qed.
Lemma average_in_plane p n verts : verts <> [] -> (forall v, In v verts -> in_plane p n v) -> in_plane p n (vertex_average verts).
Proof.
  intros Hne H. unfold in_plane, vertex_average. destruct (avg_fold verts (mkV3 0 0 0)) as (A & B & C). cbn zeta in *.
  set (s := fold_left _ verts _) in *. clearbody s. cbn [vx vy vz] in *.
  pose proof (wsum_in_plane p n (map (fun v => (1, v)) verts)) as W. rewrite wtotal_ones in W.
  set (w := wsum _) in *. clearbody w. assert (Hn : 0 < INR (length verts)) by (apply lt_0_INR; destruct verts; [congruence|simpl; lia]).
  assert (W' : dot w n = INR (length verts) * dot p n).
  { apply W. intros x v Hi. apply in_map_iff in Hi as (v' & [= <- <-] & Hi). auto. }
  set (k := INR (length verts)) in *. clearbody k. clear W H Hne. unfold dot, vsub in *. cbn [vx vy vz] in *. rewrite A, B, C, !Rplus_0_l.
  apply (Rmult_eq_reg_l k); [|lra]. rewrite Rmult_0_r. field_simplify; [|lra]. lra.
Qed.
(** ** the near filter *)
Lemma ball_convex c R2 wv : (forall w v, In (w, v) wv -> 0 <= w /\ dist2 v c <= R2) -> 0 <= R2 ->
  0 <= wtotal wv /\
  let x := wsum wv in let S := wtotal wv in
  (vx x - S * vx c) ^ 2 + (vy x - S * vy c) ^ 2 + (vz x - S * vz c) ^ 2 <= S ^ 2 * R2.
Proof.
  intros H HR. induction wv as [|[w v] wv IH]; cbn [wsum wtotal]; cbn zeta in *; [cbn [vx vy vz]; split; [lra|nra]|].
  destruct (H w v ltac:(simpl; auto)) as [Hw Hv]. destruct IH as [H0 I]; [intros; eapply H; simpl; eauto|].
  cbn [vx vy vz]. set (s := wsum wv) in *. clearbody s. set (t := wtotal wv) in *. clearbody t. clear H. split; [lra|].
  unfold dist2, dot, vsub in Hv. cbn [vx vy vz] in Hv.
  replace (w * vx v + vx s - (w + t) * vx c) with ((vx s - t * vx c) + w * (vx v - vx c)) by ring.
  replace (w * vy v + vy s - (w + t) * vy c) with ((vy s - t * vy c) + w * (vy v - vy c)) by ring.
  replace (w * vz v + vz s - (w + t) * vz c) with ((vz s - t * vz c) + w * (vz v - vz c)) by ring.
  set (a0 := vx s - t * vx c) in *. set (a1 := vy s - t * vy c) in *. set (a2 := vz s - t * vz c) in *.
  set (b0 := vx v - vx c) in *. set (b1 := vy v - vy c) in *. set (b2 := vz v - vz c) in *. clearbody a0 a1 a2 b0 b1 b2. clear s v c.
  assert (Hab : a0 * b0 + a1 * b1 + a2 * b2 <= t * R2).
  { destruct (Req_dec t 0) as [->|Ht].
    - assert (Z0 : a0 * a0 + a1 * a1 + a2 * a2 <= 0) by (clear -I; lra). clear -Z0.
      assert (a0 = 0) by nra. assert (a1 = 0) by nra. assert (a2 = 0) by nra. subst. lra.
    - assert (0 < t) by lra. assert (K : 2 * t * (a0 * b0 + a1 * b1 + a2 * b2) <= 2 * t * (t * R2)).
      { pose proof (pow2_ge_0 (t * b0 - a0)). pose proof (pow2_ge_0 (t * b1 - a1)). pose proof (pow2_ge_0 (t * b2 - a2)).
        assert (t ^ 2 * (b0 * b0 + b1 * b1 + b2 * b2) <= t ^ 2 * R2) by (apply Rmult_le_compat_l; nra). nra. }
      apply (Rmult_le_reg_l (2 * t)); lra. }
  assert (w * (a0 * b0 + a1 * b1 + a2 * b2) <= w * (t * R2)) by (apply Rmult_le_compat_l; auto).
  assert (w ^ 2 * (b0 * b0 + b1 * b1 + b2 * b2) <= w ^ 2 * R2) by (apply Rmult_le_compat_l; nra). nra.
Qed.
Lemma radius_fold c verts : forall r, 0 <= r -> let x := fold_left (fun r v => fmax r (dist2_centre c v)) verts r in
  r <= x /\ (forall v, In v verts -> dist2_centre c v <= x) /\ (x = r \/ exists v, In v verts /\ x = dist2_centre c v).
Proof.
  induction verts as [|v verts IH]; intros r Hr; cbn zeta in *; cbn [fold_left].
  - split; [lra|]. split; [intros ? []|auto].
  - assert (Hf : r <= fmax r (dist2_centre c v) /\ dist2_centre c v <= fmax r (dist2_centre c v) /\ (fmax r (dist2_centre c v) = r \/ fmax r (dist2_centre c v) = dist2_centre c v)).
    { unfold fmax. case Rlt_bool_spec; intros; lra. }
    destruct Hf as (F1 & F2 & F3). destruct (IH (fmax r (dist2_centre c v)) ltac:(lra)) as (A & B & C). split; [lra|]. split.
    + intros x [<-|Hx]; [lra|auto].
    + destruct C as [->|(x & Hx & ->)]; [|right; exists x; simpl; auto]. destruct F3 as [->| ->]; auto. right. exists v. simpl. auto.
Qed.
Lemma dist2_sym c v : dist2_centre c v = dist2 v c.
Proof. v3r. ring. Qed.
Lemma near_convex curved verts l x : lpi_make curved verts = Some l -> convex_combination verts x -> point_near l x = true.
Proof.
  unfold lpi_make. destruct (normal_2d curved verts) as [n|]; [|discriminate]. intros [= <-] (ws & Hl & Hw & Ht & ->).
  unfold point_near. cbn [lp_point lp_radius2]. apply Rle_bool_true. set (c := vertex_average verts).
  destruct (radius_fold c verts 0 ltac:(lra)) as (R0 & R1 & _). set (r := fold_left _ verts 0) in *.
  destruct (ball_convex c r (combine ws verts)) as [_ B]; [|lra|].
  - intros w v Hi. split; [|rewrite <- dist2_sym; apply R1; eapply in_combine_r; eauto]. apply in_combine_l in Hi. rewrite Forall_forall in Hw. auto.
  - cbn zeta in B. rewrite Ht in B. unfold dist2_centre. nra.
Qed.
(** ** the plane test *)
Lemma plane_hit_spec l a b : let (h, i) := plane_hit l a b in
  (h = true <-> exists x, on_segment a b x /\ in_plane (lp_point l) (lp_normal l) x) /\
  (h = true -> on_segment a b i /\ in_plane (lp_point l) (lp_normal l) i) /\
  (h = true -> ~ parallel (lp_normal l) a b -> forall x, on_segment a b x -> in_plane (lp_point l) (lp_normal l) x -> x = i) /\
  (h = true -> parallel (lp_normal l) a b -> i = a).
Proof.
  destruct l as [p n r2]. unfold plane_hit. cbn [lp_point lp_normal]. set (D := dot (vsub b a) n). set (P := dot (vsub p a) n).
  assert (HX : forall t, dot (vsub (along a b t) p) n = t * D - P) by (intros; unfold D, P; v3r; ring).
  assert (Hdir : forall d, mkV3 (vx a + d * vx (vsub b a)) (vy a + d * vy (vsub b a)) (vz a + d * vz (vsub b a)) = along a b d) by reflexivity.
  rewrite Hdir. unfold parallel, in_plane, on_segment. fold D.
  assert (A0 : along a b 0 = a) by (apply v3_eq; unfold along; cbn [vx vy vz]; ring).
  case Req_bool_spec; intros HD.
  - case Req_bool_spec; intros HP; cbn [andb negb orb].
    + assert (E1 : Rlt_bool 0 0 = false) by (apply Rlt_bool_false; lra). assert (E2 : Rlt_bool 1 0 = false) by (apply Rlt_bool_false; lra). rewrite E1, E2. cbn [orb].
      assert (S0 : (exists t, 0 <= t <= 1 /\ along a b 0 = along a b t) /\ dot (vsub (along a b 0) p) n = 0) by (split; [exists 0; split; [lra|auto]|rewrite HX; lra]).
      split; [split; auto; intros _; exists (along a b 0); exact S0|]. split; [auto|]. split; [intros _ H; now rewrite HD in H|auto].
    + split; [|repeat split; discriminate]. split; [discriminate|]. intros (x & (t & _ & ->) & Hx). rewrite HX in Hx. exfalso. apply HP. rewrite HD in Hx. lra.
  - cbn [andb orb]. set (d := P / D). assert (Hd : d * D = P) by (unfold d; field; auto).
    assert (Hu : forall t, t * D - P = 0 -> t = d) by (intros t Ht; apply (Rmult_eq_reg_r D); auto; lra).
    case Rlt_bool_spec; intros H1; [|case Rlt_bool_spec; intros H2]; cbn [orb].
    + split; [|repeat split; discriminate]. split; [discriminate|]. intros (x & (t & Ht & ->) & Hx). rewrite HX in Hx. apply Hu in Hx. lra.
    + split; [|repeat split; discriminate]. split; [discriminate|]. intros (x & (t & Ht & ->) & Hx). rewrite HX in Hx. apply Hu in Hx. lra.
    + assert (S0 : (exists t, 0 <= t <= 1 /\ along a b d = along a b t) /\ dot (vsub (along a b d) p) n = 0) by (split; [exists d; split; [lra|auto]|rewrite HX; lra]).
      split; [split; auto; intros _; exists (along a b d); exact S0|]. split; [auto|]. split; [|intros _ H; lra].
      intros _ _ x (t & _ & ->) Hx. rewrite HX in Hx. now rewrite (Hu t Hx).
Qed.
(** every point of a planar element is in its plane *)
Lemma element_in_plane curved verts l x : lpi_make curved verts = Some l -> planar verts -> convex_combination verts x ->
  in_plane (lp_point l) (lp_normal l) x.
Proof.
  unfold lpi_make. destruct (normal_2d curved verts) as [n|] eqn:E; [|discriminate]. intros [= <-] Hp (ws & Hl & Hw & Ht & ->). cbn [lp_point lp_normal].
  pose proof (planar_orth curved verts n E Hp) as Ho. destruct verts as [|v0 verts']; [destruct curved; discriminate E|]. set (verts := v0 :: verts') in *.
  assert (H0 : forall v, In v verts -> in_plane v0 n v) by (intros v Hv; apply Ho; simpl; auto).
  pose proof (average_in_plane v0 n verts ltac:(discriminate) H0) as Ha. set (c := vertex_average verts) in *.
  pose proof (wsum_in_plane v0 n (combine ws verts)) as W. rewrite Ht in W. unfold in_plane in *.
  assert (Hww : dot (wsum (combine ws verts)) n = 1 * dot v0 n) by (apply W; intros; apply H0; eapply in_combine_r; eauto).
  clearbody c. set (x := wsum _) in *. clearbody x. clear - Ha Hww. v3r. lra.
Qed.
Lemma element_hit curved verts l a b x : lpi_make curved verts = Some l -> planar verts -> convex_combination verts x ->
  on_segment a b x -> ~ parallel (lp_normal l) a b -> plane_hit l a b = (true, x) /\ point_near l x = true.
Proof.
  intros Hl Hp Hx Hs Hn. split; [|eapply near_convex; eauto]. pose proof (element_in_plane _ _ _ _ Hl Hp Hx) as Hin.
  pose proof (plane_hit_spec l a b) as H. destruct (plane_hit l a b) as [h i]. destruct H as (H1 & H2 & H3 & _).
  assert (h = true) as -> by (apply H1; eauto). f_equal. symmetry. apply H3; auto.
Qed.
