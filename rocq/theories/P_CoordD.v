(** C112: collapsed coordinates in double precision. *)
From Flocq Require Import Core.
From Verif Require Import M_RealBase L_RealBase M_Grid M_Double S_Double L_Double L_Double2 M_BorisD M_Coord S_Coord L_Coord M_CoordD S_CoordD L_CoordD P_Double.
From Coq Require Import Reals Lra Lia ZArith.
Open Scope R_scope.

Lemma big_ok x : Rabs x <= 16 -> Rabs x < bpow radix2 1024.
Proof. intros H. apply Rle_lt_trans with (bpow radix2 4); [cbn; lra|apply bpow_lt; lia]. Qed.
Lemma rnd2 y : 0 <= y <= 2 -> Rabs (rnd y) <= 5 / 2.
Proof. intros H. rewrite Rabs_pos_eq; [|apply rnd_abs; lra]. apply Rle_trans with 2; [apply rnd_le; [apply fmt_small_Z; lia|lra]|lra]. Qed.
Lemma shape3_dec (s : shape3) : {s = Tet} + {s <> Tet}.
Proof. destruct s; [left; reflexivity|right; discriminate..]. Qed.
Lemma dbl_opp x : is_double x -> is_double (- x).
Proof. intros H. apply is_double_fmt in H as [F B]. apply is_double_fmt. split; [apply generic_format_opp; auto|rewrite Rabs_Ropp; auto]. Qed.
Lemma self r : Rabs (r - r) = 0.
Proof. rewrite Rminus_diag_eq by reflexivity. apply Rabs_R0. Qed.
(** A point of the reference element goes to the cube, exactly, and comes back within a few roundings; near the collapsed edge within the
    guard's tolerance. *)
Theorem C112_round_trip_3d (f : bool) (s : shape3) (xi : pt3) : doubles3 xi -> in_ref3 s xi ->
  exists eta xi', to_collapsed3_d s xi = Some eta /\ doubles3 eta /\ in_cube3 eta /\ to_loc3_d f s eta = Some xi' /\ doubles3 xi' /\
    close3 (2 * kNekZeroTol + 64 * unit_roundoff) xi' xi /\ (away3 s (2 * kNekZeroTol) xi -> close3 (64 * unit_roundoff) xi' xi).
Proof.
  destruct xi as [[x0 x1] x2]. intros (D0 & D1 & D2) HR. cbn [fst snd] in *. rewrite u_eq. pose proof u_pos as u0. pose proof u_small as us. pose proof tol_pos as k0.
  unfold doubles3, in_cube3, close3. destruct s; cbn [in_ref3 to_collapsed3_d to_loc3_d away3] in *.
  - destruct HR as (R0 & R1 & R2 & R3). unfold tet_to_collapsed_d.
    rewrite (fl4 (1 - x2)) by (apply Rabs_le; lra). rewrite (fl4 (- x1 - x2)) by (apply Rabs_le; lra). cbn [bind].
    destruct (coll f x1 (1 - x2) (rnd (1 - x2))) as (e1 & x1' & E1 & De1 & He1 & U1 & Dx1 & B1); [auto|lra|lra|apply rnd2; lra|]. rewrite self in B1.
    pose proof (gap_tol (1 - x2)) as G2. pose proof (gap_tol (- x1 - x2)) as G12. assert (KT : kNekZeroTol <= / 1000) by (rewrite ktol_val; lra). apply Rabs_le_inv in B1.
    assert (Y' : Rabs (- x1' - x2) <= 2 + / 100) by (apply Rabs_le; lra).
    assert (N1 : Rabs (rnd (- x1' - x2) - (- x1' - x2)) <= u * 3 + u / 1000000) by (apply ar; lra).
    assert (N2 : Rabs (rnd (- x1 - x2) - (- x1 - x2)) <= u * 3 + u / 1000000) by (apply ar; apply Rabs_le; lra).
    apply Rabs_le_inv in N1. apply Rabs_le_inv in N2.
    destruct (coll f x0 (- x1 - x2) (rnd (- x1' - x2))) as (e0 & x0' & E0 & De0 & He0 & U0 & Dx0 & B0); [auto|lra|lra| |].
    { apply Rabs_le_inv in Y'. apply Rabs_le. lra. }
    assert (BD : Rabs (rnd (- x1' - x2) - rnd (- x1 - x2)) <= 33 * u + gap (1 - x2)) by (apply Rabs_le; lra).
    rewrite E0, E1. cbn [bind]. exists (e0, e1, x2), (x0', x1', x2). split; [auto|]. split; [auto|]. split; [cbn [fst snd]; lra|]. unfold tet_to_loc_d.
    rewrite (fl4 (1 - x2)) by (apply Rabs_le; lra). cbn [bind]. rewrite U1. cbn [bind]. rewrite (fl4 (- x1' - x2)) by lra. cbn [bind]. rewrite U0. cbn [bind fst snd].
    split; [auto|]. split; [auto|]. rewrite self. split.
    + split; [lra|]. split; [apply Rabs_le; lra|lra].
    + intros [A1 A2]. rewrite (gap_away (1 - x2)) in * by lra. rewrite (gap_away (- x1 - x2)) in * by lra. split; [lra|]. split; [apply Rabs_le; lra|lra].
  - destruct HR as (R0 & R1 & R2 & R3 & R4). unfold pyr_to_collapsed_d, pyr_to_loc_d. rewrite (fl4 (1 - x2)) by (apply Rabs_le; lra). cbn [bind].
    destruct (coll f x1 (1 - x2) (rnd (1 - x2))) as (e1 & x1' & E1 & De1 & He1 & U1 & Dx1 & B1); [auto|lra|lra|apply rnd2; lra|]. rewrite self in B1.
    destruct (coll f x0 (1 - x2) (rnd (1 - x2))) as (e0 & x0' & E0 & De0 & He0 & U0 & Dx0 & B0); [auto|lra|lra|apply rnd2; lra|]. rewrite self in B0.
    pose proof (gap_tol (1 - x2)) as G2. rewrite E1. cbn [bind]. rewrite E0. cbn [bind]. exists (e0, e1, x2), (x0', x1', x2). split; [auto|]. split; [auto|]. split; [cbn [fst snd]; lra|].
    rewrite (fl4 (1 - x2)) by (apply Rabs_le; lra). cbn [bind]. rewrite U0. cbn [bind]. rewrite U1. cbn [bind fst snd]. split; [auto|]. split; [auto|]. rewrite self. split; [lra|].
    intros A. rewrite (gap_away (1 - x2)) in * by lra. lra.
  - destruct HR as (R0 & R1 & R2 & R3). unfold prism_to_collapsed_d, prism_to_loc_d. rewrite (fl4 (1 - x2)) by (apply Rabs_le; lra). cbn [bind].
    destruct (coll f x0 (1 - x2) (rnd (1 - x2))) as (e0 & x0' & E0 & De0 & He0 & U0 & Dx0 & B0); [auto|lra|lra|apply rnd2; lra|]. rewrite self in B0.
    pose proof (gap_tol (1 - x2)) as G2. rewrite E0. cbn [bind]. exists (e0, x1, x2), (x0', x1, x2). split; [auto|]. split; [auto|]. split; [cbn [fst snd]; lra|].
    rewrite (fl4 (1 - x2)) by (apply Rabs_le; lra). cbn [bind]. rewrite U0. cbn [bind fst snd]. split; [auto|]. split; [auto|]. rewrite !self. split; [lra|].
    intros A. rewrite (gap_away (1 - x2)) in * by lra. lra.
  - exists (x0, x1, x2), (x0, x1, x2). cbn [fst snd]. rewrite !self. split; [auto|]. split; [auto|]. split; [lra|]. split; [auto|]. split; [auto|]. split; [lra|]. intros _. lra.
Qed.
Print Assumptions C112_round_trip_3d.
Theorem C112_round_trip_2d (f : bool) (s : shape2) (xi : pt2) : doubles2 xi -> in_ref2 s xi ->
  exists eta xi', to_collapsed2_d s xi = Some eta /\ doubles2 eta /\ in_cube2 eta /\ to_loc2_d f s eta = Some xi' /\ doubles2 xi' /\
    close2 (2 * kNekZeroTol + 64 * unit_roundoff) xi' xi /\ (away2 s (2 * kNekZeroTol) xi -> close2 (64 * unit_roundoff) xi' xi).
Proof.
  destruct xi as [x0 x1]. intros (D0 & D1) HR. cbn [fst snd] in *. rewrite u_eq. pose proof u_pos as u0. pose proof u_small as us. pose proof tol_pos as k0.
  unfold doubles2, in_cube2, close2. destruct s; cbn [in_ref2 to_collapsed2_d to_loc2_d away2 fst snd] in *.
  - destruct HR as (R0 & R1 & R2). unfold tri_to_collapsed_d, tri_to_loc_d. rewrite (fl4 (1 - x1)) by (apply Rabs_le; lra). cbn [bind].
    destruct (coll f x0 (1 - x1) (rnd (1 - x1))) as (e0 & x0' & E0 & De0 & He0 & U0 & Dx0 & B0); [auto|lra|lra|apply rnd2; lra|]. rewrite self in B0.
    pose proof (gap_tol (1 - x1)) as G2. rewrite E0. cbn [bind]. exists (e0, x1), (x0', x1). split; [auto|]. split; [auto|]. split; [cbn [fst snd]; lra|].
    rewrite (fl4 (1 - x1)) by (apply Rabs_le; lra). cbn [bind]. rewrite U0. cbn [bind fst snd]. split; [auto|]. split; [auto|]. rewrite self. split; [lra|].
    intros A. rewrite (gap_away (1 - x1)) in * by lra. lra.
  - exists (x0, x1), (x0, x1). cbn [fst snd]. rewrite !self. split; [auto|]. split; [auto|]. split; [lra|]. split; [auto|]. split; [auto|]. split; [lra|]. intros _. lra.
Qed.
Print Assumptions C112_round_trip_2d.

(** The dispatch on the shape number used by the kernels: always defined, and within one rounding of the cube; without contraction, inside;
    and within 10 roundings of the mapping of the shape. *)
Theorem C112_dispatch_3d (fb fc : bool) (s : shape3) (xi : pt3) : doubles3 xi -> in_ref3 s xi ->
  exists eta, generic_to_collapsed_3d_d fb fc (shape_int3 s) xi = Some eta /\ doubles3 eta /\
    (-1 <= fst (fst eta) <= 1 + epsilon /\ -1 <= snd (fst eta) <= 1 + epsilon /\ -1 <= snd eta <= 1) /\
    (fb = false -> fc = false -> in_cube3 eta) /\
    exists eta', to_collapsed3_d s xi = Some eta' /\ close3 (10 * unit_roundoff) eta eta'.
Proof.
  destruct xi as [[x0 x1] x2]. intros (D0 & D1 & D2) HR. cbn [fst snd] in *. unfold epsilon. rewrite u_eq. pose proof u_pos as u0. pose proof u_small as us.
  unfold doubles3, in_cube3, close3, to_collapsed3_d.
  assert (B : -1 <= x0 <= 1 /\ -1 <= x1 <= 1 /\ -1 <= x2 <= 1) by (destruct s; cbn [in_ref3] in HR; lra).
  unfold generic_to_collapsed_3d_d. rewrite (fl4 (1 - x2)) by (apply Rabs_le; lra). rewrite (fl4 (- x1 - x2)) by (apply Rabs_le; lra). cbn [bind].
  destruct (div_any 2 (rnd (1 - x2))) as [E1 Q1]; [apply Rabs_le; lra|]. rewrite E1. cbn [bind].
  rewrite (fl4 (1 + x0)) by (apply Rabs_le; lra). rewrite (fl4 (1 + x1)) by (apply Rabs_le; lra). cbn [bind].
  assert (A0 : 0 <= rnd (1 + x0) <= 2) by (split; [apply rnd_abs; lra|apply rnd_le; [apply fmt_small_Z; lia|lra]]).
  assert (A1 : 0 <= rnd (1 + x1) <= 2) by (split; [apply rnd_abs; lra|apply rnd_le; [apply fmt_small_Z; lia|lra]]).
  assert (T : exists d, bind (fl (2 * rnd (1 + x0))) (fun t => bind (div_d t (guard_d (rnd (- x1 - x2)))) (fun q => fl (q - 1))) = Some d /\ (s = Tet -> is_double d /\ -1 <= d <= 1 /\ ratio_d x0 (guard_d (rnd (- x1 - x2))) = Some d)).
  { destruct (shape3_dec s) as [->|N].
    - cbn [in_ref3] in HR. destruct (ratio_ok x0 (- x1 - x2)) as (e & q & E & De & He & _); [auto|lra|lra|]. exists e. split; [|auto].
      unfold ratio_d in E. rewrite (fl4 (1 + x0)) in E by (apply Rabs_le; lra). exact E.
    - rewrite (fl4 (2 * _)) by (apply Rabs_le; lra). cbn [bind]. destruct (div_any (rnd (2 * rnd (1 + x0))) (rnd (- x1 - x2))) as [E2 Q2].
      { rewrite Rabs_pos_eq by (apply rnd_abs; lra). apply rnd_le; [apply fmt_small_Z; lia|lra]. }
      rewrite E2. cbn [bind]. rewrite fl50; [|apply Rabs_le_inv in Q2; apply Rabs_le; lra]. eexists. split; [reflexivity|]. intros ->. contradiction. }
  destruct T as (d & ED & HD).
  destruct (prod_any fb (rnd (1 + x1)) (rnd (2 / guard_d (rnd (1 - x2))))) as (b & Eb); [rewrite Rabs_pos_eq; lra|auto|].
  destruct (prod_any fc (rnd (1 + x0)) (rnd (2 / guard_d (rnd (1 - x2))))) as (c & Ec); [rewrite Rabs_pos_eq; lra|auto|].
  rewrite Eb, Ec. cbn [bind]. unfold bind in ED at 1. unfold bind at 1.
  destruct (fl (2 * rnd (1 + x0))) as [t|]; [|discriminate]. destruct (div_d t (guard_d (rnd (- x1 - x2)))) as [q|]; cbn [bind] in *; [|discriminate]. rewrite ED. cbn [bind].
  destruct s; cbn [in_ref3 shape_int3] in *; cbn [Z.eqb Pos.eqb orb eTetrahedron eHexahedron ePyramid].
  - destruct HD as (DD & HD & HE); [auto|]. destruct (prod_ok fb x1 (1 - x2)) as (b' & Eb' & Db & Hb & Hb'); [lra|lra|]. rewrite Eb' in Eb. injection Eb as ->.
    eexists. split; [reflexivity|]. cbn [fst snd]. split; [auto|]. split; [lra|]. split; [intros F1 _; specialize (Hb' F1); lra|].
    destruct (ratio_ok x1 (1 - x2)) as (e1 & q1 & E1' & _); [auto|lra|lra|]. pose proof (prod_near fb x1 (1 - x2) _ _ ltac:(lra) ltac:(lra) Eb' E1') as N1.
    unfold tet_to_collapsed_d. rewrite (fl4 (1 - x2)) by (apply Rabs_le; lra). rewrite (fl4 (- x1 - x2)) by (apply Rabs_le; lra). cbn [bind]. rewrite HE, E1'. cbn [bind].
    eexists. split; [reflexivity|]. cbn [fst snd]. rewrite !self. lra.
  - destruct (prod_ok fb x1 (1 - x2)) as (b' & Eb' & Db & Hb & Hb'); [lra|lra|]. rewrite Eb' in Eb. injection Eb as ->.
    destruct (prod_ok fc x0 (1 - x2)) as (c' & Ec' & Dc & Hc & Hc'); [lra|lra|]. rewrite Ec' in Ec. injection Ec as ->.
    eexists. split; [reflexivity|]. cbn [fst snd]. split; [auto|]. split; [lra|]. split; [intros F1 F2; specialize (Hb' F1); specialize (Hc' F2); lra|].
    destruct (ratio_ok x1 (1 - x2)) as (e1 & q1 & E1' & _); [auto|lra|lra|]. pose proof (prod_near fb x1 (1 - x2) _ _ ltac:(lra) ltac:(lra) Eb' E1') as N1.
    destruct (ratio_ok x0 (1 - x2)) as (e0 & q0 & E0' & _); [auto|lra|lra|]. pose proof (prod_near fc x0 (1 - x2) _ _ ltac:(lra) ltac:(lra) Ec' E0') as N0.
    unfold pyr_to_collapsed_d. rewrite (fl4 (1 - x2)) by (apply Rabs_le; lra). cbn [bind]. rewrite E0', E1'. cbn [bind].
    eexists. split; [reflexivity|]. cbn [fst snd]. rewrite !self. lra.
  - destruct (prod_ok fc x0 (1 - x2)) as (c' & Ec' & Dc & Hc & Hc'); [lra|lra|]. rewrite Ec' in Ec. injection Ec as ->.
    eexists. split; [reflexivity|]. cbn [fst snd]. split; [auto|]. split; [lra|]. split; [intros F1 F2; specialize (Hc' F2); lra|].
    destruct (ratio_ok x0 (1 - x2)) as (e0 & q0 & E0' & _); [auto|lra|lra|]. pose proof (prod_near fc x0 (1 - x2) _ _ ltac:(lra) ltac:(lra) Ec' E0') as N0.
    unfold prism_to_collapsed_d. rewrite (fl4 (1 - x2)) by (apply Rabs_le; lra). cbn [bind]. rewrite E0'. cbn [bind].
    eexists. split; [reflexivity|]. cbn [fst snd]. rewrite !self. lra.
  - eexists. split; [reflexivity|]. cbn [fst snd]. split; [auto|]. split; [lra|]. split; [intros _ _; lra|].
    eexists. split; [reflexivity|]. cbn [fst snd]. rewrite !self. lra.
Qed.
Print Assumptions C112_dispatch_3d.
(** In two dimensions the dispatch agrees with the per-shape mapping on every double of the reference element. *)
Theorem C112_dispatch_2d (s : shape2) (xi : pt2) : doubles2 xi -> in_ref2 s xi ->
  exists eta, generic_to_collapsed_2d_d (shape_int2 s) xi = Some eta /\ to_collapsed2_d s xi = Some eta /\ doubles2 eta /\ in_cube2 eta.
Proof.
  destruct xi as [x0 x1]. intros (D0 & D1) HR. cbn [fst snd] in *. pose proof u_pos as u0. pose proof u_small as us. unfold doubles2, in_cube2.
  unfold generic_to_collapsed_2d_d. destruct s; cbn [in_ref2 to_collapsed2_d shape_int2] in *; cbn [Z.eqb Pos.eqb eTriangle].
  - unfold tri_to_collapsed_d. rewrite (fl4 (1 - x1)) by (apply Rabs_le; lra). cbn [bind].
    destruct (ratio_ok x0 (1 - x1)) as (e & q & E & De & He & _); [auto|lra|lra|]. rewrite E. cbn [bind]. eexists. split; [reflexivity|]. split; [reflexivity|]. cbn [fst snd]. split; [auto|lra].
  - rewrite (fl4 (1 - x1)) by (apply Rabs_le; lra). cbn [bind]. unfold ratio_d. rewrite (fl4 (1 + x0)) by (apply Rabs_le; lra). cbn [bind].
    assert (A0 : 0 <= rnd (1 + x0) <= 2) by (split; [apply rnd_abs; lra|apply rnd_le; [apply fmt_small_Z; lia|lra]]).
    rewrite (fl4 (2 * _)) by (apply Rabs_le; lra). cbn [bind]. destruct (div_any (rnd (2 * rnd (1 + x0))) (rnd (1 - x1))) as [E2 Q2].
    { rewrite Rabs_pos_eq by (apply rnd_abs; lra). apply rnd_le; [apply fmt_small_Z; lia|lra]. }
    rewrite E2. cbn [bind]. rewrite fl50; [|apply Rabs_le_inv in Q2; apply Rabs_le; lra]. cbn [bind].
    eexists. split; [reflexivity|]. split; [reflexivity|]. cbn [fst snd]. split; [auto|lra].
Qed.
Print Assumptions C112_dispatch_2d.
(** The clamp with the default tolerance, or any larger one: it leaves alone everything the dispatch can return for a particle inside its
    element, and what it returns is always within the tolerance and is left alone by a second clamp. *)
Theorem C112_clamp (tol : R) : is_double tol -> epsilon <= tol <= 1 ->
  (forall x, -1 <= x <= 1 + epsilon -> clamp_d tol x = Some (x, false)) /\
  (forall x, is_double x -> exists y moved, clamp_d tol x = Some (y, moved) /\ is_double y /\ Rabs y <= 1 + tol + 2 * unit_roundoff /\ clamp_d tol y = Some (y, false) /\
     (moved = false <-> y = x) /\ (Rabs x <= 1 + tol -> y = x)).
Proof.
  intros Dt Ht. unfold epsilon in *. rewrite u_eq in *. pose proof u_pos as u0. pose proof u_small as us. unfold clamp_d. rewrite (fl4 (1 + tol)) by (apply Rabs_le; lra). cbn [bind].
  set (t := rnd (1 + tol)). assert (T : 1 + 2 * u <= t) by (apply rnd_ge; [apply two_u|lra]).
  assert (E : Rabs (t - (1 + tol)) <= 2 * u).
  { apply Rle_trans with (u * 2 + 0); [|lra]. unfold t. destruct (rnd_normal (1 + tol)) as (d & Hd & ->).
    - rewrite Rabs_pos_eq by lra. apply Rle_trans with (bpow radix2 0); [apply bpow_le; lia|cbn; lra].
    - replace ((1 + tol) * (1 + d) - (1 + tol)) with (d * (1 + tol)) by ring. rewrite Rabs_mult, Rplus_0_r. apply Rmult_le_compat; [apply Rabs_pos|apply Rabs_pos|auto|rewrite Rabs_pos_eq; lra]. }
  assert (DT : is_double t) by (apply dbl_rnd; apply Rabs_le; lra). assert (FT : forall x, is_double x -> Rabs x <= 1 + tol -> Rabs x <= t).
  { intros x Dx Hx. apply rnd_ge; [|auto]. apply generic_format_abs. apply fmtd. auto. }
  apply Rabs_le_inv in E.
  assert (S : forall y, - t <= y <= t -> (if Rlt_bool y (- t) then (- t, true) else if Rlt_bool t y then (t, true) else (y, false)) = (y, false)).
  { intros y Hy. rewrite Rlt_bool_false by lra. rewrite Rlt_bool_false by lra. auto. }
  split.
  - intros x Hx. rewrite S; [auto|lra].
  - intros x Dx. destruct (Rlt_bool_spec x (- t)) as [L|L]; [|destruct (Rlt_bool_spec t x) as [G|G]].
    + exists (- t), true. rewrite S by lra. split; [auto|]. split; [apply dbl_opp; auto|]. split; [rewrite Rabs_Ropp, Rabs_pos_eq; lra|]. split; [auto|].
      split; [split; [discriminate|intros; lra]|]. intros A. apply FT in A; [|auto]. apply Rabs_le_inv in A. lra.
    + exists t, true. rewrite S by lra. split; [auto|]. split; [auto|]. split; [rewrite Rabs_pos_eq; lra|]. split; [auto|].
      split; [split; [discriminate|intros; lra]|]. intros A. apply FT in A; [|auto]. apply Rabs_le_inv in A. lra.
    + exists x, false. rewrite S by lra. split; [auto|]. split; [auto|]. split; [apply Rabs_le; lra|]. split; [auto|]. split; [tauto|auto].
Qed.
Print Assumptions C112_clamp.

(** With a fused multiply-add the dispatch does leave the cube: a prism point on its sloping face. *)
Theorem C112_dispatch_refuted : exists xi eta, doubles3 xi /\ in_ref3 Pri xi /\ generic_to_collapsed_3d_d true true (shape_int3 Pri) xi = Some eta /\
  fst (fst eta) = 1 + epsilon /\ ~ in_cube3 eta.
Proof.
  pose proof ztol_range as Z. assert (EP : epsilon = / 4503599627370496) by (unfold epsilon; rewrite u_eq, u_val; lra).
  exists (125 / 4096, 0, - 125 / 4096). unfold generic_to_collapsed_3d_d.
  replace (fl (1 - - 125 / 4096)) with (Some (4221 / 4096)) by (symmetry; replace (1 - - 125 / 4096) with (4221 / 4096) by lra; apply (fl_is 4221 (-12)); [cbn; lra|lia|lia]).
  replace (fl (- 0 - - 125 / 4096)) with (Some (125 / 4096)) by (symmetry; replace (- 0 - - 125 / 4096) with (125 / 4096) by lra; apply (fl_is 125 (-12)); [cbn; lra|lia|lia]).
  cbn [bind]. destruct (guard_cases (4221 / 4096)) as [[H _]|[_ ->]]; [lra|lra|]. destruct (guard_cases (125 / 4096)) as [[H _]|[_ ->]]; [lra|lra|].
  unfold div_d. rewrite !Req_bool_false by lra.
  replace (fl (2 / (4221 / 4096))) with (Some (8740461536938902 / 4503599627370496)).
  2:{ symmetry. transitivity (Some (rnd (2 / (4221 / 4096)))); [apply (fl_bpow _ 10); [lia|apply Rabs_le; cbn; lra]|f_equal].
      rewrite (rnd_val _ (-52) 8740461536938902); [cbn; lra|cbn; lra|lia|apply Znearest_imp; apply Rabs_def1; cbn; lra]. }
  replace (fl (1 + 125 / 4096)) with (Some (4221 / 4096)) by (symmetry; replace (1 + 125 / 4096) with (4221 / 4096) by lra; apply (fl_is 4221 (-12)); [cbn; lra|lia|lia]).
  replace (fl (1 + 0)) with (Some 1) by (symmetry; replace (1 + 0) with 1 by lra; apply (fl_is 1 0); [cbn; lra|lia|lia]). cbn [bind]. unfold mul_add.
  rewrite (fl4 (1 * _ + -1)) by (apply Rabs_le; lra). cbn [bind].
  replace (fl (4221 / 4096 * (8740461536938902 / 4503599627370496) + -1)) with (Some (1 + / 4503599627370496)).
  2:{ symmetry. match goal with |- fl ?x = _ => transitivity (Some (rnd x)); [apply (fl_bpow _ 10); [lia|apply Rabs_le; cbn; lra]|f_equal]; rewrite (rnd_val x (-52) 4503599627370497) end;
      [cbn; lra|cbn; lra|lia|apply Znearest_imp; apply Rabs_def1; cbn; lra]. }
  cbn [bind]. replace (fl (2 * (4221 / 4096))) with (Some (4221 / 2048)) by (symmetry; replace (2 * (4221 / 4096)) with (4221 / 2048) by lra; apply (fl_is 4221 (-11)); [cbn; lra|lia|lia]).
  cbn [bind]. rewrite (fl50 (4221 / 2048 / (125 / 4096))) by (apply Rabs_le; lra). cbn [bind].
  assert (R : Rabs (rnd (4221 / 2048 / (125 / 4096))) <= 2 * 70 + 1) by (apply rnd_big; [lra|apply Rabs_le; lra]). apply Rabs_le_inv in R.
  rewrite fl50 by (apply Rabs_le; lra). cbn [bind]. eexists. split.
  { unfold doubles3. cbn [fst snd]. split; [dbl 125%Z (-12)%Z|]. split; [dbl 0%Z 0%Z|dbl (-125)%Z (-12)%Z]. }
  split; [cbn; lra|]. split; [reflexivity|]. cbn [shape_int3]. cbn [Z.eqb Pos.eqb orb eTetrahedron eHexahedron ePyramid fst snd].
  split; [rewrite EP; auto|]. unfold in_cube3. cbn [fst snd]. lra.
Qed.
Print Assumptions C112_dispatch_refuted.
Example C112_applied : doubles3 (- 1 / 2, - 1 / 2, - 1 / 2) /\ in_ref3 Tet (- 1 / 2, - 1 / 2, - 1 / 2) /\ away3 Tet (2 * kNekZeroTol) (- 1 / 2, - 1 / 2, - 1 / 2) /\
  doubles2 (- 1 / 2, 1 / 4) /\ in_ref2 Tri (- 1 / 2, 1 / 4) /\ is_double epsilon /\ epsilon <= epsilon <= 1.
Proof.
  unfold doubles3, doubles2. cbn [fst snd in_ref3 in_ref2 away3]. assert (H : is_double (- 1 / 2)) by (dbl (-1)%Z (-1)%Z). assert (H2 : is_double (1 / 4)) by (dbl 1%Z (-2)%Z).
  assert (EP : epsilon = / 4503599627370496) by (unfold epsilon; rewrite u_eq, u_val; lra). rewrite ktol_val.
  split; [auto|]. split; [lra|]. split; [lra|]. split; [auto|]. split; [lra|]. split; [rewrite EP; dbl 1%Z (-52)%Z|rewrite EP; lra].
Qed.
