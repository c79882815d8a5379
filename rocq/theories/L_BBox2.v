(** Lemmas for C86: linear elements, paddings. *)
From Verif Require Import M_RealBase L_RealBase M_Loop S_Loop L_Loop S_Bary L_Bary S_Coord M_Coord L_Coord M_Generic3D M_BBox S_Newton S_Generic3D L_Generic3D L_Generic3D2 S_BBox L_BBox.
From Coq Require Import List.
Import ListNotations.
Open Scope R_scope.

Lemma next_multiple_spec n m : (0 < m)%nat -> (n <= next_multiple n m < n + m)%nat /\ (next_multiple n m mod m = 0)%nat.
Proof.
  intros Hm. unfold next_multiple. pose proof (Nat.mod_upper_bound n m ltac:(lia)) as B. destruct (Nat.eqb_spec (n mod m) 0) as [E|E]; [lia|].
  split; [lia|]. pose proof (Nat.div_mod n m ltac:(lia)) as D.
  replace (n + (m - n mod m))%nat with (0 + (n / m + 1) * m)%nat by nia. rewrite Nat.mod_add by lia. apply Nat.mod_0_l. lia.
Qed.
(** every reference point is the image of a point of the cube *)
Lemma ref_surj s xi : in_ref3 s xi -> exists eta, in_cube3 eta /\ to_loc3 s eta = xi.
Proof.
  destruct xi as [[x y] z].
  assert (Q : forall a d, 0 <= a <= d -> exists t, -1 <= t <= 1 /\ (1 + t) * d * (1 / 2) = a).
  { intros a d H. destruct (Req_dec d 0) as [->|N].
    - exists (-1). split; lra.
    - exists (2 * (a / d) - 1). assert (0 <= a / d <= 1) by (split; [apply L_Sol.le_div; lra|apply L_Sol.div_le; lra]). split; [lra|field; lra]. }
  destruct s; cbn [in_ref3]; intros H.
  - destruct (Q (1 + y) (1 - z) ltac:(lra)) as (t1 & A1 & B1). destruct (Q (1 + x) (- y - z) ltac:(lra)) as (t0 & A0 & B0).
    exists (t0, t1, z). split; [unfold in_cube3; cbn; lra|]. cbn [to_loc3 tet_to_loc].
    replace ((1 + t1) * (1 - z) * (1 / 2) - 1) with y by lra. apply pair3; lra.
  - destruct (Q (1 + y) (1 - z) ltac:(lra)) as (t1 & A1 & B1). destruct (Q (1 + x) (1 - z) ltac:(lra)) as (t0 & A0 & B0).
    exists (t0, t1, z). split; [unfold in_cube3; cbn; lra|]. cbn [to_loc3 pyr_to_loc]. apply pair3; lra.
  - destruct (Q (1 + x) (1 - z) ltac:(lra)) as (t0 & A0 & B0).
    exists (t0, y, z). split; [unfold in_cube3; cbn; lra|]. cbn [to_loc3 prism_to_loc]. apply pair3; lra.
  - exists (x, y, z). split; [unfold in_cube3; cbn; lra|]. reflexivity.
Qed.
(** the trilinear polynomial with coefficient k (j0 + 2 j1 + 4 j2) *)
Definition trilin (k : nat -> R) (x y z : R) : R :=
  k 0%nat + k 1%nat * x + k 2%nat * y + k 3%nat * (x * y) + k 4%nat * z + k 5%nat * (x * z) + k 6%nat * (y * z) + k 7%nat * (x * y * z).
Lemma affine_bound p q t lo : -1 <= t <= 1 -> lo <= p - q -> lo <= p + q -> lo <= p + q * t.
Proof.
  intros Ht H1 H2. assert (E : p + q * t - lo = (1 - t) / 2 * (p - q - lo) + (1 + t) / 2 * (p + q - lo)) by field.
  assert (0 <= (1 - t) / 2 * (p - q - lo)) by (apply Rmult_le_pos; lra). assert (0 <= (1 + t) / 2 * (p + q - lo)) by (apply Rmult_le_pos; lra). lra.
Qed.
Lemma trilin_low k lo : (forall x y z, x = -1 \/ x = 1 -> y = -1 \/ y = 1 -> z = -1 \/ z = 1 -> lo <= trilin k x y z) ->
  forall x y z, -1 <= x <= 1 -> -1 <= y <= 1 -> -1 <= z <= 1 -> lo <= trilin k x y z.
Proof.
  intros H. assert (H1 : forall x y z, -1 <= x <= 1 -> y = -1 \/ y = 1 -> z = -1 \/ z = 1 -> lo <= trilin k x y z).
  { intros x y z Hx Hy Hz. pose proof (H (-1) y z ltac:(auto) Hy Hz) as A. pose proof (H 1 y z ltac:(auto) Hy Hz) as B. unfold trilin in *.
    replace (_ + _) with ((k 0%nat + k 2%nat * y + k 4%nat * z + k 6%nat * (y * z)) + (k 1%nat + k 3%nat * y + k 5%nat * z + k 7%nat * (y * z)) * x) by ring.
    apply affine_bound; lra. }
  assert (H2 : forall x y z, -1 <= x <= 1 -> -1 <= y <= 1 -> z = -1 \/ z = 1 -> lo <= trilin k x y z).
  { intros x y z Hx Hy Hz. pose proof (H1 x (-1) z Hx ltac:(auto) Hz) as A. pose proof (H1 x 1 z Hx ltac:(auto) Hz) as B. unfold trilin in *.
    replace (_ + _) with ((k 0%nat + k 1%nat * x + k 4%nat * z + k 5%nat * (x * z)) + (k 2%nat + k 3%nat * x + k 6%nat * z + k 7%nat * (x * z)) * y) by ring.
    apply affine_bound; lra. }
  intros x y z Hx Hy Hz. pose proof (H2 x y (-1) Hx Hy ltac:(auto)) as A. pose proof (H2 x y 1 Hx Hy ltac:(auto)) as B. unfold trilin in *.
  replace (_ + _) with ((k 0%nat + k 1%nat * x + k 2%nat * y + k 3%nat * (x * y)) + (k 4%nat + k 5%nat * x + k 6%nat * y + k 7%nat * (x * y)) * z) by ring.
  apply affine_bound; lra.
Qed.
Lemma trilin_high k hi : (forall x y z, x = -1 \/ x = 1 -> y = -1 \/ y = 1 -> z = -1 \/ z = 1 -> trilin k x y z <= hi) ->
  forall x y z, -1 <= x <= 1 -> -1 <= y <= 1 -> -1 <= z <= 1 -> trilin k x y z <= hi.
Proof.
  intros H x y z Hx Hy Hz. assert (E : forall x y z, trilin (fun i => - k i) x y z = - trilin k x y z) by (intros; unfold trilin; ring).
  pose proof (trilin_low (fun i => - k i) (- hi)) as L. specialize (L ltac:(intros; rewrite E; apply Ropp_le_contravar; auto) x y z Hx Hy Hz). rewrite E in L. lra.
Qed.
(** the linear maps are trilinear in the collapsed coordinates *)
Lemma pyr_shape i e0 e1 e2 : (i < 4)%nat -> shapef EPyr i (to_loc3 Pyr (e0, e1, e2)) = (1 - e2) / 2 * bilin i e0 e1.
Proof.
  intros Hi. cbn [to_loc3 pyr_to_loc shapef]. assert (i = 0%nat \/ i = 1%nat \/ i = 2%nat \/ i = 3%nat) as Ci by lia.
  destruct (Req_dec e2 1) as [->|N].
  - replace ((1 - 1) / 2) with 0 by lra. rewrite !Rmult_0_l. destruct Ci as [->|[->|[->| ->]]]; ring.
  - assert (D : 1 - e2 <> 0) by lra.
    replace (2 * (1 + ((1 + e0) * (1 - e2) * (1 / 2) - 1)) / (1 - e2) - 1) with e0 by (field; exact D).
    replace (2 * (1 + ((1 + e1) * (1 - e2) * (1 / 2) - 1)) / (1 - e2) - 1) with e1 by (field; exact D).
    destruct Ci as [->|[->|[->| ->]]]; reflexivity.
Qed.
Lemma Xmap_trilin e c a : e <> EQuad -> exists k, forall x y z, Xmap e c (to_loc3 (shape_of e) (x, y, z)) a = trilin k x y z.
Proof.
  intros He. destruct e; [easy| | | |]; cbn [shape_of].
  - exists (fun i => let u := c 0%nat a in let v := c 1%nat a in let w := c 2%nat a in let q := c 3%nat a in
      match i with 0%nat => (u + v + 2 * w + 4 * q) / 8 | 1%nat => (v - u) / 8 | 2%nat => (2 * w - u - v) / 8 | 3%nat => (u - v) / 8
                 | 4%nat => (4 * q - u - v - 2 * w) / 8 | 5%nat => (u - v) / 8 | 6%nat => (u + v - 2 * w) / 8 | _ => (v - u) / 8 end).
    intros. unfold Xmap, trilin. cbn [nverts seq fold_right shapef to_loc3 tet_to_loc]. field.
  - exists (fun i => let p := c 0%nat a in let q := c 1%nat a in let r := c 2%nat a in let s := c 3%nat a in let t := c 4%nat a in let w := c 5%nat a in
      match i with 0%nat => (p + q + r + s + 2 * t + 2 * w) / 8 | 1%nat => (q + r - p - s) / 8 | 2%nat => (r + s - p - q + 2 * w - 2 * t) / 8 | 3%nat => (p - q + r - s) / 8
                 | 4%nat => (2 * t + 2 * w - p - q - r - s) / 8 | 5%nat => (p + s - q - r) / 8 | 6%nat => (p + q - r - s + 2 * w - 2 * t) / 8 | _ => (q - p + s - r) / 8 end).
    intros. unfold Xmap, trilin. cbn [nverts seq fold_right shapef to_loc3 prism_to_loc refvert nth comp lin]. unfold lin. field.
  - exists (fun i => let v (k : nat) := c k a in
      match i with 0%nat => (v 0%nat + v 1%nat + v 2%nat + v 3%nat + v 4%nat + v 5%nat + v 6%nat + v 7%nat) / 8
                 | 1%nat => (- v 0%nat + v 1%nat + v 2%nat - v 3%nat - v 4%nat + v 5%nat + v 6%nat - v 7%nat) / 8
                 | 2%nat => (- v 0%nat - v 1%nat + v 2%nat + v 3%nat - v 4%nat - v 5%nat + v 6%nat + v 7%nat) / 8
                 | 3%nat => (v 0%nat - v 1%nat + v 2%nat - v 3%nat + v 4%nat - v 5%nat + v 6%nat - v 7%nat) / 8
                 | 4%nat => (- v 0%nat - v 1%nat - v 2%nat - v 3%nat + v 4%nat + v 5%nat + v 6%nat + v 7%nat) / 8
                 | 5%nat => (v 0%nat - v 1%nat - v 2%nat + v 3%nat - v 4%nat + v 5%nat + v 6%nat - v 7%nat) / 8
                 | 6%nat => (v 0%nat + v 1%nat - v 2%nat - v 3%nat - v 4%nat - v 5%nat + v 6%nat + v 7%nat) / 8
                 | _ => (- v 0%nat + v 1%nat - v 2%nat + v 3%nat + v 4%nat - v 5%nat + v 6%nat - v 7%nat) / 8 end).
    intros. unfold Xmap, trilin. change (to_loc3 Hex (x, y, z)) with (x, y, z). cbn [nverts seq fold_right shapef refvert nth comp]. unfold lin. field.
  - exists (fun i => let v (k : nat) := c k a in
      match i with 0%nat => (v 0%nat + v 1%nat + v 2%nat + v 3%nat + 4 * v 4%nat) / 8
                 | 1%nat => (- v 0%nat + v 1%nat + v 2%nat - v 3%nat) / 8
                 | 2%nat => (- v 0%nat - v 1%nat + v 2%nat + v 3%nat) / 8
                 | 3%nat => (v 0%nat - v 1%nat + v 2%nat - v 3%nat) / 8
                 | 4%nat => (- v 0%nat - v 1%nat - v 2%nat - v 3%nat + 4 * v 4%nat) / 8
                 | 5%nat => (v 0%nat - v 1%nat - v 2%nat + v 3%nat) / 8
                 | 6%nat => (v 0%nat + v 1%nat - v 2%nat - v 3%nat) / 8
                 | _ => (- v 0%nat + v 1%nat - v 2%nat + v 3%nat) / 8 end).
    intros. unfold Xmap, trilin. cbn [nverts seq fold_right]. rewrite !pyr_shape by lia. cbn [shapef to_loc3 pyr_to_loc]. unfold bilin, lin. cbn [refvert nth comp]. field.
Qed.
Ltac rq := repeat (match goal with |- context[Req_bool ?p ?q] => destruct (Req_bool_spec p q) as [Q|Q]; [try (exfalso; lra)|try (exfalso; apply Q; reflexivity)]; clear Q end).
(** the corners of the cube are the vertices *)
Lemma corner_vertex e c a x y z : e <> EQuad -> x = -1 \/ x = 1 -> y = -1 \/ y = 1 -> z = -1 \/ z = 1 ->
  exists i, (i < nverts e)%nat /\ Xmap e c (to_loc3 (shape_of e) (x, y, z)) a = c i a.
Proof.
  intros He Hx Hy Hz. destruct e; [easy| | | |]; cbn [shape_of].
  - exists (if Req_bool z 1 then 3%nat else if Req_bool y 1 then 2%nat else if Req_bool x 1 then 1%nat else 0%nat).
    destruct Hx, Hy, Hz; subst; rq; (split; [cbn; lia|]);
    unfold Xmap; cbn [nverts seq fold_right shapef to_loc3 tet_to_loc]; field.
  - exists (if Req_bool z 1 then (if Req_bool y 1 then 5%nat else 4%nat) else if Req_bool y 1 then (if Req_bool x 1 then 2%nat else 3%nat) else (if Req_bool x 1 then 1%nat else 0%nat)).
    destruct Hx, Hy, Hz; subst; rq; (split; [cbn; lia|]);
    unfold Xmap; cbn [nverts seq fold_right shapef to_loc3 prism_to_loc refvert nth comp]; unfold lin; field.
  - exists (((if Req_bool z 1 then 4 else 0) + if Req_bool y 1 then (if Req_bool x 1 then 2 else 3) else (if Req_bool x 1 then 1 else 0))%nat).
    change (to_loc3 Hex (x, y, z)) with (x, y, z).
    destruct Hx, Hy, Hz; subst; rq; (split; [cbn; lia|]);
    unfold Xmap; cbn [nverts seq fold_right shapef refvert nth comp Nat.add]; unfold lin; field.
  - exists (if Req_bool z 1 then 4%nat else if Req_bool y 1 then (if Req_bool x 1 then 2%nat else 3%nat) else (if Req_bool x 1 then 1%nat else 0%nat)).
    destruct Hx, Hy, Hz; subst; rq; (split; [cbn; lia|]);
    unfold Xmap; cbn [nverts seq fold_right]; rewrite !pyr_shape by lia; cbn [shapef to_loc3 pyr_to_loc]; unfold bilin, lin; cbn [refvert nth comp]; field.
Qed.
Lemma vertex_corner e c a i : e <> EQuad -> (i < nverts e)%nat ->
  exists x y z, (x = -1 \/ x = 1) /\ (y = -1 \/ y = 1) /\ (z = -1 \/ z = 1) /\ Xmap e c (to_loc3 (shape_of e) (x, y, z)) a = c i a.
Proof.
  intros He Hi. exists (if Req_bool (comp (refvert e i) 0) 1 then 1 else -1), (if Req_bool (comp (refvert e i) 1) 1 then 1 else -1), (if Req_bool (comp (refvert e i) 2) 1 then 1 else -1).
  split; [destruct (Req_bool _ _); auto|]. split; [destruct (Req_bool _ _); auto|]. split; [destruct (Req_bool _ _); auto|].
  destruct e; [easy| | | |]; cbn [nverts] in Hi; destruct i as [|[|[|[|[|[|[|[|i]]]]]]]]; try lia; cbn [refvert nth comp shape_of];
  rq; unfold Xmap; cbn [nverts seq fold_right]; rewrite ?pyr_shape by lia;
  try match goal with |- context[to_loc3 Hex (?x, ?y, ?z)] => change (to_loc3 Hex (x, y, z)) with (x, y, z) end;
  cbn [shapef to_loc3 pyr_to_loc tet_to_loc prism_to_loc]; unfold bilin, lin; cbn [refvert nth comp]; field.
Qed.
Lemma corner_grid gs x y z : (2 <= gs)%nat -> (x = -1 \/ x = 1) -> (y = -1 \/ y = 1) -> (z = -1 \/ z = 1) -> face_grid gs (x, y, z).
Proof.
  intros Hgs Hx Hy Hz. assert (K : forall t, t = -1 \/ t = 1 -> exists i, (i < gs)%nat /\ t = -1 + 2 * INR i / INR (gs - 1)).
  { intros t [->| ->]; [exists 0%nat|exists (gs - 1)%nat]; (split; [lia|]); cbn [INR]; field; apply not_0_INR; lia. }
  exists 0%nat. split; [lia|]. split; [exact Hx|]. intros b Hb Hn. destruct b as [|[|[|b]]]; try lia; cbn [comp]; auto.
Qed.
Lemma trilin_poly n0 n1 n2 k : (2 <= n0)%nat -> (2 <= n1)%nat -> (2 <= n2)%nat ->
  exists c, forall x y z, trilin k x y z = polynomial3 n0 n1 n2 c x y z.
Proof.
  intros H0 H1 H2.
  assert (S2 : forall n f, (2 <= n)%nat -> (forall i, (2 <= i)%nat -> f i = 0) -> sumn n f = f 0%nat + f 1%nat).
  { intros n f Hn Hf. induction n as [|n IH]; [lia|]. destruct (Nat.eq_dec n 1) as [->|N].
    - cbn [sumn]. ring.
    - cbn [sumn]. rewrite IH by lia. rewrite (Hf n) by lia. ring. }
  exists (fun i j l => if (i <? 2)%nat && (j <? 2)%nat && (l <? 2)%nat then k (i + 2 * j + 4 * l)%nat else 0).
  intros. unfold polynomial3.
  assert (Z2 : forall i, (2 <= i)%nat -> (i <? 2)%nat = false) by (intros i Hi; apply Nat.ltb_ge; lia).
  rewrite (S2 n2); [|auto|].
  2:{ intros l Hl. apply sumn_zero. intros j Hj. apply sumn_zero. intros i Hi. rewrite (Z2 l Hl), Bool.andb_false_r. ring. }
  assert (E1 : forall l, sumn n1 (fun j => sumn n0 (fun i => (if (i <? 2)%nat && (j <? 2)%nat && (l <? 2)%nat then k (i + 2 * j + 4 * l)%nat else 0) * x ^ i * y ^ j * z ^ l))
     = sumn n0 (fun i => (if (i <? 2)%nat && (0 <? 2)%nat && (l <? 2)%nat then k (i + 2 * 0 + 4 * l)%nat else 0) * x ^ i * y ^ 0 * z ^ l) +
       sumn n0 (fun i => (if (i <? 2)%nat && (1 <? 2)%nat && (l <? 2)%nat then k (i + 2 * 1 + 4 * l)%nat else 0) * x ^ i * y ^ 1 * z ^ l)).
  { intros l. apply (S2 n1); auto. intros j Hj. apply sumn_zero. intros i Hi. rewrite (Z2 j Hj), Bool.andb_false_r. cbn [andb]. ring. }
  rewrite !E1. rewrite !(S2 n0) by (auto; intros i Hi; rewrite (Z2 i Hi); cbn [andb]; ring).
  cbn. unfold trilin. ring.
Qed.
Lemma linear_represents e c x : e <> EQuad -> (forall a, (a < 3)%nat -> (2 <= npts x a)%nat) ->
  (forall a, (a < 3)%nat -> sampled x (shape_of e) (xm_phys x a) (fun xi => Xmap e c xi a)) -> represents_G (shape_of e) x (Xmap e c).
Proof.
  intros He Hn Hs a La. split; [|auto]. destruct (Xmap_trilin e c a He) as (k & Hk).
  destruct (trilin_poly (npts x 0) (npts x 1) (npts x 2) k) as (p & Hp); [apply Hn; lia..|]. exists p. intros. rewrite Hk. apply Hp.
Qed.
(** all points of a linear element lie between the extreme corners *)
Lemma linear_between e c a lo hi : e <> EQuad ->
  (forall x y z, x = -1 \/ x = 1 -> y = -1 \/ y = 1 -> z = -1 \/ z = 1 -> lo <= Xmap e c (to_loc3 (shape_of e) (x, y, z)) a <= hi) ->
  forall xi, in_ref3 (shape_of e) xi -> lo <= Xmap e c xi a <= hi.
Proof.
  intros He H xi Hx. destruct (ref_surj _ xi Hx) as ([[x y] z] & Hc & <-). unfold in_cube3 in Hc. cbn [fst snd] in Hc. destruct Hc as (C0 & C1 & C2).
  destruct (Xmap_trilin e c a He) as (k & Hk). rewrite Hk. split.
  - apply trilin_low; auto. intros. rewrite <- Hk. now apply H.
  - apply trilin_high; auto. intros. rewrite <- Hk. now apply H.
Qed.
(** nearest grid point *)
Lemma near_grid gs t : (2 <= gs)%nat -> -1 <= t <= 1 -> exists i, (i < gs)%nat /\ Rabs (t - (-1 + 2 * INR i / INR (gs - 1))) <= 1 / INR (gs - 1).
Proof.
  intros Hgs Ht. set (N := (gs - 1)%nat). assert (HN : 0 < INR N) by (apply lt_0_INR; lia).
  assert (K : forall m, (m <= N)%nat -> exists i, (i <= m)%nat /\ (Rabs (t - (-1 + 2 * INR i / INR N)) <= 1 / INR N \/ (-1 + (2 * INR m + 1) / INR N < t))).
  { induction m as [|m IH]; intros Hm.
    - exists 0%nat. split; [lia|]. cbn [INR]. destruct (Rle_dec t (-1 + (2 * 0 + 1) / INR N)) as [L|L]; [left|right; lra].
      apply Rabs_le. assert (0 < 1 / INR N) by (apply Rdiv_lt_0_compat; lra). unfold Rdiv in *. lra.
    - destruct (IH ltac:(lia)) as (i & Hi & [A|A]); [exists i; split; [lia|now left]|].
      exists (S m). split; [lia|]. destruct (Rle_dec t (-1 + (2 * INR (S m) + 1) / INR N)) as [L|L]; [left|right; lra].
      rewrite S_INR in *. apply Rabs_le. unfold Rdiv in *. lra. }
  destruct (K N ltac:(lia)) as (i & Hi & [A|A]); [exists i; split; [lia|exact A]|].
  exfalso. assert (E : -1 + (2 * INR N + 1) / INR N = 1 + 1 / INR N) by (field; lra). assert (0 < 1 / INR N) by (apply Rdiv_lt_0_compat; lra). lra.
Qed.
Lemma near_face gs e : (2 <= gs)%nat -> on_cube_face e -> exists e', face_grid gs e' /\ on_cube_face e' /\ forall b, (b < 3)%nat -> Rabs (comp e b - comp e' b) <= 1 / INR (gs - 1).
Proof.
  intros Hgs (Hc & a & La & Hs). destruct e as [[e0 e1] e2]. unfold in_cube3 in Hc. cbn [fst snd] in Hc. destruct Hc as (C0 & C1 & C2).
  assert (HN : 0 < 1 / INR (gs - 1)) by (apply Rdiv_lt_0_compat; [lra|apply lt_0_INR; lia]).
  assert (Z : forall r, Rabs (r - r) <= 1 / INR (gs - 1)) by (intros; replace (r - r) with 0 by ring; rewrite Rabs_R0; lra).
  destruct (near_grid gs e0 Hgs C0) as (i0 & I0 & N0). destruct (near_grid gs e1 Hgs C1) as (i1 & I1 & N1). destruct (near_grid gs e2 Hgs C2) as (i2 & I2 & N2).
  set (g0 := -1 + 2 * INR i0 / INR (gs - 1)) in *. set (g1 := -1 + 2 * INR i1 / INR (gs - 1)) in *. set (g2 := -1 + 2 * INR i2 / INR (gs - 1)) in *.
  assert (Kx : exists e', face_grid gs e' /\ forall b, (b < 3)%nat -> Rabs (comp (e0, e1, e2) b - comp e' b) <= 1 / INR (gs - 1)).
  { assert (La' : a = 0%nat \/ a = 1%nat \/ a = 2%nat) by lia. destruct La' as [->|[->| ->]]; cbn [comp] in Hs.
    - exists (e0, g1, g2). split; [|intros [|[|[|b]]] Hb; try lia; cbn [comp]; auto].
      exists 0%nat. split; [lia|]. split; [exact Hs|]. intros [|[|[|b]]] Hb Hn; try lia; cbn [comp]; eauto.
    - exists (g0, e1, g2). split; [|intros [|[|[|b]]] Hb; try lia; cbn [comp]; auto].
      exists 1%nat. split; [lia|]. split; [exact Hs|]. intros [|[|[|b]]] Hb Hn; try lia; cbn [comp]; eauto.
    - exists (g0, g1, e2). split; [|intros [|[|[|b]]] Hb; try lia; cbn [comp]; auto].
      exists 2%nat. split; [lia|]. split; [exact Hs|]. intros [|[|[|b]]] Hb Hn; try lia; cbn [comp]; eauto. }
  destruct Kx as (e' & F & D). exists e'. split; auto. split; auto. split; [now apply (face_grid_cube gs)|]. destruct F as (a' & L' & S' & _). eauto.
Qed.
