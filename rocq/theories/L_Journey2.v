From Verif Require Import M_RealBase M_Grid M_Coord M_NewtonMap M_NewtonBind M_Regular S_Newton S_NewtonM S_NewtonBind S_Regular
  L_RealBase L_Coord L_Newton L_Regular.
From Verif Require Import M_MeshIf S_Grid S_MeshIf L_MeshIf S_Journey.
From Coq Require Import ZArith Reals Lra Lia List.
From Flocq Require Import Core.Raux.
From Verif Require Import S_Newton.
Import ListNotations.
Local Open Scope R_scope.

Definition wsum (w c : nat -> R) (l : list nat) : R := fold_right (fun i acc => w i * c i + acc) 0 l.
Lemma wsum_le w c h l : (forall i, In i l -> 0 < w i) -> (forall i, In i l -> c i <= h) -> wsum w c l <= wsum w (fun _ => h) l.
Proof.
  induction l; simpl; intros Hw Hc; [lra|]. specialize (IHl ltac:(auto) ltac:(auto)).
  pose proof (Hw a ltac:(auto)). pose proof (Hc a ltac:(auto)). nra.
Qed.
Lemma wsum_lt w c h l : (forall i, In i l -> 0 < w i) -> (forall i, In i l -> c i <= h) -> (exists i, In i l /\ c i < h) -> wsum w c l < wsum w (fun _ => h) l.
Proof.
  induction l; simpl; intros Hw Hc (i & Hi & Hl); [contradiction|].
  pose proof (Hw a ltac:(auto)). pose proof (Hc a ltac:(auto)).
  pose proof (wsum_le w c h l ltac:(auto) ltac:(auto)). destruct Hi as [<-|Hi].
  - nra.
  - specialize (IHl ltac:(auto) ltac:(auto) ltac:(eauto)). nra.
Qed.
Lemma wsum_const w h l : wsum w (fun _ => h) l = wsum w (fun _ => 1) l * h.
Proof. induction l; simpl; [ring|]. rewrite IHl. ring. Qed.
Lemma wsum_opp w c l : wsum w (fun i => - c i) l = - wsum w c l.
Proof. induction l; simpl; [ring|]. rewrite IHl. ring. Qed.
Lemma all_eq_dec (c : nat -> R) h l : (forall i, In i l -> c i <= h) -> (exists i, In i l /\ c i < h) \/ (forall i, In i l -> c i = h).
Proof.
  induction l; simpl; intros H; [right; intros i []|]. destruct (Req_dec (c a) h) as [E|E].
  - destruct IHl as [(i & Hi & Hl)|Ha]; auto; [left; eauto|right]. intros i [<-|Hi]; auto.
  - left. exists a. split; auto. pose proof (H a ltac:(auto)). lra.
Qed.
(** a weighted mean of values that are not all equal lies strictly between their bounds *)
Lemma mean_inside w c lo hi l : (forall i, In i l -> 0 < w i) -> wsum w (fun _ => 1) l = 1 -> (forall i, In i l -> lo <= c i <= hi) ->
  ~ (forall i j, In i l -> In j l -> c i = c j) -> lo < wsum w c l < hi.
Proof.
  intros Hw H1 Hc Hn. split.
  - assert (wsum w (fun i => - c i) l < wsum w (fun _ => - lo) l).
    { apply wsum_lt; auto. { intros i Hi. specialize (Hc i Hi). lra. }
      destruct (all_eq_dec (fun i => - c i) (- lo) l) as [H|H]; auto. { intros i Hi. specialize (Hc i Hi). lra. }
      exfalso. apply Hn. intros i j Hi Hj. pose proof (H i Hi). pose proof (H j Hj). cbn in *. lra. }
    rewrite wsum_opp, wsum_const, H1 in H. lra.
  - assert (wsum w c l < wsum w (fun _ => hi) l).
    { apply wsum_lt; auto. { intros i Hi. specialize (Hc i Hi). lra. }
      destruct (all_eq_dec c hi l) as [H|H]; auto. { intros i Hi. specialize (Hc i Hi). lra. }
      exfalso. apply Hn. intros i j Hi Hj. rewrite (H i Hi), (H j Hj). auto. }
    rewrite wsum_const, H1 in H. lra.
Qed.
Definition shapea (s : ashape) (i : nat) (xi : pt3) : R :=
  match s with
  | ATri => let '(x, y, _) := xi in match i with 0%nat => - (x + y) / 2 | 1%nat => (1 + x) / 2 | _ => (1 + y) / 2 end
  | AElem e => shapef e i xi
  end.
Ltac in_seq H := cbn [seq In avertices nverts Nat.add] in H; repeat (destruct H as [<-|H]; [|]); try contradiction.
Lemma interior_z x y z : in_interior (AElem EPyr) (x, y, z) -> z < 1.
Proof. cbn. lra. Qed.
Lemma ratio_in a z : -1 < a -> -1 < z -> a + z < 0 -> -1 < 2 * (1 + a) / (1 - z) - 1 < 1.
Proof.
  intros Ha Hz Hs. assert (0 < 1 - z) by lra. split.
  - assert (0 < 2 * (1 + a) / (1 - z)) by (apply Rdiv_lt_0_compat; lra). lra.
  - assert (2 * (1 + a) / (1 - z) < 2); [|lra]. apply Rmult_lt_reg_r with (1 - z); auto. unfold Rdiv. rewrite Rmult_assoc, Rinv_l by lra. lra.
Qed.
Lemma lin_pos s t : s = 1 \/ s = -1 -> -1 < t < 1 -> 0 < lin s t.
Proof. unfold lin. intros [->| ->] H; lra. Qed.
Lemma shapea_pos s xi i : in_interior s xi -> In i (seq 0 (avertices s)) -> 0 < shapea s i xi.
Proof.
  destruct xi as [[x y] z]. intros H Hi. destruct s as [|e].
  - cbn in H. in_seq Hi; cbn; lra.
  - destruct e; cbn [shapea shapef].
    + cbn in H. in_seq Hi; unfold bilin; apply Rmult_lt_0_compat; apply lin_pos; cbn; auto; lra.
    + cbn in H. in_seq Hi; lra.
    + cbn in H. in_seq Hi; apply Rmult_lt_0_compat; try (apply lin_pos; cbn; auto; lra); lra.
    + cbn in H. in_seq Hi; (apply Rmult_lt_0_compat; [apply Rmult_lt_0_compat|]); apply lin_pos; cbn; auto; lra.
    + cbn in H. destruct H as (H1 & H2 & H3 & H4 & H5).
      pose proof (ratio_in x z H1 H3 H4). pose proof (ratio_in y z H2 H3 H5).
      in_seq Hi; try lra; (apply Rmult_lt_0_compat; [lra|]); unfold bilin; apply Rmult_lt_0_compat; apply lin_pos; cbn; auto; lra.
Qed.
Lemma shapea_one s xi : in_interior s xi -> wsum (fun i => shapea s i xi) (fun _ => 1) (seq 0 (avertices s)) = 1.
Proof.
  destruct xi as [[x y] z]. intros H. destruct s as [|e]; [cbn; field|].
  destruct e; cbn [avertices nverts seq wsum fold_right shapea shapef]; unfold bilin, lin; cbn [refvert nth comp]; try field.
  cbn in H. lra.
Qed.
Lemma shapea_map s c A b xi a : in_interior s xi -> is_affine s c A b -> (a < adim s)%nat ->
  wsum (fun i => shapea s i xi) (fun i => c i a) (seq 0 (avertices s)) = affine_coeffs (adim s) A b xi a.
Proof.
  destruct xi as [[x y] z]. intros H Ha Hl. destruct s as [|e].
  - cbn [is_affine adim] in *. rewrite <- Ha by auto. unfold Xtri. cbn. field.
  - cbn [is_affine adim] in *. unfold affine_coeffs. rewrite <- Ha; auto.
    destruct e; cbn; auto. pose proof (interior_z x y z H). lra.
Qed.
Lemma vix_in s k : (k < adim s)%nat -> In (vix s k) (seq 0 (avertices s)) /\ In 0%nat (seq 0 (avertices s)).
Proof. intros H. split; apply in_seq; destruct s as [|[]]; cbn in *; destruct k as [|[|[|]]]; cbn; lia. Qed.
Lemma affine_not_flat s c A b a : is_affine s c A b -> det (adim s) A <> 0 -> (a < adim s)%nat ->
  ~ (forall i j, In i (seq 0 (avertices s)) -> In j (seq 0 (avertices s)) -> c i a = c j a).
Proof.
  intros Ha Hd Hl Q. apply Hd.
  assert (Z0 : forall k, (k < adim s)%nat -> A a k = 0).
  { intros k Hk. destruct (affine_cols s c A b Ha a k Hl Hk) as [-> _]. destruct (vix_in s k Hk) as [I1 I2]. rewrite (Q _ _ I1 I2). field. }
  assert (D : adim s = 2%nat \/ adim s = 3%nat) by (destruct s as [|[]]; cbn; auto).
  destruct D as [D|D]; rewrite D in *; cbn [det]; pose proof (Z0 0%nat ltac:(lia)); pose proof (Z0 1%nat ltac:(lia)).
  - destruct a as [|[|]]; [..|lia]; rewrite H, H0; ring.
  - pose proof (Z0 2%nat ltac:(lia)). destruct a as [|[|[|]]]; [..|lia]; rewrite H, H0, H1; ring.
Qed.
Lemma interior_inside s c A b xi bx : in_interior s xi -> is_affine s c A b -> det (adim s) A <> 0 ->
  (forall i a, (i < avertices s)%nat -> (a < adim s)%nat -> fst (nth a bx (0, 0)) <= c i a <= snd (nth a bx (0, 0))) ->
  forall a, (a < adim s)%nat -> fst (nth a bx (0, 0)) < affine_coeffs (adim s) A b xi a < snd (nth a bx (0, 0)).
Proof.
  intros Hi Ha Hd Hb a Hl. rewrite <- (shapea_map s c A b xi a) by auto.
  apply (mean_inside (fun i => shapea s i xi) (fun i => c i a)).
  - intros i Q. apply shapea_pos; auto.
  - apply shapea_one; auto.
  - intros i Q. apply Hb; auto. apply in_seq in Q. lia.
  - eapply affine_not_flat; eauto.
Qed.
Lemma interior_ref s xi : in_interior s xi -> in_areference s xi.
Proof.
  destruct xi as [[x y] z]. destruct s as [|[]]; cbn [in_interior in_areference in_element fst snd]; intros H; try (split; [|tauto]); cbn; lra.
Qed.

(** Every point of the grid is in a cell. *)
Lemma cell_1d o w n p : 0 < w -> (0 < n)%Z -> o <= p <= o + IZR n * w -> exists k, (0 <= k < n)%Z /\ o + IZR k * w <= p <= o + (IZR k + 1) * w.
Proof.
  intros Hw Hn Hp. pose proof (Zfloor_lb ((p - o) / w)) as L. pose proof (Zfloor_ub ((p - o) / w)) as U.
  set (f := Zfloor ((p - o) / w)) in *.
  assert (E : p - o = (p - o) / w * w) by (field; lra). set (r := (p - o) / w) in *. clearbody r.
  assert (R0 : 0 <= r). { apply Rmult_le_reg_r with w; auto. rewrite <- E. lra. }
  assert (RN : r <= IZR n). { apply Rmult_le_reg_r with w; auto. rewrite <- E. lra. }
  assert (F0 : (0 <= f)%Z). { apply le_IZR. apply Zfloor_le in R0. rewrite (Zfloor_IZR 0) in R0. apply IZR_le. exact R0. }
  destruct (Z_lt_le_dec f n) as [H|H].
  - exists f. split; [lia|]. split; nra.
  - assert (IZR n <= IZR f) by (apply IZR_le; auto). exists (n - 1)%Z. split; [lia|]. rewrite minus_IZR. split; nra.
Qed.
Lemma cell_tuple w : 0 < w -> forall o counts (p : nat -> R), length o = length counts -> Forall (fun d => 0 < d)%Z counts ->
  (forall d, (d < length o)%nat -> fst (nth d (grid_extent o w counts) (0, 0)) <= p d <= snd (nth d (grid_extent o w counts) (0, 0))) ->
  exists t, valid_tuple t counts /\ forall d, (d < length o)%nat -> fst (nth d (grid_cell o w t) (0, 0)) <= p d <= snd (nth d (grid_cell o w t) (0, 0)).
Proof.
  intros Hw. induction o as [|o0 o IH]; intros counts p HL Hc Hp.
  - destruct counts; [|discriminate]. exists []. split; [constructor|]. intros d Hd. simpl in Hd. lia.
  - destruct counts as [|n counts]; [discriminate|]. inversion Hc; subst.
    destruct (cell_1d o0 w n (p 0%nat) Hw ltac:(lia)) as (k & Hk & Hx). { exact (Hp 0%nat ltac:(simpl; lia)). }
    destruct (IH counts (fun d => p (S d))) as (t & Ht & Q). { simpl in HL. lia. } { auto. }
    { intros d Hd. exact (Hp (S d) ltac:(simpl; lia)). }
    exists (k :: t). split; [constructor; auto|]. intros [|d] Hd; [exact Hx|]. apply Q. simpl in Hd. lia.
Qed.
Lemma fine_counts_length m : length (fine_counts m) = length (mh_dims m).
Proof. unfold fine_counts. apply map_length. Qed.
Lemma point_in_cell m x : mh_ok m -> in_cell (mh_ndim m) (grid_extent (mh_origin m) (mh_cw m) (fine_counts m)) x ->
  exists g c, fine_cell m g c /\ in_cell (mh_ndim m) c x.
Proof.
  intros Hm Hx. pose proof (mh_cw_pos m Hm) as Hw. pose proof (fine_counts_pos m Hm) as Hf. destruct Hm as (Ho & Hd & Hn & Hc).
  assert (HL : length (mh_origin m) = mh_ndim m) by (unfold mh_ndim; auto).
  destruct (cell_tuple (mh_cw m) Hw (mh_origin m) (fine_counts m) (nthR x)) as (t & Ht & Q); auto.
  { rewrite fine_counts_length; auto. } { rewrite HL. exact Hx. }
  destruct (div_valid (mh_nf m) (mh_dims m) Hn t Ht) as (V1 & V2 & E).
  eexists _, _. split.
  - exists (map (fun i => Z.quot i (mh_nf m)) t), (map (fun i => Z.rem i (mh_nf m)) t). repeat split; eauto.
  - rewrite E. rewrite HL in Q. exact Q.
Qed.
Lemma grid_cell_solid w : 0 < w -> forall o t, solid (grid_cell o w t).
Proof. intros Hw. unfold solid. induction o; intros [|k t]; simpl; constructor; auto. simpl. lra. Qed.
Lemma fine_cell_solid m g c : mh_ok m -> fine_cell m g c -> solid c /\ length c = mh_ndim m.
Proof.
  intros Hm (co & f & V1 & V2 & _ & ->). split; [apply grid_cell_solid, mh_cw_pos; auto|].
  destruct Hm as (Ho & _ & Hn & _). destruct (subcell_div (mh_nf m) (mh_dims m) Hn co f V1) as (V & _). { exact V2. }
  apply valid_length in V. rewrite map_length in V. unfold mh_ndim.
  assert (G : forall o t, length t = length o -> length (grid_cell o (mh_cw m) t) = length o).
  { induction o; intros [|k t] H; simpl in *; auto; try discriminate. }
  rewrite G; congruence.
Qed.
