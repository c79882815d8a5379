(** Closed forms of the pieces built by make_hex_geom. *)
From Verif Require Import M_HexGeom S_HexGeom.
From Coq Require Import Reals List Lra Lia.
Import ListNotations.
Open Scope R_scope.

Definition dP : pgeom := mkP 0 (0, 0, 0).
Section L.
  Context (n : nat) (fx fy fz : p3 -> R).
  Definition Xp (p : p3) : p3 := (fx p, fy p, fz p).
  Lemma push_points_eq : forall refs vx, push_points fx fy fz refs vx = (fst (push_points fx fy fz refs vx), (vx + length refs)%nat) /\
    length (fst (push_points fx fy fz refs vx)) = length refs /\
    map p_id (fst (push_points fx fy fz refs vx)) = seq vx (length refs) /\
    map p_xyz (fst (push_points fx fy fz refs vx)) = map Xp refs.
  Proof.
    induction refs as [|r l IH]; intros vx; cbn [push_points].
    - cbn. rewrite Nat.add_0_r. auto.
    - destruct (push_points fx fy fz l (S vx)) as [ps v'] eqn:E. destruct (IH (S vx)) as (A & B & C & D). rewrite E in A, B, C, D. cbn [fst] in *.
      injection A as ->. cbn [length map seq]. rewrite B, C, D. repeat split. f_equal. lia.
  Qed.
  (** the whole of a loop whose turns each take [a] point ids and one curve id *)
  Lemma many_eq : forall {A : Type} (mk : nat -> counters -> A * counters) a,
    (forall i v c, snd (mk i (v, c)) = (v + a, S c)%nat) ->
    forall m s v c, many mk (seq s m) (v, c) = (map (fun i => fst (mk (s + i) (v + i * a, c + i))%nat) (seq 0 m), (v + m * a, c + m)%nat).
  Proof.
    intros A mk a H m. induction m as [|m IH]; intros s v c.
    - cbn. f_equal. f_equal; lia.
    - cbn [seq many]. destruct (mk s (v, c)) as [x [v1 c1]] eqn:E. pose proof (H s v c) as Hs. rewrite E in Hs. cbn [snd] in Hs. injection Hs as -> ->. rewrite IH. f_equal.
      + cbn [map]. f_equal; [replace (s + 0)%nat with s by lia; replace (v + 0 * a)%nat with v by lia; replace (c + 0)%nat with c by lia; rewrite E; reflexivity|].
        rewrite <- seq_shift, map_map. apply map_ext. intros i. do 2 f_equal; [lia|]. f_equal; lia.
      + f_equal; lia.
  Qed.
  Definition erefs (ex : nat) : list p3 := map (fun mx => qpoint1 n mx (vtx (tab map_edge_to_vertices ex 0)) (vtx (tab map_edge_to_vertices ex 1))) (seq 0 n).
  Definition frefs (k : nat) : list p3 := flat_map (fun mx => map (fun my => qpoint2 n mx my (vtx (tab map_face_to_vertices k 0)) (vtx (tab map_face_to_vertices k 1)) (vtx (tab map_face_to_vertices k 3))) (seq 0 n)) (seq 0 n).
  Definition verts : list pgeom := fst (push_points fx fy fz (map vtx (seq 0 8)) 0).
  Definition ptsE (ex : nat) : list pgeom := fst (push_points fx fy fz (erefs ex) (8 + ex * n)).
  Definition ptsF (k : nat) : list pgeom := fst (push_points fx fy fz (frefs k) (8 + 12 * n + k * (n * n))).
  Definition theE (ex : nat) : sgeom := mkS ex (map (fun j => nth (tab map_edge_to_vertices ex j) verts dP) [0; 1]%nat) ex (ptsE ex).
  Definition theF (k : nat) : qgeom := mkQ k (map (fun j => nth (tab map_face_to_edges k j) (map theE (seq 0 12)) (mkS 0 [] 0 [])) [0; 1; 2; 3]%nat) (12 + k) (ptsF k).
  Lemma length_erefs : forall ex, length (erefs ex) = n.
  Proof. intros. unfold erefs. rewrite map_length, seq_length. reflexivity. Qed.
  Lemma length_grid : forall {A} (g : nat -> nat -> A) l b, length (flat_map (fun i => map (g i) (seq 0 b)) l) = (length l * b)%nat.
  Proof. intros A g l b. induction l as [|i l IH]; [reflexivity|]. cbn [flat_map length Nat.mul]. rewrite app_length, map_length, seq_length, IH. reflexivity. Qed.
  Lemma length_frefs : forall k, length (frefs k) = (n * n)%nat.
  Proof. intros. unfold frefs. rewrite length_grid, seq_length. reflexivity. Qed.
  Lemma nth_grid : forall {A} (g : nat -> nat -> A) d b m s i j, (i < m)%nat -> (j < b)%nat ->
    nth (i * b + j) (flat_map (fun i => map (g i) (seq 0 b)) (seq s m)) d = g (s + i)%nat j.
  Proof.
    intros A g d b m. induction m as [|m IH]; intros s i j Hi Hj; [lia|]. cbn [seq flat_map]. destruct i as [|i].
    - cbn [Nat.mul Nat.add]. rewrite app_nth1 by (rewrite map_length, seq_length; lia). rewrite nth_indep with (d' := g s 0%nat) by (rewrite map_length, seq_length; lia).
      rewrite map_nth, seq_nth by lia. rewrite Nat.add_0_r. reflexivity.
    - rewrite app_nth2 by (rewrite map_length, seq_length; cbn; lia). rewrite map_length, seq_length. replace (S i * b + j - b)%nat with (i * b + j)%nat by (cbn; lia).
      rewrite IH by lia. f_equal; lia.
  Qed.
  Lemma make_eq : make_hex_geom n fx fy fz = mkHex verts (map theE (seq 0 12)) (map theF (seq 0 6)).
  Proof.
    unfold make_hex_geom, make_vertices. destruct (push_points_eq (map vtx (seq 0 8)) 0) as (A & _). rewrite A. fold verts. change (0 + length (map vtx (seq 0 8)))%nat with 8%nat.
    assert (HE : forall i v c, snd (make_edge n fx fy fz verts i (v, c)) = (v + n, S c)%nat).
    { intros i v c. unfold make_edge. fold (erefs i). destruct (push_points_eq (erefs i) v) as (B & _). rewrite B, length_erefs. reflexivity. }
    rewrite (many_eq _ n HE).
    assert (EE : map (fun i => fst (make_edge n fx fy fz verts (0 + i) (8 + i * n, 0 + i))%nat) (seq 0 12) = map theE (seq 0 12)).
    { apply map_ext. intros i. unfold make_edge. fold (erefs (0 + i)). destruct (push_points_eq (erefs (0 + i)) (8 + i * n)) as (B & _). rewrite B. reflexivity. }
    rewrite EE.
    assert (HF : forall i v c, snd (make_face n fx fy fz (map theE (seq 0 12)) i (v, c)) = (v + n * n, S c)%nat).
    { intros i v c. unfold make_face. fold (frefs i). destruct (push_points_eq (frefs i) v) as (B & _). rewrite B, length_frefs. reflexivity. }
    rewrite (many_eq _ _ HF). f_equal. apply map_ext. intros i. unfold make_face. fold (frefs (0 + i)).
    destruct (push_points_eq (frefs (0 + i)) (8 + 12 * n + i * (n * n))) as (B & _). rewrite B. unfold theF, ptsF. cbn [fst]. reflexivity.
  Qed.
  Lemma corner_eq : forall k, (k < 8)%nat -> vtx k = corner k.
  Proof. intros k H. do 8 (destruct k as [|k]; [reflexivity|]). lia. Qed.
  Lemma zn_eq : (2 <= n)%nat -> forall i, Znormalised n i = frac n i.
  Proof.
    intros H i. unfold Znormalised, polyE, frac. destruct (Nat.eqb_spec n 1); [lia|]. assert (INR (n - 1) <> 0) by (apply not_0_INR; lia). field. assumption.
  Qed.
  Lemma frac_range : (2 <= n)%nat -> forall i, (i < n)%nat -> 0 <= frac n i <= 1.
  Proof.
    intros H i Hi. unfold frac. assert (0 < INR (n - 1)) by (apply lt_0_INR; lia). assert (INR i <= INR (n - 1)) by (apply le_INR; lia). pose proof (pos_INR i).
    split; [apply Rmult_le_pos; [assumption|left; apply Rinv_0_lt_compat; assumption]|]. apply Rmult_le_reg_r with (INR (n - 1)); [assumption|]. unfold Rdiv. rewrite Rmult_assoc, Rinv_l by lra. lra.
  Qed.
  Lemma qpoint1_eq : (2 <= n)%nat -> forall i a b d, qpoint1 n i a b = along (frac n i) 0 a b d.
  Proof. intros H i [[? ?] ?] [[? ?] ?] [[? ?] ?]. unfold qpoint1, along. rewrite zn_eq by assumption. f_equal; [f_equal|]; ring. Qed.
  Lemma qpoint2_eq : (2 <= n)%nat -> forall i j a b d, qpoint2 n i j a b d = along (frac n i) (frac n j) a b d.
  Proof. intros H i j [[? ?] ?] [[? ?] ?] [[? ?] ?]. unfold qpoint2, along. rewrite !zn_eq by assumption. reflexivity. Qed.
  Lemma frac_0 : frac n 0 = 0.
  Proof. unfold frac. cbn [INR]. unfold Rdiv. ring. Qed.
  Lemma frac_last : (2 <= n)%nat -> frac n (n - 1) = 1.
  Proof. intros H. unfold frac. apply Rinv_r. apply not_0_INR. lia. Qed.
  Lemma frac_mirror : (2 <= n)%nat -> forall i, (i < n)%nat -> frac n (n - 1 - i) = 1 - frac n i.
  Proof. intros H i Hi. unfold frac. rewrite minus_INR by lia. field. apply not_0_INR. lia. Qed.
  Lemma nth_map_xyz : forall (l : list pgeom) i d, (i < length l)%nat -> p_xyz (nth i l d) = nth i (map p_xyz l) (p_xyz d).
  Proof. intros. rewrite map_nth. reflexivity. Qed.
  Lemma vert_eq : forall k, (k < 8)%nat -> nth k verts dP = mkP k (Xp (corner k)).
  Proof. intros k H. do 8 (destruct k as [|k]; [reflexivity|]). lia. Qed.
  Lemma ptE_xyz : forall ex i d, (i < n)%nat -> p_xyz (nth i (ptsE ex) d) = Xp (qpoint1 n i (vtx (tab map_edge_to_vertices ex 0)) (vtx (tab map_edge_to_vertices ex 1))).
  Proof.
    intros ex i d H. destruct (push_points_eq (erefs ex) (8 + ex * n)) as (_ & B & _ & D). fold (ptsE ex) in *. rewrite <- map_nth. rewrite D. rewrite nth_indep with (d' := Xp (0, 0, 0)) by (rewrite map_length, length_erefs; assumption). rewrite map_nth. f_equal.
    unfold erefs. rewrite nth_indep with (d' := qpoint1 n 0 (vtx (tab map_edge_to_vertices ex 0)) (vtx (tab map_edge_to_vertices ex 1))) by (rewrite map_length, seq_length; assumption).
    rewrite (map_nth (fun mx => qpoint1 n mx (vtx (tab map_edge_to_vertices ex 0)) (vtx (tab map_edge_to_vertices ex 1)))). rewrite seq_nth by assumption. reflexivity.
  Qed.
  Lemma ptF_xyz : forall k i j d, (i < n)%nat -> (j < n)%nat -> p_xyz (nth (i * n + j) (ptsF k) d) = Xp (qpoint2 n i j (vtx (tab map_face_to_vertices k 0)) (vtx (tab map_face_to_vertices k 1)) (vtx (tab map_face_to_vertices k 3))).
  Proof.
    intros k i j d Hi Hj. destruct (push_points_eq (frefs k) (8 + 12 * n + k * (n * n))) as (_ & B & _ & D). fold (ptsF k) in *. rewrite <- map_nth. rewrite D.
    rewrite nth_indep with (d' := Xp (0, 0, 0)) by (rewrite map_length, length_frefs; nia). rewrite map_nth. f_equal. unfold frefs.
    exact (nth_grid (fun mx my => qpoint2 n mx my (vtx (tab map_face_to_vertices k 0)) (vtx (tab map_face_to_vertices k 1)) (vtx (tab map_face_to_vertices k 3))) (0, 0, 0) n n 0 i j Hi Hj).
  Qed.
  Lemma length_ptsE : forall ex, length (ptsE ex) = n.
  Proof. intros. unfold ptsE. rewrite (proj1 (proj2 (push_points_eq _ _))). apply length_erefs. Qed.
  Lemma length_ptsF : forall k, length (ptsF k) = (n * n)%nat.
  Proof. intros. unfold ptsF. rewrite (proj1 (proj2 (push_points_eq _ _))). apply length_frefs. Qed.
End L.
