From Verif Require Import L_Coord L_Jacobi L_Basis1 L_Basis2 L_Basis3.
From Verif Require Import M_Basis S_Basis S_Basis2.
From Coq Require Import Lia Lra.
From Coq Require Import List.
Import ListNotations.
Local Open Scope nat_scope.

(** * Loops over modes *)
Lemma forr_G {S} n (body : nat -> S -> S) (G : nat -> S) : (forall i, i < n -> body i (G i) = G (Datatypes.S i)) -> forr n body (G 0) = G n.
Proof. induction n; intros H; [auto|]. rewrite forr_S, IHn by (intros; apply H; lia). apply H. lia. Qed.

(** [run emit acc0 pre]: emit the modes of [pre] one after the other. *)
Section Run.
Context {A : Type} (emit : nat -> fl -> A -> option A) (acc0 : A).
Fixpoint runf (k : nat) (pre : list fl) (acc : option A) : option A :=
  match pre with [] => acc | b :: pre' => runf (S k) pre' (get a <- acc; emit k b a) end.
Definition run (pre : list fl) : option A := runf 0 pre (Some acc0).
Lemma runf_app pre : forall k acc b, runf k (pre ++ [b]) acc = get a <- runf k pre acc; emit (k + length pre) b a.
Proof.
  induction pre as [|x pre IH]; intros k acc b; cbn [app runf length].
  - rewrite Nat.add_0_r. auto.
  - rewrite IH. rewrite Nat.add_succ_r, <- Nat.add_succ_l. auto.
Qed.
Lemma run_app pre b : run (pre ++ [b]) = get a <- run pre; emit (length pre) b a.
Proof. unfold run. rewrite runf_app. auto. Qed.
Definition St (pre : list fl) : option (nat * A) := get a <- run pre; Some (length pre, a).
Lemma St_app pre b : (get s <- St pre; let '(m, a) := s in get a' <- emit m b a; Some (S m, a')) = St (pre ++ [b]).
Proof.
  unfold St. rewrite run_app. destruct (run pre) as [a|]; auto. rewrite app_length. cbn [length]. rewrite Nat.add_1_r. destruct (emit _ _ _); auto.
Qed.
End Run.

(** ** Prefixes of the index sets *)
Definition pre2 (n1 : nat -> nat) (p q : nat) : list (nat * nat) := idx2 p n1 ++ map (fun q => (p, q)) (seq 0 q).
Definition pre3 (n1 : nat -> nat) (n2 : nat -> nat -> nat) (p q r : nat) : list (nat * nat * nat) :=
  idx3 p n1 n2 ++ flat_map (fun q => map (fun r => (p, q, r)) (seq 0 (n2 p q))) (seq 0 q) ++ map (fun r => (p, q, r)) (seq 0 r).
Lemma pre2_0 n1 p : pre2 n1 p 0 = idx2 p n1. Proof. unfold pre2. cbn. apply app_nil_r. Qed.
Lemma pre2_S n1 p q : pre2 n1 p (S q) = pre2 n1 p q ++ [(p, q)].
Proof. unfold pre2. rewrite seq_S, map_app, app_assoc. auto. Qed.
Lemma pre2_end n1 p : pre2 n1 p (n1 p) = idx2 (S p) n1.
Proof. unfold pre2, idx2. rewrite seq_S, flat_map_app. cbn [flat_map]. rewrite app_nil_r. auto. Qed.
Lemma pre3_0 n1 n2 p q : pre3 n1 n2 p q 0 = idx3 p n1 n2 ++ flat_map (fun q => map (fun r => (p, q, r)) (seq 0 (n2 p q))) (seq 0 q).
Proof. unfold pre3. cbn [seq map]. rewrite app_nil_r. auto. Qed.
Lemma pre3_00 n1 n2 p : pre3 n1 n2 p 0 0 = idx3 p n1 n2. Proof. rewrite pre3_0. cbn. apply app_nil_r. Qed.
Lemma pre3_S n1 n2 p q r : pre3 n1 n2 p q (S r) = pre3 n1 n2 p q r ++ [(p, q, r)].
Proof. unfold pre3. rewrite seq_S, map_app, !app_assoc. auto. Qed.
Lemma pre3_end n1 n2 p q : pre3 n1 n2 p q (n2 p q) = pre3 n1 n2 p (S q) 0.
Proof. rewrite pre3_0. unfold pre3. rewrite (seq_S q), flat_map_app. cbn [flat_map]. rewrite app_nil_r. auto. Qed.
Lemma pre3_end2 n1 n2 p : pre3 n1 n2 p (n1 p) 0 = idx3 (S p) n1 n2.
Proof. rewrite pre3_0. unfold idx3. rewrite (seq_S p), flat_map_app. cbn [flat_map]. rewrite app_nil_r. auto. Qed.
Lemma idx2_split n1 P p q : p < P -> q < n1 p -> exists rest, idx2 P n1 = pre2 n1 p q ++ (p, q) :: rest.
Proof.
  intros Hp Hq. unfold idx2 at 1. rewrite (seq_mid P p 1) by lia. rewrite !flat_map_app. cbn [seq flat_map]. rewrite app_nil_r.
  rewrite (seq_mid (n1 p) q 1) by lia. rewrite !map_app. cbn [seq map]. unfold pre2, idx2. eexists. rewrite <- !app_assoc. cbn [app]. reflexivity.
Qed.
Lemma idx3_split n1 n2 P p q r : p < P -> q < n1 p -> r < n2 p q -> exists rest, idx3 P n1 n2 = pre3 n1 n2 p q r ++ (p, q, r) :: rest.
Proof.
  intros Hp Hq Hr. unfold idx3 at 1. rewrite (seq_mid P p 1) by lia. rewrite !flat_map_app. cbn [seq flat_map]. rewrite app_nil_r.
  rewrite (seq_mid (n1 p) q 1) by lia. rewrite !flat_map_app. cbn [seq flat_map]. rewrite app_nil_r.
  rewrite (seq_mid (n2 p q) r 1) by lia. rewrite !map_app. cbn [seq map]. unfold pre3, idx3. eexists. rewrite <- !app_assoc. cbn [app]. reflexivity.
Qed.
Lemma nth_idx2 {B} (g : nat * nat -> B) n1 P p q : p < P -> q < n1 p -> nth_error (map g (idx2 P n1)) (length (pre2 n1 p q)) = Some (g (p, q)).
Proof.
  intros Hp Hq. destruct (idx2_split n1 P p q Hp Hq) as (rest & ->). rewrite map_app, nth_error_app2; rewrite map_length; [|lia]. rewrite Nat.sub_diag. auto.
Qed.
Lemma nth_idx3 {B} (g : nat * nat * nat -> B) n1 n2 P p q r : p < P -> q < n1 p -> r < n2 p q ->
  nth_error (map g (idx3 P n1 n2)) (length (pre3 n1 n2 p q r)) = Some (g (p, q, r)).
Proof.
  intros Hp Hq Hr. destruct (idx3_split n1 n2 P p q r Hp Hq Hr) as (rest & ->). rewrite map_app, nth_error_app2; rewrite map_length; [|lia]. rewrite Nat.sub_diag. auto.
Qed.
Lemma pre2_length n1 p q : length (pre2 n1 p q) = nsum p n1 + q.
Proof. unfold pre2. rewrite app_length, idx2_length, map_length, seq_length. auto. Qed.
Lemma pre3_length n1 n2 p q r : length (pre3 n1 n2 p q r) = nsum p (fun p => nsum (n1 p) (n2 p)) + nsum q (n2 p) + r.
Proof.
  unfold pre3. rewrite !app_length, idx3_length, flat_map_len_seq, map_length, seq_length.
  rewrite (nsum_ext q _ (n2 p)) by (intros; rewrite map_length, seq_length; auto). lia.
Qed.
Lemma nsum_ge0 n f : f 0 * Nat.min 1 n <= nsum n f.
Proof. induction n; cbn [nsum]; [lia|]. destruct n; cbn [nsum Nat.min] in *; lia. Qed.

(** ** Generic loops *)
Lemma forr_sim {S T} n (body : nat -> S -> S) (body' : nat -> T -> T) (F : nat -> T -> S) st :
  (forall i t, i < n -> body i (F i t) = F (Datatypes.S i) (body' i t)) -> forr n body (F 0 st) = F n (forr n body' st).
Proof. induction n; intros H; [auto|]. rewrite !forr_S, IHn by (intros; apply H; lia). apply H. lia. Qed.
Section Loops.
Context {A : Type} (emit : nat -> fl -> A -> option A) (acc0 : A).
Notation St := (St emit acc0).
Notation run := (run emit acc0).
Lemma St_dest pre : St pre = None \/ exists a, St pre = Some (length pre, a).
Proof. unfold L_Basis4.St. destruct (run pre); eauto. Qed.
(** loops that carry the mode number *)
Lemma loop2_St P n1 (outer : nat -> option (nat * A) -> option (nat * A)) body (g : nat * nat -> fl) :
  (forall p s, p < P -> outer p s = forr (n1 p) (body p) s) ->
  (forall p q, p < P -> q < n1 p -> body p q None = None) ->
  (forall p q a, p < P -> q < n1 p -> let m := length (pre2 n1 p q) in
     body p q (Some (m, a)) = get a' <- emit m (g (p, q)) a; Some (S m, a')) ->
  forr P outer (Some (0, acc0)) = St (map g (idx2 P n1)).
Proof.
  intros Ho Hn H. cbv zeta in H. change (Some (0, acc0)) with (St (map g (idx2 0 n1))).
  apply (forr_G P _ (fun p => St (map g (idx2 p n1)))). intros p Hp. rewrite Ho by auto. rewrite <- (pre2_0 n1 p).
  rewrite (forr_G (n1 p) _ (fun q => St (map g (pre2 n1 p q)))); [rewrite pre2_end; auto|].
  intros q Hq. rewrite pre2_S, map_app. cbn [map]. rewrite <- St_app.
  destruct (St_dest (map g (pre2 n1 p q))) as [-> | (a & ->)]; [auto|]. rewrite map_length, H by auto. auto.
Qed.
Lemma loop3_St P n1 n2 (outer : nat -> option (nat * A) -> option (nat * A)) mid body (g : nat * nat * nat -> fl) :
  (forall p s, p < P -> outer p s = forr (n1 p) (mid p) s) ->
  (forall p q s, p < P -> q < n1 p -> mid p q s = forr (n2 p q) (body p q) s) ->
  (forall p q r, p < P -> q < n1 p -> r < n2 p q -> body p q r None = None) ->
  (forall p q r a, p < P -> q < n1 p -> r < n2 p q -> let m := length (pre3 n1 n2 p q r) in
     body p q r (Some (m, a)) = get a' <- emit m (g (p, q, r)) a; Some (S m, a')) ->
  forr P outer (Some (0, acc0)) = St (map g (idx3 P n1 n2)).
Proof.
  intros Ho Hm Hn H. cbv zeta in H. change (Some (0, acc0)) with (St (map g (idx3 0 n1 n2))).
  apply (forr_G P _ (fun p => St (map g (idx3 p n1 n2)))). intros p Hp. rewrite Ho by auto. rewrite <- (pre3_00 n1 n2 p).
  rewrite (forr_G (n1 p) _ (fun q => St (map g (pre3 n1 n2 p q 0)))); [rewrite pre3_end2; auto|].
  intros q Hq. rewrite Hm by auto. rewrite (forr_G (n2 p q) _ (fun r => St (map g (pre3 n1 n2 p q r)))); [rewrite pre3_end; auto|].
  intros r Hr. rewrite pre3_S, map_app. cbn [map]. rewrite <- St_app.
  destruct (St_dest (map g (pre3 n1 n2 p q r))) as [-> | (a & ->)]; [auto|]. rewrite map_length, H by auto. auto.
Qed.
(** loops that compute the mode number *)
Lemma loop2_run P n1 (body : nat -> nat -> option A -> option A) (g : nat * nat -> fl) :
  (forall p q s, p < P -> q < n1 p -> body p q s = get a <- s; emit (length (pre2 n1 p q)) (g (p, q)) a) ->
  forr P (fun p => forr (n1 p) (body p)) (Some acc0) = run (map g (idx2 P n1)).
Proof.
  intros H. change (Some acc0) with (run (map g (idx2 0 n1))).
  apply (forr_G P _ (fun p => run (map g (idx2 p n1)))). intros p Hp. rewrite <- (pre2_0 n1 p).
  rewrite (forr_G (n1 p) _ (fun q => run (map g (pre2 n1 p q)))); [rewrite pre2_end; auto|].
  intros q Hq. rewrite pre2_S, map_app. cbn [map]. rewrite run_app, H by auto. rewrite map_length. auto.
Qed.
Lemma loop3_run P n1 n2 (outer : nat -> option A -> option A) mid body (g : nat * nat * nat -> fl) :
  (forall p s, p < P -> outer p s = forr (n1 p) (mid p) s) ->
  (forall p q s, p < P -> q < n1 p -> mid p q s = forr (n2 p q) (body p q) s) ->
  (forall p q r s, p < P -> q < n1 p -> r < n2 p q -> body p q r s = get a <- s; emit (length (pre3 n1 n2 p q r)) (g (p, q, r)) a) ->
  forr P outer (Some acc0) = run (map g (idx3 P n1 n2)).
Proof.
  intros Ho Hm H. change (Some acc0) with (run (map g (idx3 0 n1 n2))).
  apply (forr_G P _ (fun p => run (map g (idx3 p n1 n2)))). intros p Hp. rewrite Ho by auto. rewrite <- (pre3_00 n1 n2 p).
  rewrite (forr_G (n1 p) _ (fun q => run (map g (pre3 n1 n2 p q 0)))); [rewrite pre3_end2; auto|].
  intros q Hq. rewrite Hm by auto. rewrite (forr_G (n2 p q) _ (fun r => run (map g (pre3 n1 n2 p q r)))); [rewrite pre3_end; auto|].
  intros r Hr. rewrite pre3_S, map_app. cbn [map]. rewrite run_app, H by auto. rewrite map_length. auto.
Qed.
End Loops.

(** The two emitters. *)
Definition emitE (dofs : list R) (m : nat) (b : fl) (ev : fl) : option fl := get c <- rdR dofs m; Some (fadd ev (fmul c b)).
Definition emitP (value : R) (m : nat) (b : fl) (adds : list (nat * fl)) : option (list (nat * fl)) := Some (adds ++ [(m, fmul (Some value) b)]).
Lemma dot_app d b x c : nth_error d (length b) = Some c -> dot d (b ++ [x]) = (dot d b + c * x)%R.
Proof.
  revert d. induction b as [|y b IH]; intros [|e d] H; cbn [length nth_error app dot] in *; try discriminate.
  - injection H as ->. destruct d; cbn [dot]; lra.
  - rewrite IH; auto. lra.
Qed.
Lemma run_E dofs bs : length bs <= length dofs -> run (emitE dofs) (Some 0%R) (map Some bs) = Some (Some (dot dofs bs)).
Proof.
  induction bs as [|b bs IH] using rev_ind; intros H.
  - cbn. destruct dofs; auto.
  - rewrite app_length in H. cbn [length] in H. rewrite map_app. cbn [map]. rewrite run_app, IH by lia. rewrite map_length. unfold emitE, rdR.
    destruct (nth_error dofs (length bs)) eqn:E; [|apply nth_error_None in E; lia]. cbn [fmul fadd]. rewrite (dot_app _ _ _ _ E). auto.
Qed.
Definition addsof (value : R) (bs : list R) : list (nat * fl) := combine (seq 0 (length bs)) (map (fun b => Some (value * b)%R) bs).
Lemma combine_app {X Y} (a : list X) (b : list Y) a' b' : length a = length b -> combine (a ++ a') (b ++ b') = combine a b ++ combine a' b'.
Proof. revert b. induction a; intros [|y b] H; cbn in *; try discriminate; auto. f_equal. apply IHa. lia. Qed.
Lemma run_P value bs : run (emitP value) [] (map Some bs) = Some (addsof value bs).
Proof.
  induction bs as [|b bs IH] using rev_ind; [auto|]. rewrite map_app. cbn [map]. rewrite run_app, IH. unfold emitP, addsof. do 2 f_equal.
  rewrite !map_length, app_length, map_app. cbn [length map]. rewrite Nat.add_1_r, seq_S, combine_app by (rewrite seq_length, map_length; auto). auto.
Qed.

(** ** Reading the local spaces *)
Lemma rd_A P z p : p < P -> rd (map Some (listA P z)) p = Some (Some (modA p z)).
Proof. intros H. unfold rd, listA. rewrite map_map, nth_error_map, nth_error_seq by auto. auto. Qed.
Lemma rd_B P z p q : p < P -> q < P - p -> rd (map Some (listB P z)) (length (pre2 (fun p => P - p) p q)) = Some (Some (modB p q z)).
Proof. intros H1 H2. unfold rd, listB. rewrite map_map. apply (nth_idx2 (fun x => Some (let '(p, q) := x in modB p q z))); auto. Qed.
Lemma rd_C P z p q r : p < P -> q < P - p -> r < P - p - q ->
  rd (map Some (listC P z)) (length (pre3 (fun p => P - p) (fun p q => P - p - q) p q r)) = Some (Some (modC p q r z)).
Proof. intros H1 H2 H3. unfold rd, listC. rewrite map_map. apply (nth_idx3 (fun x => Some (let '(p, q, r) := x in modC p q r z))); auto. Qed.
Lemma rd_Pyr P z p q r : p < P -> q < P -> r < P - Nat.max p q ->
  rd (map Some (listPyrC P z)) (length (pre3 (fun _ => P) (fun p q => P - Nat.max p q) p q r)) = Some (Some (modPyrC p q r z)).
Proof. intros H1 H2 H3. unfold rd, listPyrC. rewrite map_map. apply (nth_idx3 (fun x => Some (let '(p, q, r) := x in modPyrC p q r z))); auto. Qed.

(** ** The six shapes *)
Lemma smodes_length s P e0 e1 e2 : length (smodes s P e0 e1 e2) = snum s P.
Proof.
  destruct s; cbn [smodes snum]; unfold modes_tri, modes_quad, modes_hex, modes_pyr, modes_prism, modes_tet;
    rewrite ?map_length, ?idx2_length, ?idx3_length; auto.
  - rewrite nsum_const. auto.
  - rewrite (nsum_ext P _ (fun _ => P * P)) by (intros; apply nsum_const). rewrite nsum_const. lia.
Qed.
Lemma mode1_2 P p q : 2 <= P -> p < P -> q < P - p -> Nat.eqb (length (pre2 (fun p => P - p) p q)) 1 = Nat.eqb p 0 && Nat.eqb q 1.
Proof.
  intros HP Hp Hq. rewrite pre2_length. destruct p; cbn [nsum Nat.eqb andb]; [auto|].
  pose proof (nsum_ge0 (S p) (fun p => P - p)) as H. cbn [Nat.min] in H. rewrite Nat.sub_0_r in H. cbn [nsum] in H.
  apply Nat.eqb_neq. lia.
Qed.
Lemma mode1_3 P n1 n2 p q r : 2 <= P -> n2 0 0 = P -> (forall p, p < P -> 1 <= n1 p) -> p < P -> q < n1 p -> r < n2 p q ->
  Nat.eqb (length (pre3 n1 n2 p q r)) 1 = Nat.eqb p 0 && Nat.eqb q 0 && Nat.eqb r 1.
Proof.
  intros HP H0 H1 Hp Hq Hr. rewrite pre3_length. destruct p; cbn [nsum Nat.eqb andb].
  - destruct q; cbn [nsum Nat.eqb andb]; [auto|]. pose proof (nsum_ge0 (S q) (n2 0)) as H. cbn [Nat.min] in H. cbn [nsum] in H. apply Nat.eqb_neq. lia.
  - pose proof (nsum_ge0 (S p) (fun p => nsum (n1 p) (n2 p))) as H. cbn [Nat.min] in H. cbn [nsum] in H.
    pose proof (nsum_ge0 (n1 0) (n2 0)) as H'. pose proof (H1 0 ltac:(lia)). rewrite Nat.min_l in H' by lia. apply Nat.eqb_neq. lia.
Qed.

Section Shapes.
Context (P : nat) (HP : 2 <= P) (e0 e1 e2 : R).
Notation A0 := (map Some (listA P e0)).
Notation A1 := (map Some (listA P e1)).
Notation A2 := (map Some (listA P e2)).
Notation B1 := (map Some (listB P e1)).
Notation B2 := (map Some (listB P e2)).
Notation C2 := (map Some (listC P e2)).
Notation Y2 := (map Some (listPyrC P e2)).

Lemma St_E dofs s : snum s P <= length dofs ->
  (get r <- St (emitE dofs) (Some 0%R) (map Some (smodes s P e0 e1 e2)); Some (snd r)) = Some (Some (dot dofs (smodes s P e0 e1 e2))).
Proof. intros H. unfold St. rewrite run_E by (rewrite smodes_length; auto). auto. Qed.
Lemma St_P value s :
  (get r <- St (emitP value) [] (map Some (smodes s P e0 e1 e2)); Some (snd r)) = Some (addsof value (smodes s P e0 e1 e2)).
Proof. unfold St. rewrite run_P. auto. Qed.


Ltac fin := cbn [fmul fadd]; repeat f_equal; try ring.
(* triangle *)
Lemma tri_E dofs : snum Tri P <= length dofs -> loop_evaluate_tri P dofs A0 B1 = Some (Some (dot dofs (smodes Tri P e0 e1 e2))).
Proof.
  intros H. rewrite <- (St_E dofs Tri H). unfold loop_evaluate_tri. f_equal. cbn [smodes]. unfold modes_tri. rewrite map_map.
  erewrite (loop2_St (emitE dofs) (Some 0%R) P (fun p => P - p)); [reflexivity|reflexivity|reflexivity|].
  intros p q a Hp Hq. cbv beta iota zeta. rewrite (mode1_2 P p q HP Hp Hq), (rd_A P e0), rd_B by auto. unfold emitE. destruct (rdR _ _) as [c|]; auto.
  destruct (_ && _); rewrite fmul_assoc; auto.
Qed.
Lemma tri_P v : loop_project_tri P v A0 B1 = Some (addsof v (smodes Tri P e0 e1 e2)).
Proof.
  rewrite <- (St_P v Tri). unfold loop_project_tri. f_equal. cbn [smodes]. unfold modes_tri. rewrite map_map.
  erewrite (loop2_St (emitP v) [] P (fun p => P - p)); [reflexivity|reflexivity|reflexivity|].
  intros p q a Hp Hq. cbv beta iota zeta. rewrite (mode1_2 P p q HP Hp Hq), (rd_A P e0), rd_B by auto. unfold emitP.
  destruct (_ && _); rewrite fmul_assoc; auto.
Qed.
(* quadrilateral *)
Lemma quad_E dofs : snum Quad P <= length dofs -> loop_evaluate_quad P dofs A0 A1 = Some (Some (dot dofs (smodes Quad P e0 e1 e2))).
Proof.
  intros H. rewrite <- (run_E dofs) by (rewrite smodes_length; auto). unfold loop_evaluate_quad. cbn [smodes]. unfold modes_quad. rewrite map_map.
  apply (loop2_run (emitE dofs) (Some 0%R) P (fun _ => P)). intros p q s Hp Hq. destruct s as [a|]; auto.
  rewrite pre2_length, nsum_const, !rd_A by auto. unfold emitE. destruct (rdR _ _); auto. rewrite fmul_assoc. auto.
Qed.
Lemma quad_P v : loop_project_quad P v A0 A1 = Some (addsof v (smodes Quad P e0 e1 e2)).
Proof.
  rewrite <- (run_P v). unfold loop_project_quad. cbn [smodes]. unfold modes_quad. rewrite map_map.
  apply (loop2_run (emitP v) [] P (fun _ => P)). intros p q s Hp Hq. destruct s as [a|]; auto.
  rewrite pre2_length, nsum_const, !rd_A by auto. unfold emitP. rewrite fmul_assoc. auto.
Qed.
(* hexahedron *)
Lemma hex_mode r q p : length (pre3 (fun _ => P) (fun _ _ => P) r q p) = p + (q * P + r * P * P).
Proof. rewrite pre3_length. rewrite (nsum_ext r _ (fun _ => P * P)) by (intros; apply nsum_const). rewrite !nsum_const. lia. Qed.
Lemma hex_E dofs : snum Hex P <= length dofs -> loop_evaluate_hex P dofs A0 A1 A2 = Some (Some (dot dofs (smodes Hex P e0 e1 e2))).
Proof.
  intros H. rewrite <- (run_E dofs) by (rewrite smodes_length; auto). unfold loop_evaluate_hex. cbn [smodes]. unfold modes_hex. rewrite map_map.
  eapply (loop3_run (emitE dofs) (Some 0%R) P (fun _ => P) (fun _ _ => P)).
  - intros r s Hr. rewrite (rd_A P e2) by auto. reflexivity.
  - intros r q s Hr Hq. cbv beta. rewrite (rd_A P e1) by auto. reflexivity.
  - intros r q p s Hr Hq Hp. cbv beta. destruct s as [a|]; auto. rewrite hex_mode, (rd_A P e0) by auto. unfold emitE. destruct (rdR _ _) as [c|]; auto.
    destruct c, a; cbn [fmul fadd]; auto. do 2 f_equal. ring.
Qed.
Lemma hex_P v : loop_project_hex P v A0 A1 A2 = Some (addsof v (smodes Hex P e0 e1 e2)).
Proof.
  rewrite <- (run_P v). unfold loop_project_hex. cbn [smodes]. unfold modes_hex. rewrite map_map.
  eapply (loop3_run (emitP v) [] P (fun _ => P) (fun _ _ => P)).
  - intros r s Hr. rewrite (rd_A P e2) by auto. reflexivity.
  - intros r q s Hr Hq. cbv beta. rewrite (rd_A P e1) by auto. reflexivity.
  - intros r q p s Hr Hq Hp. cbv beta. destruct s as [a|]; auto. rewrite hex_mode, (rd_A P e0) by auto. unfold emitP. cbn [fmul]. do 5 f_equal. ring.
Qed.
(* pyramid *)
Lemma pyr_E dofs : snum Pyr P <= length dofs -> loop_evaluate_pyr P dofs A0 A1 Y2 = Some (Some (dot dofs (smodes Pyr P e0 e1 e2))).
Proof.
  intros H. rewrite <- (St_E dofs Pyr H). unfold loop_evaluate_pyr. f_equal. cbn [smodes]. unfold modes_pyr. rewrite map_map.
  erewrite (loop3_St (emitE dofs) (Some 0%R) P (fun _ => P) (fun p q => P - Nat.max p q)); [reflexivity|..].
  - intros p s Hp. rewrite (rd_A P e0) by auto. reflexivity.
  - intros p q s Hp Hq. cbv beta. rewrite (rd_A P e1) by auto. reflexivity.
  - reflexivity.
  - intros p q r a Hp Hq Hr. cbv beta iota zeta. rewrite (mode1_3 P (fun _ => P) (fun p q => P - Nat.max p q) p q r) by (auto; lia).
    rewrite rd_Pyr by auto. unfold emitE. destruct (rdR _ _) as [c|]; auto.
    destruct (_ && _ && _), c, a; cbn [fmul fadd]; auto; do 3 f_equal; ring.
Qed.
Lemma pyr_P v : loop_project_pyr P v A0 A1 Y2 = Some (addsof v (smodes Pyr P e0 e1 e2)).
Proof.
  rewrite <- (St_P v Pyr). unfold loop_project_pyr. f_equal. cbn [smodes]. unfold modes_pyr. rewrite map_map.
  erewrite (loop3_St (emitP v) [] P (fun _ => P) (fun p q => P - Nat.max p q)); [reflexivity|..].
  - intros p s Hp. rewrite (rd_A P e0) by auto. reflexivity.
  - intros p q s Hp Hq. cbv beta. rewrite (rd_A P e1) by auto. reflexivity.
  - reflexivity.
  - intros p q r a Hp Hq Hr. cbv beta iota zeta. rewrite (mode1_3 P (fun _ => P) (fun p q => P - Nat.max p q) p q r) by (auto; lia).
    rewrite rd_Pyr by auto. unfold emitP. destruct (_ && _ && _); cbn [fmul]; do 6 f_equal; ring.
Qed.
(* prism *)
Lemma get_id {X} (o : option X) : (get x <- o; Some x) = o. Proof. destruct o; auto. Qed.
Definition carry {X} (k : nat) (o : option X) : option (nat * X) := get x <- o; Some (k, x).
Lemma prism_E dofs : snum Prism P <= length dofs -> loop_evaluate_prism P dofs A0 A1 B2 = Some (Some (dot dofs (smodes Prism P e0 e1 e2))).
Proof.
  intros H. rewrite <- (St_E dofs Prism H). unfold loop_evaluate_prism.
  match goal with |- (get r <- forr P ?o _; _) = _ => set (outer := o) end.
  pose (inner := fun p (q : nat) => forr (P - p) (fun r (st : option (nat * fl)) =>
        get s <- st;
        let '(mode, ev) := s in
        let etmp2 := Some (modB p r e2) in
        let tmp := if Nat.eqb p 0 && Nat.eqb r 1 then fmul (Some (modA q e1)) etmp2 else fmul (fmul (Some (modA p e0)) (Some (modA q e1))) etmp2 in
        get coeff <- rdR dofs mode;
        Some (S mode, fadd ev (fmul coeff tmp)))).
  assert (E : forr P outer (carry 0 (Some (0, Some 0%R))) = carry (nsum P (fun p => P - p)) (forr P (fun p => forr P (inner p)) (Some (0, Some 0%R)))).
  { apply (forr_sim P outer _ (fun i => carry (nsum i (fun p => P - p)))). intros p t Hp. unfold outer. rewrite (rd_A P e0) by auto.
    destruct t as [t|].
    - cbn [carry]. cbn [nsum].
      match goal with |- (get x <- ?f; _) = _ => replace f with (forr P (inner p) (Some t)) end; [reflexivity|].
      apply forr_ext. intros q s Hq. rewrite (rd_A P e1) by auto. unfold inner. apply forr_ext. intros r s' Hr. destruct s' as [[m ev]|]; auto.
      pose proof (rd_B P e2 p r Hp Hr) as Er. rewrite pre2_length in Er. rewrite Er. auto.
    - cbn [carry]. symmetry. 
      assert (Z : forall n, forr n (inner p) None = None).
      { induction n; [auto|]. rewrite forr_S, IHn. unfold inner. generalize (P - p). intros k. clear. induction k; [auto|]. rewrite forr_S, IHk. auto. }
      rewrite Z. auto. }
  change (Some (0, (0, Some 0%R))) with (@carry (nat * fl) 0 (Some (0, Some 0%R))). rewrite E. unfold carry. cbn [smodes]. unfold modes_prism. rewrite map_map.
  match goal with |- (get r <- (get x <- ?X; _); _) = (get r <- ?Y; _) => assert (EQ : X = Y); [|rewrite EQ; destruct Y; reflexivity] end.
  eapply (loop3_St (emitE dofs) (Some 0%R) P (fun _ => P) (fun p _ => P - p)); [reflexivity|reflexivity|reflexivity|].
  - intros p q r a Hp Hq Hr. cbv beta iota zeta. unfold emitE. destruct (rdR _ _) as [c|]; auto. destruct (_ && _), c, a; cbn [fmul fadd]; auto; do 3 f_equal; ring.
Qed.
Lemma prism_P v : loop_project_prism P v A0 A1 B2 = Some (addsof v (smodes Prism P e0 e1 e2)).
Proof.
  rewrite <- (St_P v Prism). unfold loop_project_prism.
  match goal with |- (get r <- forr P ?o _; _) = _ => set (outer := o) end.
  pose (inner := fun p (q : nat) => forr (P - p) (fun r (st : option (nat * list (nat * fl))) =>
        get s <- st;
        let '(mode, adds) := s in
        let etmp2 := Some (modB p r e2) in
        Some (S mode, adds ++ [(mode, if Nat.eqb p 0 && Nat.eqb r 1 then fmul (fmul (Some v) (Some (modA q e1))) etmp2
                                      else fmul (fmul (fmul (Some v) (Some (modA p e0))) (Some (modA q e1))) etmp2)]))).
  assert (E : forr P outer (carry 0 (Some (0, []))) = carry (nsum P (fun p => P - p)) (forr P (fun p => forr P (inner p)) (Some (0, [])))).
  { apply (forr_sim P outer _ (fun i => carry (nsum i (fun p => P - p)))). intros p t Hp. unfold outer. rewrite (rd_A P e0) by auto.
    destruct t as [t|].
    - cbn [carry]. cbn [nsum].
      match goal with |- (get x <- ?f; _) = _ => replace f with (forr P (inner p) (Some t)) end; [reflexivity|].
      apply forr_ext. intros q s Hq. rewrite (rd_A P e1) by auto. unfold inner. apply forr_ext. intros r s' Hr. destruct s' as [[m ev]|]; auto.
      pose proof (rd_B P e2 p r Hp Hr) as Er. rewrite pre2_length in Er. rewrite Er. auto.
    - cbn [carry]. symmetry. 
      assert (Z : forall n, forr n (inner p) None = None).
      { induction n; [auto|]. rewrite forr_S, IHn. unfold inner. generalize (P - p). intros k. clear. induction k; [auto|]. rewrite forr_S, IHk. auto. }
      rewrite Z. auto. }
  change (Some (0, (0, []))) with (@carry (nat * list (nat * fl)) 0 (Some (0, []))). rewrite E. unfold carry. cbn [smodes]. unfold modes_prism. rewrite map_map.
  match goal with |- (get r <- (get x <- ?X; _); _) = (get r <- ?Y; _) => assert (EQ : X = Y); [|rewrite EQ; destruct Y; reflexivity] end.
  eapply (loop3_St (emitP v) [] P (fun _ => P) (fun p _ => P - p)); [reflexivity|reflexivity|reflexivity|].
  - intros p q r a Hp Hq Hr. cbv beta iota zeta. unfold emitP. destruct (_ && _); cbn [fmul]; do 6 f_equal; ring.
Qed.
(* tetrahedron *)
Lemma tet_E dofs : snum Tet P <= length dofs -> loop_evaluate_tet P dofs A0 B1 C2 = Some (Some (dot dofs (smodes Tet P e0 e1 e2))).
Proof.
  intros H. rewrite <- (St_E dofs Tet H). unfold loop_evaluate_tet.
  match goal with |- (get r <- forr P ?o _; _) = _ => set (outer := o) end.
  pose (inner := fun p (q : nat) => forr (P - p - q) (fun r (st : option (nat * fl)) =>
        get s <- st;
        let '(mode, ev) := s in
        get etmp2 <- rd C2 mode; get coeff <- rdR dofs mode;
        Some (S mode, fadd ev (if Nat.eqb mode 1 then fmul coeff etmp2
                               else if Nat.eqb p 0 && Nat.eqb q 1 then fmul (fmul coeff (Some (modB p q e1))) etmp2
                               else fmul (fmul (fmul coeff (Some (modA p e0))) (Some (modB p q e1))) etmp2)))).
  assert (Z : forall p q, inner p q None = None).
  { intros p q. unfold inner. generalize (P - p - q). intros k. induction k; [auto|]. rewrite forr_S, IHk. auto. }
  assert (E : forr P outer (carry 0 (Some (0, Some 0%R))) = carry (nsum P (fun p => P - p)) (forr P (fun p => forr (P - p) (inner p)) (Some (0, Some 0%R)))).
  { apply (forr_sim P outer _ (fun i => carry (nsum i (fun p => P - p)))). intros p t Hp. unfold outer. rewrite (rd_A P e0) by auto. cbn [nsum].
    rewrite <- (Nat.add_0_r (nsum p (fun p => P - p))) at 1.
    apply (forr_sim (P - p) _ (inner p) (fun q => carry (nsum p (fun p => P - p) + q))). intros q s Hq. destruct s as [s|]; cbn [carry].
    - pose proof (rd_B P e1 p q Hp Hq) as Er. rewrite pre2_length in Er. rewrite Er. rewrite Nat.add_succ_r. reflexivity.
    - rewrite Z. auto. }
  change (Some (0, (0, Some 0%R))) with (@carry (nat * fl) 0 (Some (0, Some 0%R))). rewrite E. unfold carry. cbn [smodes]. unfold modes_tet. rewrite map_map.
  match goal with |- (get r <- (get x <- ?X; _); _) = (get r <- ?Y; _) => assert (EQ : X = Y); [|rewrite EQ; destruct Y; reflexivity] end.
  eapply (loop3_St (emitE dofs) (Some 0%R) P (fun p => P - p) (fun p q => P - p - q)); [reflexivity|reflexivity|reflexivity|].
  - intros p q r a Hp Hq Hr. cbv beta iota zeta. rewrite (mode1_3 P (fun p => P - p) (fun p q => P - p - q) p q r) by (auto; lia).
    rewrite rd_C by auto. unfold emitE. destruct (rdR _ _) as [c|]; auto.
    destruct p as [|p]; [|cbn [Nat.eqb andb]; destruct c, a; cbn [fmul fadd]; auto; do 3 f_equal; ring].
    destruct q as [|[|q]]; cbn [Nat.eqb andb orb]; try destruct (Nat.eqb r 1); destruct c, a; cbn [fmul fadd]; auto; do 3 f_equal; ring.
Qed.
Lemma tet_P v : loop_project_tet P v A0 B1 C2 = Some (addsof v (smodes Tet P e0 e1 e2)).
Proof.
  rewrite <- (St_P v Tet). unfold loop_project_tet.
  match goal with |- (get r <- forr P ?o _; _) = _ => set (outer := o) end.
  pose (inner := fun p (q : nat) => forr (P - p - q) (fun r (st : option (nat * list (nat * fl))) =>
        get s <- st;
        let '(mode, adds) := s in
        get etmp2 <- rd C2 mode;
        Some (S mode, adds ++ [(mode, if Nat.eqb mode 1 then fmul (Some v) etmp2
                               else if Nat.eqb p 0 && Nat.eqb q 1 then fmul (fmul (Some v) (Some (modB p q e1))) etmp2
                               else fmul (fmul (fmul (Some v) (Some (modA p e0))) (Some (modB p q e1))) etmp2)]))).
  assert (Z : forall p q, inner p q None = None).
  { intros p q. unfold inner. generalize (P - p - q). intros k. induction k; [auto|]. rewrite forr_S, IHk. auto. }
  assert (E : forr P outer (carry 0 (Some (0, []))) = carry (nsum P (fun p => P - p)) (forr P (fun p => forr (P - p) (inner p)) (Some (0, [])))).
  { apply (forr_sim P outer _ (fun i => carry (nsum i (fun p => P - p)))). intros p t Hp. unfold outer. rewrite (rd_A P e0) by auto. cbn [nsum].
    rewrite <- (Nat.add_0_r (nsum p (fun p => P - p))) at 1.
    apply (forr_sim (P - p) _ (inner p) (fun q => carry (nsum p (fun p => P - p) + q))). intros q s Hq. destruct s as [s|]; cbn [carry].
    - pose proof (rd_B P e1 p q Hp Hq) as Er. rewrite pre2_length in Er. rewrite Er. rewrite Nat.add_succ_r. reflexivity.
    - rewrite Z. auto. }
  change (Some (0, (0, []))) with (@carry (nat * list (nat * fl)) 0 (Some (0, []))). rewrite E. unfold carry. cbn [smodes]. unfold modes_tet. rewrite map_map.
  match goal with |- (get r <- (get x <- ?X; _); _) = (get r <- ?Y; _) => assert (EQ : X = Y); [|rewrite EQ; destruct Y; reflexivity] end.
  eapply (loop3_St (emitP v) [] P (fun p => P - p) (fun p q => P - p - q)); [reflexivity|reflexivity|reflexivity|].
  - intros p q r a Hp Hq Hr. cbv beta iota zeta. rewrite (mode1_3 P (fun p => P - p) (fun p q => P - p - q) p q r) by (auto; lia).
    rewrite rd_C by auto. unfold emitP.
    destruct p as [|p]; [|cbn [Nat.eqb andb]; cbn [fmul]; do 6 f_equal; ring].
    destruct q as [|[|q]]; cbn [Nat.eqb andb orb]; try destruct (Nat.eqb r 1); cbn [fmul]; do 6 f_equal; ring.
Qed.
Lemma loops_ok s dofs v : snum s P <= length dofs ->
  let b := shape_bases s in
  let ls k e := map Some (listb (nth k b ModA) P e) in
  loop_evaluate s P dofs (ls 0 e0) (ls 1 e1) (ls 2 e2) = Some (Some (dot dofs (smodes s P e0 e1 e2))) /\
  loop_project s P v (ls 0 e0) (ls 1 e1) (ls 2 e2) = Some (addsof v (smodes s P e0 e1 e2)).
Proof.
  intros H. destruct s; cbn [shape_bases nth listb loop_evaluate loop_project]; cbv zeta; split;
   auto using tri_E, tri_P, quad_E, quad_P, hex_E, hex_P, pyr_E, pyr_P, prism_E, prism_P, tet_E, tet_P.
Qed.
End Shapes.
