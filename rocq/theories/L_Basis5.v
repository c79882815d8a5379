From Verif Require Import L_Coord L_Jacobi L_Basis1 L_Basis2 L_Basis3 L_Basis4.
From Verif Require Import M_Basis S_Basis S_Basis2.
From Coq Require Import Lia Lra Permutation.
From Coq Require Import List.
Import ListNotations.

(** * Reference mode lists *)
Lemma ref2 P n1 (body : nat -> nat -> list fl -> list fl) (g : nat * nat -> R) :
  (forall p q b, (p < P)%nat -> (q < n1 p)%nat -> length b = length (pre2 n1 p q) -> body p q b = b ++ [Some (g (p, q))]) ->
  forr P (fun p => forr (n1 p) (body p)) [] = map Some (map g (idx2 P n1)).
Proof.
  intros H. change (@nil fl) with (map Some (map g (idx2 0 n1))).
  apply (forr_G P _ (fun p => map Some (map g (idx2 p n1)))). intros p Hp. rewrite <- (pre2_0 n1 p).
  rewrite (forr_G (n1 p) _ (fun q => map Some (map g (pre2 n1 p q)))); [rewrite pre2_end; auto|].
  intros q Hq. rewrite pre2_S, !map_app. cbn [map]. apply H; auto. rewrite !map_length. auto.
Qed.
Lemma ref3 P n1 n2 (body : nat -> nat -> nat -> list fl -> list fl) (g : nat * nat * nat -> R) :
  (forall p q r b, (p < P)%nat -> (q < n1 p)%nat -> (r < n2 p q)%nat -> length b = length (pre3 n1 n2 p q r) -> body p q r b = b ++ [Some (g (p, q, r))]) ->
  forr P (fun p => forr (n1 p) (fun q => forr (n2 p q) (body p q))) [] = map Some (map g (idx3 P n1 n2)).
Proof.
  intros H. change (@nil fl) with (map Some (map g (idx3 0 n1 n2))).
  apply (forr_G P _ (fun p => map Some (map g (idx3 p n1 n2)))). intros p Hp. rewrite <- (pre3_00 n1 n2 p).
  rewrite (forr_G (n1 p) _ (fun q => map Some (map g (pre3 n1 n2 p q 0)))); [rewrite pre3_end2; auto|].
  intros q Hq. rewrite (forr_G (n2 p q) _ (fun r => map Some (map g (pre3 n1 n2 p q r)))); [rewrite pre3_end; auto|].
  intros r Hr. rewrite pre3_S, !map_app. cbn [map]. apply H; auto. rewrite !map_length. auto.
Qed.
Lemma eval_modes_ok s P e0 e1 e2 : (2 <= P)%nat -> eval_modes s P e0 e1 e2 = map Some (smodes s P e0 e1 e2).
Proof.
  intros HP. destruct s; cbn [eval_modes smodes].
  - unfold modes_tri. apply (ref2 P (fun p => (P - p)%nat)). intros p q b Hp Hq ->. rewrite (mode1_2 P p q) by auto. rewrite modA_ok, modB_ok.
    destruct (_ && _); auto.
  - unfold modes_quad. apply (ref2 P (fun p => P)). intros p q b Hp Hq _. unfold push. rewrite !modA_ok. auto.
  - unfold modes_hex. apply (ref3 P (fun p => P) (fun _ _ => P)). intros p q r b Hp Hq Hr _. unfold push. rewrite !modA_ok. auto.
  - unfold modes_pyr. apply (ref3 P (fun p => P) (fun p q => (P - Nat.max p q)%nat)). intros p q r b Hp Hq Hr ->.
    rewrite (mode1_3 P (fun _ => P) (fun p q => (P - Nat.max p q)%nat) p q r) by (auto; lia). rewrite !modA_ok, modPyrC_ok.
    destruct (_ && _ && _); cbn [fmul]; do 3 f_equal; ring.
  - unfold modes_prism. apply (ref3 P (fun p => P) (fun p q => (P - p)%nat)). intros p q r b Hp Hq Hr _.
    rewrite !modA_ok, modB_ok. destruct (_ && _); cbn [fmul]; do 3 f_equal; ring.
  - unfold modes_tet. apply (ref3 P (fun p => (P - p)%nat) (fun p q => (P - p - q)%nat)). intros p q r b Hp Hq Hr ->.
    rewrite (mode1_3 P (fun p => (P - p)%nat) (fun p q => (P - p - q)%nat) p q r) by (auto; lia). rewrite !modA_ok, modB_ok, modC_ok.
    destruct p as [|p]; [|cbn [Nat.eqb andb fmul]; auto].
    destruct q as [|[|q]]; cbn [Nat.eqb andb orb]; try destruct (Nat.eqb r 1); cbn [fmul]; do 3 f_equal; ring.
Qed.

(** * One particle *)
Definition tab_ok (mn ma : nat) (s : shape) (P : nat) : Prop := (2 <= P <= mn + 1 /\ 1 <= ma /\ alpha_need s P <= ma)%nat.
Lemma prepare_gen mn ma s P e0 e1 e2 : tab_ok mn ma s P ->
  prepare (make_table mn ma) s P (e0, e1, e2) =
  Some (blist (nth 0 (shape_bases s) ModA) P e0, blist (nth 1 (shape_bases s) ModA) P e1,
        match s with Quad | Tri => [] | _ => blist (nth 2 (shape_bases s) ModA) P e2 end).
Proof.
  intros (H1 & H2 & H3). unfold prepare.
  destruct s; cbn [shape_bases nth];
   rewrite ?(eval_b_gen mn ma Tri _ P), ?(eval_b_gen mn ma Quad _ P), ?(eval_b_gen mn ma Hex _ P), ?(eval_b_gen mn ma Pyr _ P), ?(eval_b_gen mn ma Prism _ P), ?(eval_b_gen mn ma Tet _ P) by (cbn [shape_bases In]; auto); reflexivity.
Qed.
Lemma loops_gen mn ma s P e0 e1 e2 dofs v l0 l1 l2 : tab_ok mn ma s P -> regular s (e0, e1, e2) -> (snum s P <= length dofs)%nat ->
  prepare (make_table mn ma) s P (e0, e1, e2) = Some (l0, l1, l2) ->
  loop_evaluate s P dofs l0 l1 l2 = Some (Some (dot dofs (smodes s P e0 e1 e2))) /\
  loop_project s P v l0 l1 l2 = Some (addsof v (smodes s P e0 e1 e2)).
Proof.
  intros HT Hr Hd Hp. rewrite prepare_gen in Hp by auto. injection Hp as <- <- <-. destruct HT as (H1 & _).
  destruct (loops_ok P (proj1 H1) e0 e1 e2 s dofs v Hd) as [A B]. cbv zeta in A, B.
  destruct s; cbn [shape_bases nth listb regular] in *; unfold loop_evaluate, loop_project in *; rewrite ?blist_ok by tauto; cbn [listb blist]; auto.
Qed.
Lemma evaluate_particle_ok mn ma s P dofs xi e0 e1 e2 : tab_ok mn ma s P -> collapse s xi = Some (e0, e1, e2) -> regular s (e0, e1, e2) ->
  (snum s P <= length dofs)%nat -> evaluate_particle (make_table mn ma) s P dofs xi = Some (Some (dot dofs (smodes s P e0 e1 e2))).
Proof.
  intros HT Hc Hr Hd. unfold evaluate_particle. rewrite Hc. pose proof (prepare_gen mn ma s P e0 e1 e2 HT) as E. rewrite E.
  eapply (proj1 (loops_gen mn ma s P e0 e1 e2 dofs 0 _ _ _ HT Hr Hd E)).
Qed.
Lemma project_particle_ok mn ma s P v xi e0 e1 e2 : tab_ok mn ma s P -> collapse s xi = Some (e0, e1, e2) -> regular s (e0, e1, e2) ->
  project_particle (make_table mn ma) s P xi v = Some (addsof v (smodes s P e0 e1 e2)).
Proof.
  intros HT Hc Hr. unfold project_particle. rewrite Hc. pose proof (prepare_gen mn ma s P e0 e1 e2 HT) as E. rewrite E.
  eapply (proj2 (loops_gen mn ma s P e0 e1 e2 (repeat 0 (snum s P)) v _ _ _ HT Hr ltac:(rewrite repeat_length; auto) E)).
Qed.

(** * Atomic adds *)
Definition inj (kv : nat * R) : nat * fl := (fst kv, Some (snd kv)).
Definition csum (k : nat) (adds : list (nat * R)) : R := fold_right (fun kv s => (if Nat.eqb (fst kv) k then snd kv else 0) + s) 0 adds.
Lemma csum_app k a b : csum k (a ++ b) = csum k a + csum k b.
Proof. unfold csum. induction a; cbn [app fold_right]; [lra|]. rewrite IHa. lra. Qed.
Lemma csum_perm k a b : Permutation a b -> csum k a = csum k b.
Proof. induction 1; unfold csum in *; cbn [fold_right]; try lra. Qed.
Lemma add_at_ok n f k v : (k < n)%nat -> add_at (map Some (map f (seq 0 n))) k (Some v) = Some (map Some (map (fun i => if Nat.eqb k i then f i + v else f i) (seq 0 n))).
Proof.
  intros H. unfold add_at. rewrite map_map. rewrite nth_error_map_seq by auto. cbn [fadd]. f_equal.
  rewrite (seq_mid n k 1) by lia. rewrite !map_app. cbn [seq map].
  rewrite firstn_app, map_length, seq_length, Nat.sub_diag, firstn_all2 by (rewrite map_length, seq_length; auto). cbn [firstn]. rewrite app_nil_r.
  rewrite skipn_app, skipn_all2 by (rewrite map_length, seq_length; lia). rewrite map_length, seq_length.
  replace (S k - k)%nat with 1%nat by lia. cbn [app skipn]. rewrite !map_map. f_equal; [|f_equal].
  - apply map_ext_in. intros i Hi. apply in_seq in Hi. rewrite (proj2 (Nat.eqb_neq k i)) by lia. auto.
  - rewrite Nat.eqb_refl. auto.
  - apply map_ext_in. intros i Hi. apply in_seq in Hi. rewrite (proj2 (Nat.eqb_neq k i)) by lia. auto.
Qed.
Lemma apply_adds_ok n adds : forall f, (forall kv, In kv adds -> (fst kv < n)%nat) ->
  apply_adds (map inj adds) (Some (map Some (map f (seq 0 n)))) = Some (map Some (map (fun i => f i + csum i adds) (seq 0 n))).
Proof.
  induction adds as [|[k v] adds IH]; intros f H; cbn [map apply_adds fold_left].
  - do 2 f_equal. apply map_ext. intros. cbn. lra.
  - cbn [inj fst snd]. rewrite add_at_ok by (apply (H (k, v)); left; auto). unfold apply_adds in IH. rewrite IH by (intros; apply H; right; auto).
    do 2 f_equal. apply map_ext. intros i. cbn [csum fold_right fst snd]. fold (csum i adds). destruct (Nat.eqb k i); lra.
Qed.
Lemma project_run_ok n adds order : Permutation order (map inj adds) -> (forall kv, In kv adds -> (fst kv < n)%nat) ->
  project_run n order = Some (map Some (map (fun i => csum i adds) (seq 0 n))).
Proof.
  intros HP H. apply Permutation_map_inv in HP. destruct HP as (adds' & -> & HP). unfold project_run.
  assert (E : repeat (Some 0) n = map Some (map (fun _ => 0) (seq 0 n))).
  { clear. assert (forall a, repeat (Some 0) n = map Some (map (fun _ : nat => 0) (seq a n))) as G; [|apply G]. induction n; intros a; cbn; auto. f_equal. auto. }
  rewrite E, apply_adds_ok by (intros kv Hk; apply H; eapply Permutation_in; [symmetry; eauto|auto]).
  do 2 f_equal. apply map_ext. intros i. rewrite (csum_perm i adds' adds) by (symmetry; auto). lra.
Qed.

(** * The whole projection *)
Lemma Lsum_app {A} (f : A -> R) a b : Lsum f (a ++ b) = Lsum f a + Lsum f b.
Proof. unfold Lsum. induction a; cbn [app fold_right]; [lra|]. rewrite IHa. lra. Qed.
Lemma Lsum_perm {A} (f : A -> R) a b : Permutation a b -> Lsum f a = Lsum f b.
Proof. induction 1; unfold Lsum in *; cbn [fold_right]; try lra. Qed.
Lemma Lsum_ext {A} (f g : A -> R) l : (forall x, In x l -> f x = g x) -> Lsum f l = Lsum g l.
Proof. unfold Lsum. induction l; cbn [fold_right]; intros H; [auto|]. rewrite H by (left; auto). rewrite IHl by (intros; apply H; right; auto). auto. Qed.
Definition cadds (c : pcell) : list (nat * R) :=
  flat_map (fun pv => combine (seq (pc_off c) (length (cmodes c (fst pv)))) (map (fun b => snd pv * b) (cmodes c (fst pv)))) (pc_parts c).
Lemma csum_comb bs v k : forall off, csum k (combine (seq off (length bs)) (map (fun b => v * b) bs)) = contrib bs off v k.
Proof.
  induction bs as [|b bs IH]; intros off; cbn [length seq map combine].
  - unfold contrib. cbn [length]. destruct (Nat.leb_spec off k); cbn [andb]; auto. rewrite (proj2 (Nat.ltb_ge _ _)) by lia. auto.
  - cbn [csum fold_right fst snd]. fold (csum k (combine (seq (S off) (length bs)) (map (fun b => v * b) bs))). rewrite IH. unfold contrib. cbn [length].
    destruct (Nat.eqb_spec off k) as [->|Hne].
    + rewrite Nat.leb_refl, Nat.sub_diag. rewrite (proj2 (Nat.leb_gt (S k) k)) by lia. cbn [andb nth]. rewrite (proj2 (Nat.ltb_lt k _)) by lia. lra.
    + destruct (Nat.leb_spec off k).
      * rewrite (proj2 (Nat.leb_le (S off) k)) by lia. replace (off + S (length bs))%nat with (S off + length bs)%nat by lia.
        cbn [andb]. destruct (Nat.ltb k (S off + length bs)); [|lra]. replace (k - off)%nat with (S (k - S off)) by lia. cbn [nth]. lra.
      * rewrite (proj2 (Nat.leb_gt (S off) k)) by lia. cbn [andb]. lra.
Qed.
Lemma csum_cadds c k : csum k (cadds c) = Lsum (fun pv => contrib (cmodes c (fst pv)) (pc_off c) (snd pv) k) (pc_parts c).
Proof.
  unfold cadds. induction (pc_parts c) as [|pv l IH]; [auto|]. cbn [flat_map]. rewrite csum_app, IH, csum_comb. auto.
Qed.
Lemma csum_flat k cells : csum k (flat_map cadds cells) = Lsum (fun c => csum k (cadds c)) cells.
Proof. induction cells; [auto|]. cbn [flat_map]. rewrite csum_app, IHcells. auto. Qed.
Definition cell_ok (mn ma ncoeff : nat) (c : pcell) : Prop :=
  tab_ok mn ma (pc_shape c) (pc_P c) /\ (pc_off c + snum (pc_shape c) (pc_P c) <= ncoeff)%nat /\
  forall xi v, In (xi, v) (pc_parts c) -> exists eta, collapse (pc_shape c) xi = Some eta /\ regular (pc_shape c) eta.
Lemma map_addsof off v bs : map (fun mv => ((off + fst mv)%nat, snd mv)) (addsof v bs) = map inj (combine (seq off (length bs)) (map (fun b => v * b) bs)).
Proof.
  unfold addsof. assert (G : forall s, map (fun mv : nat * fl => ((off + fst mv)%nat, snd mv)) (combine (seq s (length bs)) (map (fun b => Some (v * b)) bs)) =
     map inj (combine (seq (off + s) (length bs)) (map (fun b => v * b) bs))).
  { induction bs as [|b bs IH]; intros s; [auto|]. cbn [length seq map combine]. f_equal. rewrite IH, Nat.add_succ_r. auto. }
  rewrite G, Nat.add_0_r. auto.
Qed.
Lemma adds_cell_ok mn ma n c : cell_ok mn ma n c -> adds_cell (make_table mn ma) c = Some (map inj (cadds c)).
Proof.
  intros (HT & _ & Hp). unfold adds_cell, cadds. set (parts := pc_parts c) in *. clearbody parts.
  assert (G : forall acc, fold_left (fun acc pv => get acc <- acc; let '(xi, v) := pv in get a <- project_particle (make_table mn ma) (pc_shape c) (pc_P c) xi v;
      Some (acc ++ map (fun mv => ((pc_off c + fst mv)%nat, snd mv)) a)) parts (Some acc) =
      Some (acc ++ map inj (flat_map (fun pv => combine (seq (pc_off c) (length (cmodes c (fst pv)))) (map (fun b => snd pv * b) (cmodes c (fst pv)))) parts))).
  { induction parts as [|[xi v] parts IH]; intros acc; cbn [fold_left flat_map map]; [rewrite app_nil_r; auto|].
    destruct (Hp xi v (or_introl eq_refl)) as ([[e0 e1] e2] & Hc & Hr). rewrite (project_particle_ok mn ma _ _ v xi e0 e1 e2 HT Hc Hr).
    rewrite IH by (intros; eapply Hp; right; eauto). rewrite map_app, <- app_assoc. do 2 f_equal. cbn [fst snd].
    f_equal. unfold cmodes at 1 2. rewrite Hc. apply map_addsof. }
  apply (G []).
Qed.
Definition launched (ndim : nat) (cells : list pcell) : list pcell :=
  flat_map (fun s => filter (fun c => shape_eqb (pc_shape c) s) cells) (ndim_shapes ndim).
Lemma launched_perm ndim cells : (forall c, In c cells -> In (pc_shape c) (ndim_shapes ndim)) -> Permutation (launched ndim cells) cells.
Proof.
  unfold launched, ndim_shapes. induction cells as [|c cells IH]; intros H.
  - destruct (Nat.eqb ndim 2); cbn; constructor.
  - specialize (IH ltac:(intros; apply H; right; auto)). specialize (H c (or_introl eq_refl)).
    destruct (Nat.eqb ndim 2); cbn [flat_map filter] in *; destruct (pc_shape c); cbn [In shape_eqb] in *; try (exfalso; intuition discriminate);
      rewrite ?app_nil_r in *; cbn [app].
    + symmetry. apply Permutation_cons_app. symmetry. auto.
    + apply perm_skip. auto.
    + apply perm_skip. auto.
    + symmetry. apply Permutation_cons_app. symmetry. auto.
    + symmetry. rewrite !app_assoc. apply Permutation_cons_app. symmetry. rewrite <- !app_assoc. exact IH.
    + symmetry. rewrite !app_assoc. apply Permutation_cons_app. symmetry. rewrite <- !app_assoc. exact IH.
Qed.
Lemma adds_all_ok mn ma n ndim cells : (forall c, In c (launched ndim cells) -> cell_ok mn ma n c) ->
  adds_all (make_table mn ma) ndim cells = Some (map inj (flat_map cadds (launched ndim cells))).
Proof.
  unfold adds_all. fold (launched ndim cells). generalize (launched ndim cells) as L. intros L H.
  assert (G : forall acc, fold_left (fun acc c => get acc <- acc; get a <- adds_cell (make_table mn ma) c; Some (acc ++ a)) L (Some acc) = Some (acc ++ map inj (flat_map cadds L))).
  { induction L as [|c L IH]; intros acc; cbn [fold_left flat_map map]; [rewrite app_nil_r; auto|].
    rewrite (adds_cell_ok mn ma n c) by (apply H; left; auto). rewrite IH by (intros; apply H; right; auto). rewrite map_app, app_assoc. auto. }
  apply (G []).
Qed.
Lemma cadds_range mn ma n c kv : cell_ok mn ma n c -> In kv (cadds c) -> (fst kv < n)%nat.
Proof.
  intros (HT & Ho & Hp) H. unfold cadds in H. apply in_flat_map in H. destruct H as ([xi v] & Hin & H). destruct kv as [k w].
  apply in_combine_l in H. apply in_seq in H. cbn [fst] in *. destruct (Hp xi v Hin) as ([[e0 e1] e2] & Hc & _).
  unfold cmodes in H. rewrite Hc, smodes_length in H. lia.
Qed.
Theorem project_ok mn ma n ndim cells order :
  (forall c, In c cells -> cell_ok mn ma n c /\ In (pc_shape c) (ndim_shapes ndim)) ->
  (exists adds, adds_all (make_table mn ma) ndim cells = Some adds /\ Permutation order adds) ->
  project_run n order = Some (map Some (map (fun k => Lsum (fun c => Lsum (fun pv => contrib (cmodes c (fst pv)) (pc_off c) (snd pv) k) (pc_parts c)) cells) (seq 0 n))).
Proof.
  intros Hc (adds & Ha & Hp). pose proof (launched_perm ndim cells (fun c H => proj2 (Hc c H))) as HL.
  assert (HC : forall c, In c (launched ndim cells) -> cell_ok mn ma n c) by (intros c H; apply Hc; eapply Permutation_in; eauto).
  rewrite (adds_all_ok mn ma n) in Ha by auto. injection Ha as <-.
  rewrite (project_run_ok n _ order Hp).
  - do 2 f_equal. apply map_ext. intros k. rewrite csum_flat. rewrite (Lsum_perm _ _ _ HL). apply Lsum_ext. intros c _. apply csum_cadds.
  - intros kv H. apply in_flat_map in H. destruct H as (c & Hin & H). eapply cadds_range; eauto.
Qed.

(** * Adjointness *)
Lemma dot_nil_l b : dot [] b = 0. Proof. destruct b; auto. Qed.
Lemma dot_rsum d b : dot d b = rsum (length b) (fun i => nth i d 0 * nth i b 0).
Proof.
  revert d. induction b as [|y b IH]; intros d; [destruct d; auto|]. cbn [length]. rewrite rsum_shift. destruct d as [|x d].
  - cbn [dot nth]. rewrite rsum_zero; [lra|]. intros. destruct i; lra.
  - cbn [dot nth]. rewrite IH. auto.
Qed.
Lemma nth_map_seq f n i : (i < n)%nat -> nth i (map f (seq 0 n)) 0 = f i.
Proof. intros H. rewrite (nth_indep _ 0 (f O)) by (rewrite map_length, seq_length; auto). rewrite map_nth, seq_nth by auto. auto. Qed.
Lemma dot_map d f n : dot d (map f (seq 0 n)) = rsum n (fun i => nth i d 0 * f i).
Proof. rewrite dot_rsum, map_length, seq_length. apply rsum_ext. intros. rewrite nth_map_seq by auto. auto. Qed.
Lemma nth_skipn_R (d : list R) off i : nth i (skipn off d) 0 = nth (off + i) d 0.
Proof. revert d. induction off; intros d; [auto|]. destruct d; [destruct i; auto|]. cbn. apply IHoff. Qed.
Lemma dot_contrib d bs off v n : (off + length bs <= n)%nat -> dot d (map (contrib bs off v) (seq 0 n)) = v * dot (skipn off d) bs.
Proof.
  intros H. rewrite dot_map, dot_rsum. replace n with (off + (length bs + (n - off - length bs)))%nat by lia. rewrite !rsum_split.
  rewrite (rsum_zero off), (rsum_zero (n - off - length bs)).
  - rewrite <- rsum_scal. assert (E : forall x, 0 + (x + 0) = x) by (intros; lra). rewrite E. apply rsum_ext. intros i Hi. unfold contrib. rewrite nth_skipn_R.
    rewrite (proj2 (Nat.leb_le _ _)), (proj2 (Nat.ltb_lt _ _)) by lia. cbn [andb]. replace (off + i - off)%nat with i by lia. ring.
  - intros i Hi. unfold contrib. rewrite (proj2 (Nat.ltb_ge (off + (length bs + i)) _)) by lia. rewrite andb_false_r. ring.
  - intros i Hi. unfold contrib. rewrite (proj2 (Nat.leb_gt off i)) by lia. cbn [andb]. ring.
Qed.
Lemma dot_Lsum {A} d (f : A -> nat -> R) l n : dot d (map (fun k => Lsum (fun x => f x k) l) (seq 0 n)) = Lsum (fun x => dot d (map (f x) (seq 0 n))) l.
Proof.
  induction l as [|x l IH].
  - cbn. rewrite dot_map. apply rsum_zero. intros. ring.
  - cbn [Lsum fold_right]. fold (Lsum (fun x => dot d (map (f x) (seq 0 n))) l). rewrite <- IH. rewrite !dot_map, <- rsum_add. apply rsum_ext. intros. 
    change (fold_right (fun x0 s => f x0 i + s) 0 l) with (Lsum (fun x0 => f x0 i) l). ring.
Qed.
Theorem adjoint_ok mn ma n cells (dofs : list R) (ev : pcell -> R * R * R -> R) :
  length dofs = n -> (forall c, In c cells -> cell_ok mn ma n c) ->
  (forall c xi v, In c cells -> In (xi, v) (pc_parts c) ->
     evaluate_particle (make_table mn ma) (pc_shape c) (pc_P c) (skipn (pc_off c) dofs) xi = Some (Some (ev c xi))) ->
  dot dofs (map (fun k => Lsum (fun c => Lsum (fun pv => contrib (cmodes c (fst pv)) (pc_off c) (snd pv) k) (pc_parts c)) cells) (seq 0 n)) =
  Lsum (fun c => Lsum (fun pv => snd pv * ev c (fst pv)) (pc_parts c)) cells.
Proof.
  intros Hn HC He. rewrite dot_Lsum. apply Lsum_ext. intros c Hc. rewrite dot_Lsum. apply Lsum_ext. intros [xi v] Hp. cbn [fst snd].
  destruct (HC c Hc) as (HT & Ho & Hq). destruct (Hq xi v Hp) as ([[e0 e1] e2] & Hcl & Hr).
  pose proof (He c xi v Hc Hp) as E. rewrite (evaluate_particle_ok mn ma _ _ _ _ e0 e1 e2 HT Hcl Hr) in E by (rewrite skipn_length; lia).
  injection E as <-. unfold cmodes. rewrite Hcl. apply dot_contrib. rewrite smodes_length. auto.
Qed.
