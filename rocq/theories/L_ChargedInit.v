(** Lemmas for C106. *)
From Coq Require Import Reals ZArith List Lra Lia Bool.
From Verif Require Import M_RealBase L_RealBase M_Grid M_ChargedInit S_ChargedInit.
Import ListNotations.
Open Scope R_scope.

(** * Rows and loops *)
Lemma sobol_rows_at stream ex0 ex1 N : forall k, sobol_rows stream [ex0; ex1] N k =
  map (fun i => [stream (k + 2 * Z.of_nat i)%Z * ex0; stream (k + 2 * Z.of_nat i + 1)%Z * ex1]) (seq 0 N).
Proof.
  induction N as [|N IH]; intros k; [reflexivity|]. cbn [sobol_rows sobol_row seq map]. rewrite <- seq_shift, map_map, IH.
  apply f_equal2.
  - replace (k + 2 * Z.of_nat 0)%Z with k by lia. reflexivity.
  - apply map_ext. intros i. replace (k + 1 + 1 + 2 * Z.of_nat i)%Z with (k + 2 * Z.of_nat (S i))%Z by lia. reflexivity.
Qed.
Lemma sobol_box stream ex0 ex1 N k : (forall j, 0 <= stream j < 1) -> 0 < ex0 -> 0 < ex1 -> box_points N ex0 ex1 (sobol_rows stream [ex0; ex1] N k).
Proof.
  intros H H0 H1. rewrite sobol_rows_at. split; [rewrite map_length, seq_length; reflexivity|].
  apply Forall_forall. intros row Hr. apply in_map_iff in Hr as (i & <- & _).
  pose proof (H (k + 2 * Z.of_nat i)%Z). pose proof (H (k + 2 * Z.of_nat i + 1)%Z). eexists _, _. split; [reflexivity|]. split; split; nra.
Qed.
Lemma branch_total {G} (E : cenv G) g x y : setup_ok E -> exists k g', branch E g x y = Some (k, g').
Proof.
  intros (_ & _ & _ & _ & _ & Hd & _ & He & _ & _ & Hu & H4 & Hi). unfold branch.
  destruct (Z.eqb_spec (ci_dist E) 0); [unfold dist0; eauto|].
  destruct (Z.eqb_spec (ci_dist E) 1).
  { unfold dist1. destruct (ci_coin E g). rewrite Req_bool_false by lra. cbn [negb check]. eauto. }
  destruct (Z.eqb_spec (ci_dist E) 2); [unfold dist2; destruct (ci_coin E g); eauto|].
  destruct (Z.eqb_spec (ci_dist E) 3); [unfold dist3; destruct (ci_coin E g); eauto|].
  destruct (Z.eqb_spec (ci_dist E) 4) as [D|].
  - unfold dist4. specialize (H4 D).
    assert (A : forall g, exists y, ci_erf_inv E (2 * fst (ci_uni E g) - 1) = Some y).
    { intros h. apply Hi. pose proof (Hu h). pose proof (H4 h). lra. }
    destruct (A g) as (a & Ea). destruct (ci_uni E g) as [u1 g1]. cbn [fst] in Ea. rewrite Ea. cbn [bind].
    destruct (A g1) as (b & Eb). destruct (ci_uni E g1) as [u2 g2]. cbn [fst] in Eb. rewrite Eb. cbn [bind].
    destruct (A g2) as (c & Ec). destruct (ci_uni E g2) as [u3 g3]. cbn [fst] in Ec. rewrite Ec. cbn [bind].
    destruct (ci_uni E g3) as [u4 g4]. destruct (Rlt_bool (1 / 10) u4); [eauto|]. destruct (ci_uni E g4). eauto.
  - unfold dist5. destruct (ci_uni E g). eauto.
Qed.
(** one particle per row, made by the branch *)
Definition made {G} (E : cenv G) (row : list R) (k : core) : Prop := exists g g' x y, row = [x; y] /\ branch E g x y = Some (k, g').
Lemma cores_total {G} (E : cenv G) rows : setup_ok E -> Forall (fun row => exists x y, row = [x; y]) rows ->
  forall g, exists ks, all_cores E g rows = Some ks /\ Forall2 (made E) rows ks.
Proof.
  intros Ok. induction 1 as [|row rows (x & y & ->) _ IH]; intros g; [exists []; split; [reflexivity|constructor]|].
  cbn [all_cores]. destruct (branch_total E g x y Ok) as (k & g' & Eb). rewrite Eb. cbn [bind fst snd].
  destruct (IH g') as (ks & Ek & F). rewrite Ek. cbn [bind]. exists (k :: ks). split; [reflexivity|]. constructor; [|auto].
  exists g, g', x, y. auto.
Qed.
Definition rank_rows {G} (E : cenv G) (r : nat) (rows : list (list R)) : Prop :=
  let N := Z.to_nat (snd (ci_dec E (ci_size E) (ci_num E) r) - fst (ci_dec E (ci_size E) (ci_num E) r)) in
  box_points N (fst (ci_ext E)) (snd (ci_ext E)) rows /\
  (ci_type E = 0%Z -> ci_dist E <> 4%Z -> rows = sobol_rows (ci_sobol E) [fst (ci_ext E); snd (ci_ext E)] N
     (ci_seed E r mod 2 ^ 32 * 2 + fst (ci_dec E (ci_size E) (ci_num E) r) * 2)).
Definition numbered {G} (E : cenv G) (r : nat) (ks : list core) : list ipart :=
  map (fun ik => finish (ci_cells E r) (fst (ci_dec E (ci_size E) (ci_num E) r)) (fst ik) (snd ik)) (combine (seq 0 (length ks)) ks).
Lemma rank_creates {G} (E : cenv G) r : setup_ok E -> (r < ci_size E)%nat ->
  exists rows ks, rank_rows E r rows /\ Forall2 (made E) rows ks /\ initial_particles E r = Some (numbered E r ks).
Proof.
  intros Ok Hr. pose proof Ok as (_ & _ & (_ & _ & Bl & _) & Hb & Ht & Hd & He0 & He1 & Hs & Hw & _).
  destruct (Hb r Hr) as [Hb1 Hb2]. specialize (Bl r Hr).
  unfold initial_particles, rank_rows, numbered. destruct (ci_dec E (ci_size E) (ci_num E) r) as [rs re]. cbn [fst snd] in *.
  replace (Z.ltb (-1) (ci_dist E)) with true by (symmetry; apply Z.ltb_lt; lia).
  replace (Z.ltb (ci_dist E) 6) with true by (symmetry; apply Z.ltb_lt; lia). cbn [check].
  destruct (Z.ltb_spec 0 (re - rs)) as [Hn|Hn].
  2:{ exists [], []. replace (Z.to_nat (re - rs)) with O by lia. split; [split; [split; [reflexivity|constructor]|reflexivity]|]. split; [constructor|reflexivity]. }
  replace (Z.leb 0 (ci_type E)) with true by (symmetry; apply Z.leb_le; lia).
  replace (Z.leb (ci_type E) 1) with true by (symmetry; apply Z.leb_le; lia).
  replace (Z.ltb (re - rs) (2 ^ 31)) with true by (symmetry; apply Z.ltb_lt; lia). cbn [check].
  set (N := Z.to_nat (re - rs)).
  replace (negb (Z.eqb (ci_cells E r) 0)) with true by (destruct (Z.eqb_spec (ci_cells E r) 0); [lia|reflexivity]).
  assert (BP : forall rows, box_points N (fst (ci_ext E)) (snd (ci_ext E)) rows -> Forall (fun row => exists x y, row = [x; y]) rows).
  { intros rows [_ F]. eapply Forall_impl; [|exact F]. intros a (x & y & -> & _). eauto. }
  unfold sobol_within_extents. cbn [length]. change (Z.of_nat 2) with 2%Z.
  set (srows := sobol_rows (ci_sobol E) [fst (ci_ext E); snd (ci_ext E)] N (ci_seed E r mod 2 ^ 32 * 2 + rs * 2)).
  set (g0 := ci_mt E (ci_seed E r + Z.of_nat r)).
  assert (C : exists rows g, (let '(positions, g) := if Z.eqb (ci_type E) 0 then (srows, g0) else ci_within E N [fst (ci_ext E); snd (ci_ext E)] g0 in
      if Z.eqb (ci_dist E) 4 then ci_within E N [fst (ci_ext E); snd (ci_ext E)] g else (positions, g)) = (rows, g) /\
      box_points N (fst (ci_ext E)) (snd (ci_ext E)) rows /\ (ci_type E = 0%Z -> ci_dist E <> 4%Z -> rows = srows)).
  { destruct (Z.eqb_spec (ci_type E) 0) as [T|T].
    - destruct (Z.eqb_spec (ci_dist E) 4) as [D|D].
      + pose proof (Hw N (fst (ci_ext E)) (snd (ci_ext E)) g0 He0 He1) as W. destruct (ci_within E N _ g0) as [rows g]. exists rows, g. repeat split; try apply W. intros; contradiction.
      + exists srows, g0. split; [reflexivity|]. split; [apply sobol_box; auto|auto].
    - pose proof (Hw N (fst (ci_ext E)) (snd (ci_ext E)) g0 He0 He1) as W. destruct (ci_within E N _ g0) as [rows g].
      destruct (Z.eqb_spec (ci_dist E) 4) as [D|D].
      + pose proof (Hw N (fst (ci_ext E)) (snd (ci_ext E)) g He0 He1) as W2. destruct (ci_within E N _ g) as [rows2 g2]. exists rows2, g2. repeat split; try apply W2. intros; contradiction.
      + exists rows, g. split; [reflexivity|]. split; [exact W|]. intros; contradiction. }
  destruct C as (rows & g & C & Br & Cs).
  destruct (cores_total E rows Ok (BP rows Br) g) as (ks & Ek & F).
  exists rows, ks. split; [split; [auto|auto]|]. split; [auto|].
  destruct (if Z.eqb (ci_type E) 0 then (srows, g0) else ci_within E N [fst (ci_ext E); snd (ci_ext E)] g0) as [p1 g1].
  rewrite C, Ek. reflexivity.
Qed.
(** * Blocks *)
Definition ids (a b : Z) : list Z := map (fun i => (Z.of_nat i + a)%Z) (seq 0 (Z.to_nat (b - a))).
Lemma ids_app a b c : (a <= b)%Z -> (b <= c)%Z -> ids a b ++ ids b c = ids a c.
Proof.
  intros H1 H2. unfold ids. replace (Z.to_nat (c - a)) with (Z.to_nat (b - a) + Z.to_nat (c - b))%nat by lia.
  rewrite seq_app, map_app. f_equal. cbn [plus]. rewrite <- (Nat.add_0_r (Z.to_nat (b - a))) at 1.
  generalize (Z.to_nat (c - b)) as m. intros m.
  assert (S : forall m k d, map (fun i => (Z.of_nat i + (Z.of_nat d + a))%Z) (seq k m) = map (fun i => (Z.of_nat i + a)%Z) (seq (d + k) m)).
  { clear. induction m as [|m IH]; intros k d; [reflexivity|]. cbn [seq map]. apply f_equal2; [lia|]. rewrite IH. f_equal. f_equal. lia. }
  rewrite <- S. apply map_ext. intros i. lia.
Qed.
Lemma ids_0 n : ids 0 n = map Z.of_nat (seq 0 (Z.to_nat n)).
Proof. unfold ids. rewrite Z.sub_0_r. apply map_ext. intros. lia. Qed.
Lemma blocks_concat {A} dec size n (f : Z -> A) (L : nat -> list A) : (0 < size)%nat -> blocks dec size n ->
  (forall r, (r < size)%nat -> L r = map f (ids (fst (dec size n r)) (snd (dec size n r)))) ->
  concat (map L (seq 0 size)) = map f (ids 0 n) /\ (0 <= n)%Z.
Proof.
  intros Hs (B0 & B1 & B2 & B3) HL.
  assert (K : forall k, (k < size)%nat -> concat (map L (seq 0 (S k))) = map f (ids 0 (snd (dec size n k))) /\ (0 <= snd (dec size n k))%Z).
  { induction k as [|k IH]; intros Hk.
    - cbn [seq map concat]. rewrite app_nil_r, HL by auto. rewrite B0. split; [reflexivity|]. pose proof (B2 0%nat Hs). lia.
    - destruct (IH ltac:(lia)) as [I1 I2]. rewrite seq_S, map_app, concat_app, I1. cbn [plus map concat]. rewrite app_nil_r, HL by auto.
      pose proof (B3 k Hk) as E. pose proof (B2 (S k) Hk). rewrite E in *. rewrite <- map_app, ids_app by lia. split; [reflexivity|lia]. }
  destruct (K (size - 1)%nat ltac:(lia)) as [K1 K2]. replace (S (size - 1)) with size in K1 by lia. rewrite B1 in *. auto.
Qed.
Definition of_rank {G} (E : cenv G) (r : nat) : list ipart := match initial_particles E r with Some l => l | None => [] end.
Lemma mapM_all {A B} (f : A -> option B) (h : A -> B) l : (forall x, In x l -> f x = Some (h x)) -> mapM f l = Some (map h l).
Proof.
  induction l as [|a l IH]; intros H; [reflexivity|]. cbn [mapM map]. rewrite (H a) by (left; auto). cbn [bind]. rewrite IH by (intros; apply H; right; auto). reflexivity.
Qed.
Lemma population_eq {G} (E : cenv G) : setup_ok E -> population E = Some (concat (map (of_rank E) (seq 0 (ci_size E)))).
Proof.
  intros Ok. unfold population. rewrite (mapM_all _ (of_rank E)); [reflexivity|].
  intros r Hr%in_seq. destruct (rank_creates E r Ok ltac:(lia)) as (rows & ks & _ & _ & Ei). unfold of_rank. rewrite Ei. reflexivity.
Qed.
Lemma combine_seq_map {A B} (f : nat -> A -> B) (ks : list A) : forall s, map (fun ik => f (fst ik) (snd ik)) (combine (seq s (length ks)) ks) =
  match ks with [] => [] | k :: r => f s k :: map (fun ik => f (fst ik) (snd ik)) (combine (seq (S s) (length r)) r) end.
Proof. destruct ks; reflexivity. Qed.
Lemma F2_len {A B} (P : A -> B -> Prop) l l' : Forall2 P l l' -> length l = length l'.
Proof. induction 1; cbn; auto. Qed.
Lemma map_fst_combine_seq {A B} (f : nat -> B) (ks : list A) : forall s, map (fun ik => f (fst ik)) (combine (seq s (length ks)) ks) = map f (seq s (length ks)).
Proof. induction ks as [|k ks IH]; intros s; [reflexivity|]. cbn. rewrite IH. reflexivity. Qed.
Lemma rank_ids {G} (E : cenv G) r : setup_ok E -> (r < ci_size E)%nat ->
  map ip_id (of_rank E r) = map (fun i => i) (ids (fst (ci_dec E (ci_size E) (ci_num E) r)) (snd (ci_dec E (ci_size E) (ci_num E) r))).
Proof.
  intros Ok Hr. destruct (rank_creates E r Ok Hr) as (rows & ks & [[Ln _] _] & F & Ei). unfold of_rank. rewrite Ei. unfold numbered.
  rewrite map_map. cbn [finish ip_id]. rewrite map_id. unfold ids. rewrite <- Ln, (F2_len _ _ _ F).
  apply (map_fst_combine_seq (fun i => (Z.of_nat i + fst (ci_dec E (ci_size E) (ci_num E) r))%Z)).
Qed.
(** every particle comes from a row of its rank's points *)
Lemma combine_seq_nth {A} (ks : list A) i k : forall s, In (i, k) (combine (seq s (length ks)) ks) -> (s <= i)%nat /\ nth_error ks (i - s) = Some k.
Proof.
  induction ks as [|a ks IH]; intros s H; [destruct H|]. cbn [length seq combine] in H. destruct H as [H|H].
  - injection H as <- <-. split; [lia|]. rewrite Nat.sub_diag. reflexivity.
  - apply IH in H as [H1 H2]. split; [lia|]. replace (i - s)%nat with (S (i - S s)) by lia. exact H2.
Qed.
Lemma F2_nth {A B} (P : A -> B -> Prop) l l' : Forall2 P l l' -> forall i y, nth_error l' i = Some y -> exists x, nth_error l i = Some x /\ P x y.
Proof. induction 1; intros [|i] z Hz; cbn in *; try discriminate; [injection Hz as <-; eauto|eauto]. Qed.
Lemma particle_from {G} (E : cenv G) r p : setup_ok E -> (r < ci_size E)%nat -> In p (of_rank E r) ->
  exists rows i x y g g', rank_rows E r rows /\ nth_error rows i = Some [x; y] /\ 0 <= x < fst (ci_ext E) /\ 0 <= y < snd (ci_ext E) /\
    branch E g x y = Some (ip_core p, g') /\ p = finish (ci_cells E r) (fst (ci_dec E (ci_size E) (ci_num E) r)) i (ip_core p).
Proof.
  intros Ok Hr Hp. destruct (rank_creates E r Ok Hr) as (rows & ks & Rr & F & Ei). unfold of_rank in Hp. rewrite Ei in Hp.
  unfold numbered in Hp. apply in_map_iff in Hp as ([i k] & <- & Hi). cbn [fst snd]. apply combine_seq_nth in Hi as [_ Hi]. rewrite Nat.sub_0_r in Hi.
  destruct (F2_nth _ _ _ F i k Hi) as (row & Er & g & g' & x & y & -> & Eb).
  exists rows, i, x, y, g, g'. split; [auto|]. split; [auto|].
  destruct Rr as [[_ Fr] _]. apply nth_error_In in Er. rewrite Forall_forall in Fr. destruct (Fr _ Er) as (x' & y' & X & Bx & By). injection X as <- <-.
  split; [auto|]. split; [auto|]. split; [exact Eb|reflexivity].
Qed.
Lemma in_population {G} (E : cenv G) l p : setup_ok E -> population E = Some l -> In p l -> exists r, (r < ci_size E)%nat /\ In p (of_rank E r).
Proof.
  intros Ok El Hp. rewrite (population_eq E Ok) in El. injection El as <-. apply in_concat in Hp as (lr & H1 & H2).
  apply in_map_iff in H1 as (r & <- & Hr%in_seq). exists r. split; [lia|auto].
Qed.
