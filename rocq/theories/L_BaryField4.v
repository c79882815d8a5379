(** Lemmas: the whole evaluation. *)
From Verif Require Import M_BaryField S_BaryField L_RealBase L_Coord L_Loop L_Bary L_Bary2 L_Bary3 L_BaryField L_BaryField2 L_BaryField3.
From Flocq Require Import Core.Raux.
From Coq Require Import Lra Lia List ZArith Bool.
Import ListNotations.
Open Scope R_scope.

Lemma in_blocks N npc np cell b : In (np, cell, b) (blocks N npc) <-> nth_error npc cell = Some np /\ (b < (np + N - 1) / N)%nat.
Proof.
  unfold blocks. rewrite in_flat_map. split.
  - intros ([cell' np'] & H1 & H2). apply in_map_iff in H2 as (b' & [= -> -> ->] & Hb). apply in_seq in Hb. split; [|lia].
    clear - H1. assert (Hg : forall l a, In (cell, np) (combine (seq a (length l)) l) -> (a <= cell)%nat /\ nth_error l (cell - a) = Some np).
    { induction l as [|x l IH]; intros a; cbn [length seq combine In]; [intros []|]. intros [[= <- <-]|H]; [split; [lia|]; rewrite Nat.sub_diag; reflexivity|]. destruct (IH _ H). split; [lia|]. replace (cell - a)%nat with (S (cell - S a)) by lia. assumption. }
    destruct (Hg npc 0%nat H1) as [_ E]. rewrite Nat.sub_0_r in E. exact E.
  - intros [H1 H2]. exists (cell, np). split; [|apply in_map_iff; exists b; split; [reflexivity|apply in_seq; lia]].
    clear - H1. assert (Hg : forall l a i, nth_error l i = Some np -> In ((a + i)%nat, np) (combine (seq a (length l)) l)).
    { induction l as [|x l IH]; intros a [|i] H; cbn in H; try discriminate; cbn [length seq combine In].
      - left. injection H as ->. f_equal. lia.
      - right. replace (a + S i)%nat with (S a + i)%nat by lia. auto. }
    apply (Hg npc 0%nat cell H1).
Qed.
Lemma block_covers N np y : (0 < N)%nat -> (y < np)%nat -> exists b, (b < (np + N - 1) / N)%nat /\ (b * N <= y < b * N + Nat.min N (np - b * N))%nat.
Proof.
  intros HN Hy. exists (y / N)%nat. pose proof (Nat.div_mod y N ltac:(lia)) as E. pose proof (Nat.mod_upper_bound y N ltac:(lia)) as B. split; [|nia].
  apply Nat.div_lt_upper_bound; [lia|]. pose proof (Nat.div_mod (np + N - 1) N ltac:(lia)) as E'. pose proof (Nat.mod_upper_bound (np + N - 1) N ltac:(lia)) as B'. nia.
Qed.

Section evaluate.
Variables (ndim : nat) (exps : list expn) (gids : list Z) (s : bstate) (c : bcall).
Hypotheses (Hf : field_ok ndim exps) (Hg : forall g, In g gids -> exists e, element_of exps g e) (Hs : bary_setup ndim exps gids = FOk s) (Hc : call_ok ndim exps c).

Lemma call_parts : exists np, phys_ok np c /\ syms_ok c /\ (forall e, In e exps -> (ex_off e + npoints ndim e <= np)%nat).
Proof. destruct Hc as (A & B & (np & C & D) & E & F). exists np. split; [split; [exact A|split; [exact B|exact C]]|]. split; [split; assumption|exact D]. Qed.
Lemma element_unique g e e' : element_of exps g e -> element_of exps g e' -> e = e'.
Proof.
  intros [H1 G1] [H2 G2]. destruct Hf as (_ & Hn & _). apply In_nth_error in H1 as [i Hi]. apply In_nth_error in H2 as [j Hj].
  assert (i = j). { apply (proj1 (NoDup_nth_error (map ex_gid exps)) Hn); [apply nth_error_Some; rewrite nth_error_map, Hi; discriminate|]. rewrite !nth_error_map, Hi, Hj. cbn. congruence. }
  congruence.
Qed.
Lemma cell_data np cell : (forall e, In e exps -> (ex_off e + npoints ndim e <= np)%nat) -> (cell < length gids)%nat -> exists g e ci, nth_error gids cell = Some g /\ element_of exps g e /\
  nth_error (bs_cells s) cell = Some ci /\ ci_ok ndim (bs_max s) np e ci.
Proof.
  intros Hp Hl. destruct (nth_error gids cell) as [g|] eqn:Eg; [|apply nth_error_None in Eg; lia]. destruct (Hg g (nth_error_In _ _ Eg)) as [e He].
  destruct (setup_cells ndim exps gids s Hf Hg Hs) as [_ H]. destruct (H cell g e Eg He) as (ci & E1 & A & B & C & D & M). exists g, e, ci. split; [reflexivity|]. split; [exact He|]. split; [exact E1|].
  destruct Hf as (_ & _ & Q & _). unfold ci_ok. repeat (split; [first [assumption | apply Q; apply He]|]). apply Hp, He.
Qed.

(** What is good at a target. *)
Definition good_at (sym cell k y : nat) (r : R) : Prop := forall fx v g e, nth_error (bc_syms c) fx = Some (sym, Z.of_nat k) -> nth_error (bc_phys c) fx = Some v ->
  nth_error gids cell = Some g -> element_of exps g e -> field_value ndim e v (fun j => bc_ref c cell j y) r.
Definition in_syms (sym k : nat) : bool := existsb (fun p => Nat.eqb (fst p) sym && Z.eqb (snd p) (Z.of_nat k)) (bc_syms c).
Lemma in_syms_spec sym k : in_syms sym k = true <-> In (sym, Z.of_nat k) (bc_syms c).
Proof.
  unfold in_syms. rewrite existsb_exists. split.
  - intros ([s' k'] & H & E). cbn [fst snd] in E. rewrite andb_true_iff, Nat.eqb_eq, Z.eqb_eq in E. destruct E as [-> ->]. exact H.
  - intros H. eexists. split; [exact H|]. cbn [fst snd]. now rewrite Nat.eqb_refl, Z.eqb_refl.
Qed.
Definition covp (x : nat * nat) (sym cell k y : nat) : bool := Nat.eqb cell (fst x) && Nat.eqb y (snd x) && in_syms sym k.
Definition covb (N : nat) (x : nat * nat * nat) (sym cell k y : nat) : bool :=
  let '(np, c', b) := x in Nat.eqb cell c' && (Nat.leb (b * N) y && Nat.ltb y (b * N + Nat.min N (np - b * N))) && in_syms sym k.

Lemma parts_loop (f : nat -> nat -> pdats -> fres pdats) parts d :
  (forall cell layer, In (cell, layer) parts -> exists val, (forall d, f cell layer d = write_all c cell layer val d) /\
     exists g e, nth_error gids cell = Some g /\ element_of exps g e /\ forall fx v, nth_error (bc_phys c) fx = Some v -> field_value ndim e v (fun k => bc_ref c cell k layer) (val fx)) ->
  exists d', floop (fun '(cell, layer) => f cell layer) parts d = FOk d' /\ evaluated ndim exps gids c parts d d'.
Proof.
  intros H. destruct call_parts as (np & Hp & Hy & _).
  destruct (floop_spec (fun '(cell, layer) => f cell layer) covp good_at parts) with (d := d) as (d' & E & G & U).
  - intros [cell layer] Hin d0. destruct (H cell layer Hin) as (val & Ev & g & e & Eg & He & Hv). rewrite Ev. destruct (write_all_spec c cell layer val Hy d0) as (d1 & E1 & G1 & U1). exists d1. split; [exact E1|].
    unfold covp. cbn [fst snd]. split; intros sym cell' k y C.
    + rewrite !andb_true_iff, !Nat.eqb_eq in C. destruct C as [[-> ->] C]. intros fx v g' e' Hfx Hvx Hg' He'. rewrite Eg in Hg'. injection Hg' as <-. rewrite (element_unique _ _ _ He' He).
      pose proof (G1 fx sym (Z.of_nat k) Hfx) as Eq. rewrite Nat2Z.id in Eq. rewrite Eq. auto.
    + apply U1. intros (-> & -> & Hi). apply in_syms_spec in Hi. rewrite !Nat.eqb_refl, Hi in C. discriminate.
  - exists d'. split; [exact E|]. split.
    + intros cell layer fx sym comp v g e Hin Hfx Hvx Hg' He. pose proof (proj2 Hy sym comp (nth_error_In _ _ Hfx)) as Hr. assert (Ec : Z.of_nat (Z.to_nat comp) = comp) by (rewrite Z2Nat.id; lia).
      refine (G sym cell (Z.to_nat comp) layer _ fx v g e _ Hvx Hg' He); [|now rewrite Ec]. apply cover_true. exists (cell, layer). split; [exact Hin|]. unfold covp. cbn [fst snd]. rewrite !Nat.eqb_refl. apply in_syms_spec. rewrite Ec. eapply nth_error_In; eauto.
    + intros sym cell comp layer Hno. apply U. apply (bool_false_iff _ _ (cover_true _ _ _ _ _ _)). intros ([c' l'] & Hin & C). unfold covp in C. cbn [fst snd] in C. rewrite !andb_true_iff, !Nat.eqb_eq, in_syms_spec in C. destruct C as [[-> ->] C]. apply Hno. auto.
Qed.
Lemma blocks_loop N junk parts npc d : ndim = 3%nat -> (0 < N)%nat ->
  length npc = length gids -> (forall cell layer, In (cell, layer) parts <-> (cell < length npc)%nat /\ (layer < nth cell npc 0)%nat) ->
  exists d', floop (fun '(np, cell, b) => block_3d N (bs_max s) (junk cell b) (bs_cells s) c np cell b) (blocks N npc) d = FOk d' /\ evaluated ndim exps gids c parts d d'.
Proof.
  intros En HN Hl Hpart. destruct call_parts as (np & Hp & Hy & Hfit).
  destruct (floop_spec (fun '(np, cell, b) => block_3d N (bs_max s) (junk cell b) (bs_cells s) c np cell b) (covb N) good_at (blocks N npc)) with (d := d) as (d' & E & G & U).
  - intros [[npart cell] b] Hin d0. apply in_blocks in Hin as [H1 H2]. assert (Hlt : (cell < length gids)%nat) by (rewrite <- Hl; apply nth_error_Some; congruence).
    destruct (cell_data np cell Hfit Hlt) as (g & e & ci & Eg & He & Eci & Hci). rewrite En in Hci. destruct (block_3d_spec N (bs_max s) np (junk cell b) (bs_cells s) c npart cell b ci e HN Hp Eci Hci) as (val & Ev & Hv).
    cbv zeta in Ev, Hv. rewrite Ev. destruct (writes_spec c cell (b * N) (Nat.min N (npart - b * N)) val Hy d0) as (d1 & E1 & G1 & U1). exists d1. split; [exact E1|]. unfold covb. split; intros sym cell' k y C.
    + rewrite !andb_true_iff, !Nat.eqb_eq, Nat.leb_le, Nat.ltb_lt in C. destruct C as [[-> Hyy] C]. intros fx v g' e' Hfx Hvx Hg' He'. rewrite Eg in Hg'. injection Hg' as <-. rewrite (element_unique _ _ _ He' He).
      pose proof (G1 fx sym (Z.of_nat k) y Hfx Hyy) as Eq. rewrite Nat2Z.id in Eq. rewrite Eq, En. pose proof (Hv fx v (y - b * N)%nat Hvx ltac:(lia)) as K. replace (b * N + (y - b * N))%nat with y in K by lia. exact K.
    + apply U1. intros (-> & Hyy & Hi). apply in_syms_spec in Hi. rewrite Nat.eqb_refl, Hi in C. destruct (Nat.leb_spec (b * N) y); [|lia]. destruct (Nat.ltb_spec y (b * N + Nat.min N (npart - b * N))); [discriminate|lia].
  - exists d'. split; [exact E|]. split.
    + intros cell layer fx sym comp v g e Hin Hfx Hvx Hg' He. pose proof (proj2 Hy sym comp (nth_error_In _ _ Hfx)) as Hr. assert (Ec : Z.of_nat (Z.to_nat comp) = comp) by (rewrite Z2Nat.id; lia).
      apply Hpart in Hin as [Hc1 Hc2].
      refine (G sym cell (Z.to_nat comp) layer _ fx v g e _ Hvx Hg' He); [|now rewrite Ec]. apply cover_true. destruct (block_covers N (nth cell npc 0%nat) layer HN Hc2) as (b & Hb & Hb2). exists (nth cell npc 0%nat, cell, b). split.
      * apply in_blocks. split; [apply nth_error_nth'; exact Hc1|exact Hb].
      * unfold covb. rewrite Nat.eqb_refl. destruct (Nat.leb_spec (b * N) layer); [|lia]. destruct (Nat.ltb_spec layer (b * N + Nat.min N (nth cell npc 0%nat - b * N))); [|lia]. cbn [andb]. apply in_syms_spec. rewrite Ec. eapply nth_error_In; eauto.
    + intros sym cell comp layer Hno. apply U. apply (bool_false_iff _ _ (cover_true _ _ _ _ _ _)). intros ([[npart c'] b] & Hin & C). apply in_blocks in Hin as [H1 H2]. unfold covb in C. rewrite !andb_true_iff, !Nat.eqb_eq, Nat.leb_le, Nat.ltb_lt, in_syms_spec in C. destruct C as [[-> Hyy] C]. apply Hno. split; [|exact C].
      apply Hpart. split; [apply nth_error_Some; congruence|]. rewrite (nth_error_nth _ _ _ H1). lia.
Qed.
Lemma evaluate_spec dv stride N junk parts npc d : (ndim = 2 \/ ndim = 3)%nat -> (1 <= stride)%nat -> (1 <= N)%nat -> parts_ok dv ndim gids parts npc ->
  exists d', bary_evaluate ndim dv stride N junk s c parts npc d = FOk d' /\ evaluated ndim exps gids c parts d d'.
Proof.
  intros Hnd Hst HN [Hp1 Hp2]. destruct call_parts as (np & Hp & Hy & Hfit). unfold bary_evaluate.
  assert (En : (Nat.eqb ndim 2 || Nat.eqb ndim 3)%bool = true) by (destruct Hnd as [-> | ->]; reflexivity). rewrite En. cbn [negb].
  destruct Hp as (A & B & C). rewrite B, Nat.eqb_refl. cbn [negb]. assert (Hp : phys_ok np c) by (split; [exact A|split; [exact B|exact C]]).
  destruct (bc_phys c) as [|v0 vs] eqn:Ev; [exfalso; unfold nfun in B; destruct (bc_syms c); [congruence|discriminate]|]. rewrite <- Ev in *.
  assert (Ea : forallb (fun v => Nat.eqb (length v0) (length v)) (bc_phys c) = true).
  { apply forallb_forall. intros v Hv. apply Nat.eqb_eq. rewrite (C v Hv). apply C. rewrite Ev. now left. }
  rewrite Ea. cbn [negb]. destruct Hnd as [E2|E3].
  - rewrite (proj2 (Nat.eqb_eq ndim 2) E2). apply parts_loop. intros cell layer Hin. destruct (cell_data np cell Hfit (Hp1 _ _ Hin)) as (g & e & ci & Eg & He & Eci & Hci). rewrite E2 in Hci.
    destruct (particle_2d_spec (bs_max s) stride np (bs_cells s) c cell layer ci e Hst Hp Eci Hci) as (val & V1 & V2). exists val. split; [exact V1|]. exists g, e. rewrite E2. auto.
  - replace (Nat.eqb ndim 2) with false by (rewrite E3; reflexivity). destruct dv.
    + apply parts_loop. intros cell layer Hin. destruct (cell_data np cell Hfit (Hp1 _ _ Hin)) as (g & e & ci & Eg & He & Eci & Hci). rewrite E3 in Hci.
      destruct (particle_3d_spec (bs_max s) stride np (bs_cells s) c cell layer ci e Hst Hp Eci Hci) as (val & V1 & V2). exists val. split; [exact V1|]. exists g, e. rewrite E3. auto.
    + destruct (Hp2 E3 eq_refl) as [L1 L2]. apply blocks_loop; auto.
Qed.
End evaluate.

Lemma node_weights_unique n z bw x w w' : distinct n z -> node_weights n z bw x w -> node_weights n z bw x w' -> forall i, (i < n)%nat -> w i = w' i.
Proof.
  intros Hd [(k & A & B & C & D)|(A & B & C)] [(k' & A' & B' & C' & D')|(A' & B' & C')] i Hi.
  - assert (k = k') by (apply Hd; auto; congruence). subst k'. destruct (Nat.eq_dec i k) as [->|]; [congruence|]. rewrite D, D' by auto. reflexivity.
  - exfalso. apply (A' k A B).
  - exfalso. apply (A k' A' B').
  - rewrite C, C' by auto. reflexivity.
Qed.
Lemma field_value_unique ndim e v xi t t' : quadrature_ok ndim e -> field_value ndim e v xi t -> field_value ndim e v xi t' -> t = t'.
Proof.
  intros Q [(E & eta & H1 & w0 & w1 & A & B & ->)|(E & eta & H1 & w0 & w1 & w2 & A & B & C & ->)] [(E' & eta' & H1' & w0' & w1' & A' & B' & ->)|(E' & eta' & H1' & w0' & w1' & w2' & A' & B' & C' & ->)]; try lia; rewrite H1 in H1'; injection H1' as <-.
  - apply tensor2_ext; [reflexivity| |]; intros i Hi; eapply node_weights_unique; eauto; apply Q; lia.
  - apply tensor3_ext; [reflexivity| | |]; intros i Hi; eapply node_weights_unique; eauto; apply Q; lia.
Qed.
