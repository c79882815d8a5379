(** C63: FieldProject, the projection of particle quantities onto fields. *)
From Verif Require Import M_FieldProject S_FieldProject L_Basis6 L_FieldProject P_Basis.
From Coq Require Import Permutation Lia Lra List.
Import ListNotations.

(** The modes of every element type contain the constant: the vertex modes add up to 1 at every point. *)
Theorem C63_partition_of_unity : forall s P e0 e1 e2, (2 <= P)%nat -> dot (unit_dofs s P) (smodes s P e0 e1 e2) = 1.
Proof. exact unity. Qed.
(** Each projected field is the L2 projection of the particles' quantity: tested against any function u of the space, its
    integral is the sum over the particles of quantity times u at the particle. This holds for every order of the atomic
    adds. Here [form i u x] is the integral of the product, and Nektar++'s inverse mass matrix is assumed to solve with it. *)
Theorem C63_galerkin : forall exps st ndim n nfields ncomp cells invmass bwd V form syms comps,
  (forall c, In c cells -> fcell_of exps st n c /\ In (fc_shape c) (ndim_shapes ndim)) -> same_group ncomp cells ->
  (forall i, (i < nfields)%nat -> solves_mass (V i) (form i) n (invmass i)) -> valid_args nfields ncomp syms comps ->
  forall sched, schedule sched ->
  exists fields, project (ctor_table st) ndim n nfields ncomp cells sched invmass bwd syms comps = PSet fields /\ length fields = nfields /\
  forall i s c x phys, nth_error syms i = Some s -> nth_error comps i = Some c -> nth_error fields i = Some (x, phys) ->
    phys = bwd i x /\ length x = n /\
    forall u, V i u -> length u = n -> form i u x = psum cells (fun cell xi d => nth (Z.to_nat c) (d s) 0 * fvalue u cell xi).
Proof. exact galerkin. Qed.
(** The values of u in that sum are what FieldEvaluate gives for a field with coefficients u. *)
Theorem C63_values_are_evaluations : forall exps st n c u xi d, fcell_of exps st n c -> length u = n -> In (xi, d) (fc_parts c) ->
  evaluate_field (ctor_table st) c u xi = Some (Some (fvalue u c xi)).
Proof. exact evaluate_fvalue. Qed.
(** The projection conserves the quantity: the integral of the field is the sum over the particles. *)
Theorem C63_conserves : forall exps st ndim n nfields ncomp cells invmass bwd V form syms comps,
  (forall c, In c cells -> fcell_of exps st n c /\ In (fc_shape c) (ndim_shapes ndim)) -> same_group ncomp cells ->
  (forall i, (i < nfields)%nat -> solves_mass (V i) (form i) n (invmass i)) -> valid_args nfields ncomp syms comps ->
  forall sched one, schedule sched -> is_one cells one -> length one = n -> (forall i, V i one) ->
  exists fields, project (ctor_table st) ndim n nfields ncomp cells sched invmass bwd syms comps = PSet fields /\ length fields = nfields /\
  forall i s c x phys, nth_error syms i = Some s -> nth_error comps i = Some c -> nth_error fields i = Some (x, phys) ->
    form i one x = psum cells (fun cell xi d => nth (Z.to_nat c) (d s) 0).
Proof.
  intros exps st ndim n nfields ncomp cells invmass bwd V form syms comps Hc Hg Hm Ha sched one Hs H1 Hl HV.
  destruct (galerkin exps st ndim n nfields ncomp cells invmass bwd V form syms comps Hc Hg Hm Ha sched Hs) as (fs & E & L & H).
  exists fs. split; [exact E|]. split; [exact L|]. intros i s c x phys E1 E2 E3. destruct (H i s c x phys E1 E2 E3) as (_ & _ & G).
  rewrite G by auto. apply psum_one with (exps := exps) (st := st) (n := n); auto. intros c' Hc'. apply Hc. auto.
Qed.
(** project_host gives the same fields as project where Nektar++'s collapse agrees with the kernels'. *)
Theorem C63_host_agrees : forall exps st ndim n nfields ncomp cells invmass bwd syms comps ncol,
  (forall c, In c cells -> fcell_of exps st n c /\ In (fc_shape c) (ndim_shapes ndim)) -> same_group ncomp cells -> valid_args nfields ncomp syms comps ->
  (forall c xi d, In c cells -> In (xi, d) (fc_parts c) -> collapse (fc_shape c) xi = Some (ncol (fc_shape c) xi)) ->
  forall sched, schedule sched ->
  project_host ncol n nfields ncomp cells invmass bwd syms comps = project (ctor_table st) ndim n nfields ncomp cells sched invmass bwd syms comps.
Proof.
  intros exps st ndim n nfields ncomp cells invmass bwd syms comps ncol Hc Hg Ha Hn sched Hs.
  rewrite (project_eq exps st ndim n nfields ncomp cells invmass bwd syms comps Hc Hg Ha sched Hs).
  apply (project_host_eq exps st ndim n nfields ncomp cells invmass bwd syms comps Hc Hg Ha ncol Hn).
Qed.
(** Wrong numbers of dats or components, and components out of range, are rejected before anything is projected. *)
Theorem C63_bad_arguments_rejected : forall T ndim n nfields ncomp cells sched invmass bwd syms comps,
  ~ valid_args nfields ncomp syms comps -> project T ndim n nfields ncomp cells sched invmass bwd syms comps = PAssert.
Proof.
  intros. unfold project. destruct (args_ok nfields ncomp syms comps) eqn:E; auto. apply args_iff in E. tauto.
Qed.
(** The range check looks at the group the object was made with. A group on the same domain with fewer components is
    accepted and read out of bounds. *)
Theorem C63_other_group_refuted : exists T ndim n ncomp cells invmass bwd, valid_args 1 ncomp [O] [1%Z] /\
  project T ndim n 1 ncomp cells (fun _ l => l) invmass bwd [O] [1%Z] = POob.
Proof.
  exists (make_table 2 2), 2%nat, 4%nat, (fun _ => 2%nat),
    [ {| fc_shape := Quad; fc_P := 2; fc_off := 0; fc_parts := [((0, 0, 0), fun _ => [1])] |} ], (fun _ b => map Some b), (fun _ x => x).
  split; [|reflexivity]. split; [auto|]. split; [auto|]. intros [|[|i]] s c H1 H2; cbn in H1, H2; try discriminate.
  injection H2 as <-. cbn. lia.
Qed.
Print Assumptions C63_partition_of_unity.
Print Assumptions C63_galerkin.
Print Assumptions C63_conserves.
Print Assumptions C63_host_agrees.
Print Assumptions C63_other_group_refuted.

(** A triangle with 3 modes and a quadrilateral with 4, three particles with two components. *)
Definition ex_cells : list fcell :=
  [ {| fc_shape := Tri; fc_P := 3; fc_off := 0; fc_parts := [((0, -1, 0), fun s => [1; INR s]); ((-1, 0, 0), fun s => [2; 3])] |};
    {| fc_shape := Quad; fc_P := 4; fc_off := 6; fc_parts := [((1/2, 1/3, 0), fun s => [5; 7])] |} ].
Definition ex_one : list R := unit_dofs Tri 3 ++ unit_dofs Quad 4.
Example C63_case : exists st, (forall c, In c ex_cells -> fcell_of ex_exps st 22 c /\ In (fc_shape c) (ndim_shapes 2)) /\
  same_group (fun _ => 2%nat) ex_cells /\ is_one ex_cells ex_one /\ length ex_one = 22%nat /\
  forall sched, schedule sched -> exists x phys,
    project (ctor_table st) 2 22 1 (fun _ => 2%nat) ex_cells sched (fun _ b => map Some b) (fun _ x => x) [1%nat] [1%Z] = PSet [(x, phys)] /\ dot ex_one x = 11.
Proof.
  destruct ex_ctor as (st & Hst).
  assert (Hc : forall c, In c ex_cells -> fcell_of ex_exps st 22 c /\ In (fc_shape c) (ndim_shapes 2)).
  { intros c [<-|[<-|[]]].
    - split; [|cbn; auto]. split; [|split].
      + eexists. split; [split; [exact Hst|]; split; [left; reflexivity|cbn; lia]|]. cbn. auto.
      + cbn. lia.
      + intros xi v Hin. cbn in Hin. destruct (L_Basis6.collapse_total Tri xi) as ([[e0 e1] e2] & E). exists (e0, e1, e2). split; [exact E|].
        cbn. destruct Hin as [H|[H|[]]]; injection H as <- _; cbn in E; unfold M_Coord.tri_to_collapsed in E; rewrite L_Coord.rdiv_ok in E by apply L_Coord.guard_nonzero; injection E as _ <- _; intro; lra.
    - split; [|cbn; auto]. split; [|split].
      + eexists. split; [split; [exact Hst|]; split; [right; left; reflexivity|cbn; lia]|]. cbn. auto.
      + cbn. lia.
      + intros xi v Hin. destruct (L_Basis6.collapse_total Quad xi) as ([[e0 e1] e2] & E). exists (e0, e1, e2). split; [exact E|]. exact I. }
  assert (Hg : same_group (fun _ => 2%nat) ex_cells).
  { intros c xi d s [<-|[<-|[]]]; cbn; intros H; repeat (destruct H as [H|H]; [injection H as _ <-; auto|]); tauto. }
  assert (H1 : is_one ex_cells ex_one) by (intros c [<-|[<-|[]]]; reflexivity).
  exists st. split; [exact Hc|]. split; [exact Hg|]. split; [exact H1|]. split; [reflexivity|]. intros sched Hs.
  destruct (C63_conserves ex_exps st 2 22 1 (fun _ => 2%nat) ex_cells (fun _ b => map Some b) (fun _ x => x) (fun _ _ => True) (fun _ => dot) [1%nat] [1%Z] Hc Hg) with (sched := sched) (one := ex_one) as (fs & E & L & H); auto.
  - intros i _ b Hb. exists b. auto.
  - split; [auto|]. split; [auto|]. intros [|[|i]] s c G1 G2; cbn in G1, G2; try discriminate. injection G2 as <-. cbn. lia.
  - destruct fs as [|[x phys] [|]]; try discriminate. exists x, phys. split; [exact E|]. rewrite (H O 1%nat 1%Z x phys) by reflexivity. unfold psum, ex_cells, Lsum. cbn [fold_right fc_parts fst snd nth Z.to_nat]. change (Pos.to_nat 1) with 1%nat. cbn [nth]. change (INR 1) with 1. lra.
Qed.
