(** Specification of the barycentric field evaluation at particles. *)
From Verif Require Export M_BaryField S_Loop S_Bary.
Open Scope R_scope.

(** Number of quadrature points, points and barycentric weights of an element in a direction. *)
Definition npts (e : expn) (d : nat) : nat := length (nth d (ex_z e) []).
Definition pts (e : expn) (d : nat) : nat -> R := fun i => nth i (nth d (ex_z e) []) 0.
Definition wts (e : expn) (d : nat) : nat -> R := fun i => nth i (nth d (ex_bw e) []) 0.
(** An element's points are distinct and its weights are the barycentric ones (up to a factor), in every direction. *)
Definition quadrature_ok (ndim : nat) (e : expn) : Prop := forall d, (d < ndim)%nat ->
  (0 < npts e d)%nat /\ length (nth d (ex_bw e) []) = npts e d /\ distinct (npts e d) (pts e d) /\ barycentric (npts e d) (pts e d) (wts e d).
(** Elements of the same shape with equally many points have the same points and weights. *)
Definition same_quadrature (ndim : nat) (exps : list expn) : Prop := forall e e', In e exps -> In e' exps -> ex_shape e = ex_shape e' ->
  (forall d, (d < ndim)%nat -> npts e d = npts e' d) -> ex_z e = ex_z e' /\ ex_bw e = ex_bw e'.
Definition field_ok (ndim : nat) (exps : list expn) : Prop :=
  (forall i e, nth_error exps i = Some e -> ex_elmt e = Z.of_nat i) /\ NoDup (map ex_gid exps) /\
  (forall e, In e exps -> quadrature_ok ndim e) /\ same_quadrature ndim exps.
Definition element_of (exps : list expn) (g : Z) (e : expn) : Prop := In e exps /\ ex_gid e = g.
(** The value at collapsed coordinates [eta] of the function with quadrature values [v] (of the whole field) in element [e]. *)
Definition value2 (e : expn) (v : list R) (eta : R * R) (t : R) : Prop := exists w0 w1,
  node_weights (npts e 0) (pts e 0) (wts e 0) (fst eta) w0 /\ node_weights (npts e 1) (pts e 1) (wts e 1) (snd eta) w1 /\
  t = tensor2 (npts e 0) (npts e 1) (fun i0 i1 => nth (ex_off e + (i1 * npts e 0 + i0)) v 0) w0 w1.
Definition value3 (e : expn) (v : list R) (eta : R * R * R) (t : R) : Prop := exists w0 w1 w2,
  node_weights (npts e 0) (pts e 0) (wts e 0) (fst (fst eta)) w0 /\ node_weights (npts e 1) (pts e 1) (wts e 1) (snd (fst eta)) w1 /\ node_weights (npts e 2) (pts e 2) (wts e 2) (snd eta) w2 /\
  t = tensor3 (npts e 0) (npts e 1) (npts e 2) (fun i0 i1 i2 => nth (ex_off e + (i2 * (npts e 0 * npts e 1) + i1 * npts e 0 + i0)) v 0) w0 w1 w2.
(** ... at reference coordinates, in 2 or 3 dimensions *)
Definition field_value (ndim : nat) (e : expn) (v : list R) (xi : nat -> R) (t : R) : Prop :=
  (ndim = 2%nat /\ exists eta, generic_to_collapsed_2d (ex_shape e) (xi 0%nat, xi 1%nat) = Some eta /\ value2 e v eta t) \/
  (ndim = 3%nat /\ exists eta, generic_to_collapsed_3d (ex_shape e) (xi 0%nat, xi 1%nat, xi 2%nat) = Some eta /\ value3 e v eta t).
Definition npoints (ndim : nat) (e : expn) : nat := fold_left Nat.mul (map (npts e) (seq 0 ndim)) 1%nat.
(** A call in order: one array of values per output, all of the field's size, outputs different and in range. *)
Definition call_ok (ndim : nat) (exps : list expn) (c : bcall) : Prop :=
  bc_syms c <> [] /\ length (bc_phys c) = length (bc_syms c) /\
  (exists np, (forall v, In v (bc_phys c) -> length v = np) /\ forall e, In e exps -> (ex_off e + npoints ndim e <= np)%nat) /\
  NoDup (bc_syms c) /\ (forall s k, In (s, k) (bc_syms c) -> (0 <= k < Z.of_nat (bc_ncomp c s))%Z).
(** The particles visited: for the blocked loop, all those of the group. *)
Definition parts_ok (dv : device) (ndim : nat) (gids : list Z) (parts : list (nat * nat)) (npc : list nat) : Prop :=
  (forall cell layer, In (cell, layer) parts -> (cell < length gids)%nat) /\
  (ndim = 3%nat -> dv = CpuWholeGroup -> length npc = length gids /\ forall cell layer, In (cell, layer) parts <-> (cell < length npc)%nat /\ (layer < nth cell npc 0)%nat).
(** What an evaluation must do. *)
Definition evaluated (ndim : nat) (exps : list expn) (gids : list Z) (c : bcall) (parts : list (nat * nat)) (d d' : pdats) : Prop :=
  (forall cell layer fx sym comp v g e, In (cell, layer) parts -> nth_error (bc_syms c) fx = Some (sym, comp) -> nth_error (bc_phys c) fx = Some v ->
     nth_error gids cell = Some g -> element_of exps g e -> field_value ndim e v (fun k => bc_ref c cell k layer) (d' sym cell (Z.to_nat comp) layer)) /\
  (forall sym cell comp layer, ~ (In (cell, layer) parts /\ In (sym, Z.of_nat comp) (bc_syms c)) -> d' sym cell comp layer = d sym cell comp layer).
