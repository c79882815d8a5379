(** Specification vocabulary for C46, C47, C49. *)
From Verif Require S_Grid.
From Verif Require Export M_NewtonBind S_Coord S_Newton S_NewtonM.

(** The Newton iterates from a start point: (xi_k, residual_k, F_k); None once a value is not finite. *)
Fixpoint iterate (nt : newton_type) (p : pt3) (start : pt3) (k : nat) : option (pt3 * R * pt3) :=
  match k with
  | O => match nt_resid nt start p (0, 0, 0) with Some (r, f) => Some (start, r, f) | None => None end
  | S k => match iterate nt p start k with
           | Some (xi, _, f) =>
               match nt_step nt xi p f with
               | Some xin => match nt_resid nt xin p f with Some (r, f') => Some (xin, r, f') | None => None end
               | None => None
               end
           | None => None
           end
  end.
(** [k] is the first iteration whose residual is within the tolerance, and no earlier iterate left the box [-15,15]^3
    (the start point is exempt). *)
Definition within15 (xi : pt3) : Prop := forall a, (a < 3)%nat -> Rabs (comp xi a) <= 15.
Definition first_within (nt : newton_type) (p start : pt3) (tol : R) (k : nat) (xi : pt3) : Prop :=
  (exists r f, iterate nt p start k = Some (xi, r, f) /\ r <= tol) /\
  forall j, (j < k)%nat -> exists xj rj fj, iterate nt p start j = Some (xj, rj, fj) /\ tol < rj /\
    ((0 < j)%nat -> within15 xj).

(** The point is in the reference element of [e], respectively at least [t] away from where its coordinates collapse. *)
Definition in_element (e : elem) (xi : pt3) : Prop :=
  match e with
  | EQuad => in_ref2 Quad (fst xi) /\ snd xi = 0
  | ETet => in_ref3 Tet xi | EPrism => in_ref3 Pri xi | EHex => in_ref3 Hex xi | EPyr => in_ref3 Pyr xi
  end.
Definition away (e : elem) (t : R) (xi : pt3) : Prop :=
  match e with
  | EQuad | EHex => True
  | ETet => away3 Tet t xi | EPrism => away3 Pri t xi | EPyr => away3 Pyr t xi
  end.
(** The scaling used in direction [a]. *)
Definition scale_of (e : elem) (s : pt3) (a : nat) : R := match e with EHex => comp s 0 | _ => comp s a end.
(** [e]'s collapsed to Cartesian reference coordinates. *)
Definition uncollapse (e : elem) (eta : pt3) : pt3 :=
  match e with
  | EQuad => (comp eta 0, comp eta 1, 0)
  | ETet => tet_to_loc eta | EPrism => prism_to_loc eta | EHex => eta | EPyr => pyr_to_loc eta
  end.

(** C47 *)
(** [q'] is [q] bound to an element [id] owned by [rank], with reference coordinates [xi] in the first [n] components. *)
Definition bound_to (n : nat) (id rank : Z) (xi : pt3) (q q' : particle) : Prop :=
  q_pos q' = q_pos q /\ q_cell q' = id /\ q_rank q' = rank /\ length (q_ref q') = length (q_ref q) /\
  forall d, nthR (q_ref q') d = if Nat.ltb d n then comp xi d else nthR (q_ref q) d.
(** [q'] is [q] bound to the first of the candidates (indices into [geoms]) that accepts; or [q], if none does. *)
Definition binds_first (n : nat) (geoms : list mgeom) (cands : list Z) (accepts : mgeom -> option pt3) (q q' : particle) : Prop :=
  (exists l1 k l2 g xi, cands = l1 ++ Z.of_nat k :: l2 /\ nth_error geoms k = Some g /\ accepts g = Some xi /\
     (forall k' g', In (Z.of_nat k') l1 -> nth_error geoms k' = Some g' -> accepts g' = None) /\
     bound_to n (g_id g) (g_rank g) xi q q')
  \/ ((forall k g, In (Z.of_nat k) cands -> nth_error geoms k = Some g -> accepts g = None) /\ q' = q).
(** What the two passes test, for one element. *)
Definition accepts_initial (c : newton_config) (p : pt3) (g : mgeom) : option pt3 :=
  try_cell (g_newton g) p (0, 0, 0) (newton_max_iteration c) (newton_tol c) (contained_tol c) false.
Definition accepts_final (c : newton_config) (n : nat) (grid : Z) (p : pt3) (g : mgeom) : option pt3 :=
  find_first (fun start => try_cell (g_newton g) p start (newton_max_iteration c) (newton_tol c) (contained_tol c) true)
    (grid_starts n grid).
(** A mesh the mapper can be built for: distinct ids, non-negative ranks, boxes with volume. *)
Definition good_geoms (n : nat) (geoms : list mgeom) : Prop :=
  NoDup (map g_id geoms) /\ Forall (fun g => (0 <= g_rank g)%Z) geoms /\
  Forall (fun b => length b = n /\ S_Grid.solid b) (map g_box geoms).
(** A stage of a pipeline: total, leaves bound particles alone, never moves a particle; a particle it changes is bound. *)
Definition good_stage (k : particle -> option particle) : Prop :=
  forall q, exists q', k q = Some q' /\ q_pos q' = q_pos q /\ (q' = q \/ ((q_rank q < 0)%Z /\ (0 <= q_rank q')%Z)).
(** Sequence of stages on one particle: the first stage that binds it decides. *)
Definition decided_by (ks : list (particle -> option particle)) (q q' : particle) : Prop :=
  ((0 <= q_rank q)%Z /\ q' = q) \/
  ((q_rank q < 0)%Z /\
   ((exists l1 k l2, ks = l1 ++ k :: l2 /\ (forall k', In k' l1 -> k' q = Some q) /\ k q = Some q' /\ (0 <= q_rank q')%Z)
    \/ ((forall k, In k ks -> k q = Some q) /\ q' = q))).
Definition all_bound (cell : list particle) : Prop := forall q, In q cell -> (0 <= q_rank q)%Z.
(** A mapping call acts on one cell, or on all when map_cell is -1. *)
Definition cell_selected (map_cell : Z) (i : nat) : bool := Z.leb map_cell (-1) || Z.eqb map_cell (Z.of_nat i).
Definition cell_ok (grp : list (list particle)) (map_cell : Z) : Prop := (map_cell < Z.of_nat (length grp))%Z.
(** Every particle of the selected cells is related by [R] to its new state; other cells are unchanged. *)
Definition rel_group (R : particle -> particle -> Prop) (map_cell : Z) (grp grp' : list (list particle)) : Prop :=
  length grp' = length grp /\ forall i cell, nth_error grp i = Some cell -> exists cell', nth_error grp' i = Some cell' /\
    (if cell_selected map_cell i then Forall2 R cell cell' else cell' = cell).
(** No particle of the selected cells is left without an element. *)
Definition selected_bound (map_cell : Z) (grp : list (list particle)) : Prop :=
  forall i cell, nth_error grp i = Some cell -> cell_selected map_cell i = true -> all_bound cell.
(** The passes in the order the pipelines run them: first guesses of all mappers, then start grids of all mappers. *)
Definition newton_stages (ms : list newton_mapper) := map initial_kernel ms ++ map final_kernel ms.
Definition opt_list {A} (o : option A) : list A := match o with Some x => [x] | None => [] end.
Definition host_stage (host : particle -> particle) (q : particle) : option particle := Some (host q).
