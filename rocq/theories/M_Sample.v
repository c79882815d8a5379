(** Model of point location by search, element-uniform sampling, the R-sequence and the
    line/point sampler. *)
From Verif Require Export M_Grid.

(** * find_owning_geom, include/nektar_interface/utilities.hpp 364-443 *)
(** What a rank's candidate geometry answers: geom->ContainsPoint(coord_phys, coord_ref, 0.0)
    sets coord_ref and returns a bool (Nektar++). *)
Record candidate := mkCand { cand_id : Z; cand_contains : bool; cand_ref : list R }.
(** the local state: geom_found, *geom_id_output, coord_ref_output, num_geoms *)
Record ostate := mkO { o_found : bool; o_id : Z; o_ref : list R; o_num : Z }.
(** loop 395-407 *)
Definition owning_step (st : ostate) (c : candidate) : ostate :=
  let found := cand_contains c in
  if found then mkO found (cand_id c) (cand_ref c) (o_num st + 1)%Z
  else mkO found (o_id st) (o_ref st) (o_num st).
(** [id0]/[ref0] are the values the caller left in the output arguments *)
Definition owning_loop (id0 : Z) (ref0 : list R) (cs : list candidate) : ostate :=
  fold_left owning_step cs (mkO false id0 ref0 0%Z).
(** result on a rank: returned bool, *owning_rank_output, *geom_id_output, coord_ref_output, *num_geoms_output *)
Record oresult := mkOR { r_found : bool; r_rank : Z; r_id : Z; r_ref : list R; r_num : Z }.
(** 409-442; the collectives of all ranks are evaluated together: MPI_Allreduce MIN over
    send values, MPI_Bcast from the winning rank, MPI_Allreduce SUM. *)
Definition find_owning_geom (inputs : list (Z * list R * list candidate)) : list oresult :=
  let size := Z.of_nat (length inputs) in
  let sts := map (fun '(id0, ref0, cs) => owning_loop id0 ref0 cs) inputs in
  let sends := map (fun '(rank, st) => if o_found st then Z.of_nat rank else size)
                   (combine (seq 0 (length sts)) sts) in
  let recv := fold_left Z.min sends size in
  let total := fold_left Z.add (map o_num sts) 0%Z in
  map (fun st =>
    if Z.eqb recv size then mkOR false (-1) (o_id st) (o_ref st) total
    else match nth_error sts (Z.to_nat recv) with
         | Some w => mkOR true recv (o_id w) (o_ref w) total
         | None => mkOR false (-1) (o_id st) (o_ref st) total   (* unreachable: recv < size *)
         end) sts.

(** * uniform_within_elements, src/nektar_interface/utilities.cpp 5-102 *)
Section Uniform.
  (** rng state; [draw lo hi s]: std::uniform_real_distribution(lo,hi)(rng) *)
  Context {S : Type} (draw : R -> R -> S -> R * S).
  (** the element: bounding box per dimension (entries dx and dx+3 of GetBoundingBox) and
      the two Nektar++ queries on coord (GetLocCoords, ContainsPoint). *)
  Record element := mkEl { el_bb : box; el_loc : list R -> list R; el_contains : list R -> bool }.
  (** lambda_sample_new 45-52: the first ndim coordinates *)
  Fixpoint sample_new (bb : box) (s : S) : list R * S :=
    match bb with
    | [] => ([], s)
    | (lo, hi) :: bb' =>
        let '(x, s) := draw lo hi s in
        let '(xs, s) := sample_new bb' s in
        (x :: xs, s)
    end.
  (** lambda_contains_point 55-67 *)
  Definition contains_point (tol : R) (e : element) (coord : list R) : bool :=
    forallb (fun l => Rlt_bool (-1 + tol) l && Rlt_bool l (1 - tol)) (el_loc e coord)
    && el_contains e coord.
  (** 69-75: [fuel] = number of further iterations allowed before trial_count reaches
      1000000 and the assertion fails ([None]). *)
  Fixpoint sample_loop (tol : R) (e : element) (fuel : nat) (coord : list R) (s : S) : option (list R * S) :=
    if contains_point tol e coord then Some (coord, s)
    else let '(coord, s) := sample_new (el_bb e) s in
         match fuel with
         | O => None
         | Datatypes.S f => sample_loop tol e f coord s
         end.
  Definition sample (max_trials : nat) (tol : R) (e : element) (s : S) : option (list R * S) :=
    let '(coord, s) := sample_new (el_bb e) s in
    sample_loop tol e (Nat.pred max_trials) coord s.
  (** lambda_dispatch 78-93: positions (one coordinate list per particle instead of one array
      per dimension) and cells, in the order of index. *)
  Fixpoint sample_n (mt : nat) (tol : R) (e : element) (ex : Z) (n : nat) (s : S) : option (list (list R * Z) * S) :=
    match n with
    | O => Some ([], s)
    | Datatypes.S n' =>
        do (c, s) <- sample mt tol e s;
        do (l, s) <- sample_n mt tol e ex n' s;
        Some ((c, ex) :: l, s)
    end.
  Fixpoint dispatch (mt : nat) (tol : R) (npart : nat) (ex : Z) (els : list element) (s : S) : option (list (list R * Z) * S) :=
    match els with
    | [] => Some ([], s)
    | e :: els' =>
        do (l, s) <- sample_n mt tol e ex npart s;
        do (l', s) <- dispatch mt tol npart (ex + 1)%Z els' s;
        Some (l ++ l', s)
    end.
  (** [els] in the iteration order of the std::map of all elements; 1000000 trials. *)
  Definition MAX_TRIALS : Z := 1000000%Z.
  Definition uniform_within_elements (tol : R) (npart : nat) (els : list element) (s : S) :=
    dispatch (Z.to_nat MAX_TRIALS) tol npart 0%Z els s.
End Uniform.
Arguments mkEl : clear implicits.

(** * R-sequence, include/particle_utility/position_distribution.hpp *)
(** 51-55 *)
Definition INVERSE_GOLDEN_RATIOS : list R :=
  map (fun n => IZR n / 10 ^ 16)
  [6180339887498948; 7548776662466927; 8191725133961644; 8566748838545029; 8812714616335696;
   8986537126286992; 9115923534820549; 9215993196339829; 9295701282320229; 9360691110777584]%Z.
(** rsequence(i, irrational, seed) 66-69 *)
Definition rsequence (i : Z) (irrational seed : R) : R := fmod (IZR i * irrational + seed) 1.
(** rsequence_within_extents 96-116; [None]: INVERSE_GOLDEN_RATIOS or extents read out of bounds.
    Result: one list of N samples per dimension. *)
Definition rsequence_within_extents (N ndim : nat) (extents : list R) (seed : R) : option (list (list R)) :=
  M_Grid.mapM (fun dimx =>
    do igr <- nth_error INVERSE_GOLDEN_RATIOS dimx;
    do ex <- nth_error extents dimx;
    Some (map (fun px => rsequence (Z.of_nat px) igr seed * ex) (seq 0 N))) (seq 0 ndim).

(** * ParticleInitialisationLine, include/particle_utility/particle_initialisation_line.hpp *)
(** 77-94: the positions the rank with work items [rstart, rend) adds *)
Definition line_points (npoints_total : Z) (line_start line_end : list R) (rstart rend : Z) : list (list R) :=
  let ih := 1 / IZR npoints_total in
  let r_step := map (fun '(s, e) => (e - s) * ih) (combine line_start line_end) in
  map (fun px => map (fun '(s, h) => s + IZR (rstart + Z.of_nat px) * h) (combine line_start r_step))
      (seq 0 (Z.to_nat (rend - rstart))).
(** 120-155: collection of the rows of each cell into flat arrays (cell, physical, reference);
    [cells] gives per local cell the rows (physical position, reference position) that
    migration and binning (NESO-Particles) left there; npoints_local is the number of local
    particles reported by the group. *)
Definition collect_points (npoints_local : nat) (cells : list (list (list R * list R)))
  : option (list (Z * list R * list R)) :=
  let pts := concat (map (fun '(cellx, rows) => map (fun '(p, r) => (Z.of_nat cellx, p, r)) rows)
                         (combine (seq 0 (length cells)) cells)) in
  check (Nat.eqb (length pts) npoints_local) (Some pts).

(** * SimpleUniformPointSampler 165-245 *)
(** constructor 212-217: MPI_Scan (inclusive prefix sum) *)
Definition scan (counts : list Z) (rank : nat) : Z := fold_left Z.add (firstn (rank + 1) counts) 0%Z.
Record sampler := mkSampler { s_npoints : Z; s_start : Z; s_end : Z; s_pos : nat }.
Definition sampler_init (counts : list Z) (rank : nat) : sampler :=
  let n := nth rank counts 0%Z in
  mkSampler n (scan counts rank - n) (scan counts rank - 1) 0.
(** get_samples 229-244. [stream k] is the k-th value of point_distribution(rng): the same on
    all ranks as they are seeded identically (MPI_Bcast 208-209); [s_pos] counts the values
    this rank has drawn. *)
Definition get_samples (stream : nat -> Z) (num : nat) (s : sampler) : sampler * list Z :=
  if Z.ltb 0 (s_npoints s) then
    (mkSampler (s_npoints s) (s_start s) (s_end s) (s_pos s + num),
     flat_map (fun k => let sample := stream (s_pos s + k)%nat in
                 if Z.leb (s_start s) sample && Z.leb sample (s_end s) then [(sample - s_start s)%Z] else [])
              (seq 0 num))
  else (s, []).
(** a sequence of collective calls; the outputs of each call *)
Fixpoint get_samples_calls (stream : nat -> Z) (nums : list nat) (s : sampler) : list (list Z) :=
  match nums with
  | [] => []
  | n :: nums' => let '(s', out) := get_samples stream n s in out :: get_samples_calls stream nums' s'
  end.
