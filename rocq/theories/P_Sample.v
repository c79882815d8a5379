(** Property theorems C25-C28. *)
From Verif Require Import M_Sample S_Sample L_Sample.

(** C25 (partial): every rank gets the same answer; success names the lowest rank whose last candidate
    contains the point, with an element of that rank that contains it and its reference
    coordinates; the number of claims is the total over ranks; failure is reported exactly when no
    rank's LAST candidate contains the point. The completeness claim (any candidate) is refuted below. *)
Theorem C25_find_owning_geom_partial : forall (inputs : list (Z * list R * list candidate)) (rank : nat) (res : oresult),
  nth_error (find_owning_geom inputs) rank = Some res ->
  (r_found res = true ->
     exists k id0 ref0 cs c, r_rank res = Z.of_nat k /\ nth_error inputs k = Some (id0, ref0, cs) /\
       last_contains cs /\ In c cs /\ cand_contains c = true /\ r_id res = cand_id c /\ r_ref res = cand_ref c /\
       (forall k' i' r' cs', (k' < k)%nat -> nth_error inputs k' = Some (i', r', cs') -> ~ last_contains cs')) /\
  (r_found res = false -> r_rank res = (-1)%Z /\
     forall k id0 ref0 cs, nth_error inputs k = Some (id0, ref0, cs) -> ~ last_contains cs) /\
  r_num res = sumZ (map (fun '(_, _, cs) => Z.of_nat (length (filter cand_contains cs))) inputs).
Proof. exact find_owning_spec. Qed.
Print Assumptions C25_find_owning_geom_partial.
(** The completeness claim is false of the code: a later candidate that does not contain the point
    overwrites the success of an earlier one. *)
Theorem C25_find_owning_geom_refuted : ~ (forall (inputs : list (Z * list R * list candidate)) (rank : nat) (res : oresult),
  nth_error (find_owning_geom inputs) rank = Some res ->
  (exists id0 ref0 cs, In (id0, ref0, cs) inputs /\ some_contains cs) -> r_found res = true).
Proof.
  intros H. set (a := mkCand 7 true []). set (b := mkCand 8 false []).
  assert (E : r_found (mkOR false (-1) 7 [] 1) = true); [|discriminate E].
  apply (H [(0%Z, [], [a; b])] O); [reflexivity|].
  exists 0%Z, [], [a; b]. split; [left; auto|]. exists a. split; [left; auto|auto].
Qed.
Print Assumptions C25_find_owning_geom_refuted.
Definition ex_owning : list (Z * list R * list candidate) :=
  [(0%Z, [], []); (0%Z, [], [mkCand 3 false []; mkCand 4 true []]); (0%Z, [], [mkCand 4 true []])].
Example C25_nonvacuous : map (fun r => (r_found r, r_rank r, r_id r, r_num r)) (find_owning_geom ex_owning)
  = [(true, 1, 4, 2); (true, 1, 4, 2); (true, 1, 4, 2)]%Z.
Proof. reflexivity. Qed.

(** C26: for every random stream whose draws respect the requested interval, a successful run produces
    exactly npart points for each element, consecutively in element order, each attributed to its
    element's cell, inside its bounding box, contained in it, and with local coordinates at least
    tol inside [-1,1]. *)
Theorem C26_uniform_within_elements : forall (S : Type) (draw : R -> R -> S -> R * S),
  (forall lo hi s, lo < hi -> lo <= fst (draw lo hi s) < hi) ->
  forall (tol : R) (npart : nat) (els : list element) (s : S) (out : list (list R * Z)) (s' : S),
  Forall (fun e => Forall (fun b => fst b < snd b) (el_bb e)) els ->
  uniform_within_elements draw tol npart els s = Some (out, s') ->
  length out = (length els * npart)%nat /\
  forall k c cell, nth_error out k = Some (c, cell) ->
    exists e, nth_error els (k / npart) = Some e /\ cell = Z.of_nat (k / npart) /\
              accepts tol e c /\ in_half_open (el_bb e) c.
Proof. intros S draw Hd tol npart els s out s' P E. exact (dispatch_ok draw Hd _ tol npart 0 els s out s' P E). Qed.
Print Assumptions C26_uniform_within_elements.
(** C26: the run succeeds whenever, from any generator state, each element accepts one of the next
    million proposals. *)
Theorem C26_uniform_within_elements_succeeds : forall (S : Type) (draw : R -> R -> S -> R * S)
  (tol : R) (npart : nat) (els : list element) (s : S),
  (forall e, In e els -> forall s, exists i, (Z.of_nat i < 1000000)%Z /\ accepts tol e (proposal draw (el_bb e) i s)) ->
  exists r, uniform_within_elements draw tol npart els s = Some r.
Proof.
  intros S draw tol npart els s H. apply dispatch_live.
  - change 0%nat with (Z.to_nat 0). apply Z2Nat.inj_lt; unfold MAX_TRIALS; lia.
  - intros e I s0. destruct (H e I s0) as (i & L & A). exists i. split; [|exact A].
    rewrite <- (Nat2Z.id i). apply Z2Nat.inj_lt; unfold MAX_TRIALS; lia.
Qed.
Print Assumptions C26_uniform_within_elements_succeeds.
(** a stream that proposes the middle of the box, accepted by the unit square *)
Definition mid (lo hi : R) (s : unit) : R * unit := ((lo + hi) / 2, s).
Definition sq : element := mkEl [(0, 1); (0, 1)] (fun x => map (fun v => 2 * v - 1) x) (fun x => forallb (fun v => Rle_bool 0 v) x).
Example C26_nonvacuous : (forall lo hi s, lo < hi -> lo <= fst (mid lo hi s) < hi) /\
  Forall (fun e => Forall (fun b => fst b < snd b) (el_bb e)) [sq] /\
  exists r, uniform_within_elements mid (1/10) 3 [sq] tt = Some r.
Proof.
  split; [intros; cbn; lra|]. split; [repeat constructor; cbn; lra|].
  apply C26_uniform_within_elements_succeeds. intros e [<-|[]] s. exists 0%nat. split; [lia|].
  cbn. split.
  - cbn. rewrite !Rle_bool_true by lra. auto.
  - cbn. repeat constructor; lra.
Qed.

(** C27 (partial: for non-negative seeds; up to 10 dimensions as documented): every sample lies in [0, extent) and is
    extent times the fractional part of index * ratio + seed. *)
Theorem C27_rsequence_partial : forall (N ndim : nat) (extents : list R) (seed : R),
  0 <= seed -> (ndim <= 10)%nat -> (ndim <= length extents)%nat -> Forall (fun e => 0 < e) extents ->
  exists out, rsequence_within_extents N ndim extents seed = Some out /\ length out = ndim /\
    forall d row, nth_error out d = Some row -> length row = N /\
      forall ex, nth_error extents d = Some ex ->
      forall p v, nth_error row p = Some v -> 0 <= v < ex /\
        exists (g : R) (n : Z), nth_error INVERSE_GOLDEN_RATIOS d = Some g /\
          v = (INR p * g + seed - IZR n) * ex.
Proof. exact rsequence_extents. Qed.
Print Assumptions C27_rsequence_partial.
(** False for negative seeds: fmod keeps the sign of its argument. *)
Theorem C27_rsequence_refuted : ~ (forall (N ndim : nat) (extents : list R) (seed : R) out d row ex p v,
  Forall (fun e => 0 < e) extents ->
  rsequence_within_extents N ndim extents seed = Some out -> nth_error out d = Some row ->
  nth_error extents d = Some ex -> nth_error row p = Some v -> 0 <= v < ex).
Proof.
  intros H. specialize (H 1%nat 1%nat [1] (-1/2) [[rsequence 0 (IZR 6180339887498948 / 10 ^ 16) (-1/2) * 1]] O _ 1 O _
    ltac:(repeat constructor; lra) eq_refl eq_refl eq_refl eq_refl).
  unfold rsequence, fmod in H. rewrite Rmult_0_l, Rplus_0_l in H.
  replace (-1/2/1) with (- (1/2)) in H by field. rewrite Ztrunc_opp in H.
  rewrite (L_RealBase.Ztrunc_nonneg_unique (1/2) 0) in H by lra. cbn in H. lra.
Qed.
Print Assumptions C27_rsequence_refuted.
Example C27_nonvacuous : exists out, rsequence_within_extents 5 2 [2; 3] (1/2) = Some out.
Proof. eexists. reflexivity. Qed.

(** C28: for every consecutive decomposition of the point indices over the ranks, the points the ranks add
    are together exactly the npoints_total evenly spaced points of the line, in order and once each. *)
Theorem C28_line_points_partition : forall (N : Z) (line_start line_end : list R) (bound : nat -> Z) (ranks : nat),
  (0 < N)%Z -> bound O = 0%Z -> (forall r, (bound r <= bound (r + 1)%nat)%Z) -> bound ranks = N ->
  concat (map (fun r => line_points N line_start line_end (bound r) (bound (r + 1)%nat)) (seq 0 ranks))
  = map (fun k => spaced N line_start line_end (Z.of_nat k)) (seq 0 (Z.to_nat N)).
Proof. intros N a c b ranks HN H0 Hm <-. exact (line_partition _ a c b ranks HN H0 Hm). Qed.
Print Assumptions C28_line_points_partition.
(** C28: whatever migration leaves in the local cells is collected exactly once, attributed to its cell. *)
Theorem C28_line_points_collected : forall (n : nat) (cells : list (list (list R * list R))),
  n = length (concat cells) ->
  exists pts, collect_points n cells = Some pts /\
    map (fun '(_, p, r) => (p, r)) pts = concat cells /\
    (forall c p r, In (c, p, r) pts -> exists rows, (0 <= c)%Z /\ nth_error cells (Z.to_nat c) = Some rows /\ In (p, r) rows).
Proof. exact collect_spec. Qed.
Print Assumptions C28_line_points_collected.
(** C28: over any sequence of collective sampling calls, each rank keeps exactly the drawn global indices
    it owns, in drawing order and with multiplicity, as valid local indices; hence when all drawn indices are owned,
    each call keeps exactly the requested number of samples over all ranks. *)
Theorem C28_sampler_one_rank : forall (stream : nat -> Z) (counts : list Z) (nums : list nat) (j : nat),
  Forall (fun c => 0 <= c)%Z counts -> (j < length nums)%nat ->
  (forall r, (r < length counts)%nat ->
     nth j (get_samples_calls stream nums (sampler_init counts r)) [] =
     map (fun v => (v - first_index counts r)%Z) (filter (ownsb counts r) (draws stream nums j))) /\
  (forall r, (r < length counts)%nat -> forall local,
     In local (nth j (get_samples_calls stream nums (sampler_init counts r)) []) -> (0 <= local < nth r counts 0)%Z) /\
  ((forall v, In v (draws stream nums j) -> 0 <= v < sumZ counts)%Z ->
     sumN (map (fun r => length (nth j (get_samples_calls stream nums (sampler_init counts r)) [])) (seq 0 (length counts)))
     = nth j nums 0%nat).
Proof. exact sampler_spec. Qed.
Print Assumptions C28_sampler_one_rank.
Theorem C28_one_owner : forall (counts : list Z) (v : Z), Forall (fun c => 0 <= c)%Z counts -> (0 <= v < sumZ counts)%Z ->
  exists! r, (r < length counts)%nat /\ owns counts r v.
Proof. exact owner_exists. Qed.
Print Assumptions C28_one_owner.
Example C28_nonvacuous :
  map (fun r => get_samples_calls (fun k => Z.of_nat ((k * 3) mod 5)) [4; 3]%nat (sampler_init [2; 0; 3]%Z r)) [0; 1; 2]%nat
  = [[[0; 1]; [0]]; [[]; []]; [[1; 2]; [0; 1]]]%Z.
Proof. reflexivity. Qed.
