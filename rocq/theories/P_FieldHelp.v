(** Property theorems C94. *)
From Coq Require Import Reals Psatz Permutation.
From Verif Require Import M_Bytes M_Util M_FieldHelp S_FieldHelp L_FieldHelp P_Util.
From Coq Require Import List.
Import ListNotations.
Open Scope R_scope.

(** C94: interpolation stores the transformed samples and the values they stand for, whatever
    was in the field before, and changes nothing else. *)
Theorem C94_interpolate_3d : forall (g : R -> R -> R -> R) (fld : nfield),
  let s := samples (fun p => g (fst (fst p)) (snd (fst p)) (snd p)) (nf_coords fld) in
  length (nf_fwd fld s) = nf_ncoeffs fld -> length (nf_coeff fld) = nf_ncoeffs fld ->
  interpolate_3d g fld =
    Some (mkField (nf_exp fld) (nf_off fld) (nf_coords fld) (nf_ncoeffs fld) (nf_fwd fld) (nf_bwd fld) (nf_search fld)
            (nf_fwd fld s) (nf_bwd fld (nf_fwd fld s))).
Proof.
  intros g fld s H1 H2. pose proof (set_coeffs_loop_spec (nf_ncoeffs fld) 0 _ _ H1 H2 eq_refl) as E.
  unfold interpolate_3d. unfold s, samples, point3 in *. cbv zeta. rewrite E. reflexivity.
Qed.
Print Assumptions C94_interpolate_3d.
Theorem C94_interpolate_2d : forall (g : R -> R -> R) (fld : nfield),
  let s := samples (fun p => g (fst (fst p)) (snd (fst p))) (nf_coords fld) in
  length (nf_fwd fld s) = nf_ncoeffs fld -> length (nf_coeff fld) = nf_ncoeffs fld ->
  interpolate_2d g fld =
    Some (mkField (nf_exp fld) (nf_off fld) (nf_coords fld) (nf_ncoeffs fld) (nf_fwd fld) (nf_bwd fld) (nf_search fld)
            (nf_fwd fld s) (nf_bwd fld (nf_fwd fld s))).
Proof.
  intros g fld s H1 H2. pose proof (set_coeffs_loop_spec (nf_ncoeffs fld) 0 _ _ H1 H2 eq_refl) as E.
  unfold interpolate_2d. unfold s, samples, point3 in *. cbv zeta. rewrite E. reflexivity.
Qed.
Print Assumptions C94_interpolate_2d.

(** Interpolating a function that already agrees with the field at its points gives the field
    back, if transforming back and forth keeps coefficients (a projection). *)
Theorem C94_interpolate_idempotent : forall (g : R -> R -> R -> R) (fld : nfield),
  length (nf_coeff fld) = nf_ncoeffs fld ->
  nf_fwd fld (nf_bwd fld (nf_coeff fld)) = nf_coeff fld ->
  nf_phys fld = nf_bwd fld (nf_coeff fld) ->
  samples (fun p => g (fst (fst p)) (snd (fst p)) (snd p)) (nf_coords fld) = nf_phys fld ->
  interpolate_3d g fld = Some fld.
Proof.
  intros g fld H1 H2 H3 H4. rewrite C94_interpolate_3d; rewrite ?H4, ?H3, ?H2; auto.
  rewrite <- H3. now destruct fld.
Qed.
Print Assumptions C94_interpolate_idempotent.

(** Evaluation uses the values of the element the search found, and no others. *)
Theorem C94_evaluate : forall (fld : nfield) x y z i e v xi, laid_out fld ->
  length (nf_phys fld) = total_points (nf_exp fld) ->
  nth_error (nf_exp fld) i = Some e -> nth_error (pieces (nf_exp fld) (nf_phys fld)) i = Some v ->
  (nf_search fld [x; y] = (Z.of_nat i, xi) ->
     evaluate_2d fld x y = Ok (ex_std e xi v) /\
     forall d, derivative_2d fld x y d = Ok (ex_std e xi (ex_deriv e d v))) /\
  (nf_search fld [x; y; z] = (Z.of_nat i, xi) ->
     evaluate_3d fld x y z = Ok (ex_std e xi v) /\
     forall d, derivative_3d fld x y z d None = Ok (ex_std e xi (ex_deriv e d v))) /\
  (forall d, derivative_3d fld x y z d (Some (Z.of_nat i)) = Ok (ex_std e (ex_loc e [x; y; z]) (ex_deriv e d v))) /\
  (forall d, derivative_local_3d fld x y z d (Z.of_nat i) = Ok (ex_std e [x; y; z] (ex_deriv e d v))).
Proof.
  intros fld x y z i e v xi L1 L2 He Hv. pose proof (element_values_spec _ _ _ _ L1 L2 He Hv) as E.
  unfold evaluate_2d, derivative_2d, evaluate_3d, derivative_3d, derivative_local_3d.
  split; [|split; [|split]].
  - intros ->. rewrite E. cbn [obind fst snd]. auto.
  - intros ->. cbn [obind]. rewrite E. cbn [obind fst snd]. auto.
  - intros d. rewrite (raw_nth_some _ _ _ He). cbn [obind]. rewrite E. reflexivity.
  - intros d. rewrite E. reflexivity.
Qed.
Print Assumptions C94_evaluate.

Lemma pieces_samples g fld i ps : nth_error (pieces (nf_exp fld) (nf_coords fld)) i = Some ps ->
  nth_error (pieces (nf_exp fld) (samples g (nf_coords fld))) i = Some (samples g ps).
Proof. intros H. unfold samples, point3 in *. rewrite pieces_map, nth_error_map, H. reflexivity. Qed.
Lemma phys_length fld g : laid_out fld -> length (samples g (nf_coords fld)) = total_points (nf_exp fld).
Proof. intros [_ H]. unfold samples. now rewrite map_length. Qed.

(** Interpolating a function the discretisation represents and evaluating it, or its
    derivative, at any point of the mesh gives the function and its derivative: by search, by a
    given element, or by reference coordinates. *)
Theorem C94_reproduces_3d : forall (g dg : point3 -> R) (d : Z) (fld : nfield) chi, laid_out fld ->
  length (nf_fwd fld (samples g (nf_coords fld))) = nf_ncoeffs fld -> length (nf_coeff fld) = nf_ncoeffs fld ->
  nf_bwd fld (nf_fwd fld (samples g (nf_coords fld))) = samples g (nf_coords fld) ->
  evaluates_exactly fld chi g -> evaluates_exactly fld chi dg -> differentiates_exactly fld d g dg ->
  exists fld', interpolate_3d (fun x y z => g (x, y, z)) fld = Some fld' /\
    nf_phys fld' = samples g (nf_coords fld) /\
    (forall x y z i xi, (i < length (nf_exp fld))%nat -> nf_search fld [x; y; z] = (Z.of_nat i, xi) -> chi i xi = (x, y, z) ->
       evaluate_3d fld' x y z = Ok (g (x, y, z)) /\ derivative_3d fld' x y z d None = Ok (dg (x, y, z))) /\
    (forall x y z i e, nth_error (nf_exp fld) i = Some e -> chi i (ex_loc e [x; y; z]) = (x, y, z) ->
       derivative_3d fld' x y z d (Some (Z.of_nat i)) = Ok (dg (x, y, z))) /\
    (forall xi0 xi1 xi2 i, (i < length (nf_exp fld))%nat ->
       derivative_local_3d fld' xi0 xi1 xi2 d (Z.of_nat i) = Ok (dg (chi i [xi0; xi1; xi2]))).
Proof.
  intros g dg d fld chi L H1 H2 H3 Eg Ed D.
  assert (S0 : samples (fun p => g (fst (fst p), snd (fst p), snd p)) (nf_coords fld) = samples g (nf_coords fld)).
  { apply map_ext. intros [[a b] c]. reflexivity. }
  pose proof (C94_interpolate_3d (fun x y z => g (x, y, z)) fld) as I. cbv beta zeta in I. rewrite S0 in I.
  specialize (I H1 H2). rewrite H3 in I. eexists. split; [exact I|].
  set (fld' := mkField _ _ _ _ _ _ _ _ _).
  assert (L' : laid_out fld') by exact L.
  assert (P' : length (nf_phys fld') = total_points (nf_exp fld')) by exact (phys_length fld _ L).
  split; [reflexivity|].
  assert (K : forall i, (i < length (nf_exp fld))%nat -> exists e ps, nth_error (nf_exp fld') i = Some e /\
     nth_error (pieces (nf_exp fld) (nf_coords fld)) i = Some ps /\
     nth_error (pieces (nf_exp fld') (nf_phys fld')) i = Some (samples g ps) /\
     ex_deriv e d (samples g ps) = samples dg ps /\
     (forall xi, ex_std e xi (samples g ps) = g (chi i xi)) /\ (forall xi, ex_std e xi (samples dg ps) = dg (chi i xi))).
  { intros i Hi. destruct (nth_error (nf_exp fld) i) as [e|] eqn:He. 2:{ apply nth_error_None in He. lia. }
    pose proof (pieces_nth _ (nf_coords fld) _ _ He) as Hps. exists e. eexists. split; [exact He|]. split; [exact Hps|].
    split; [exact (pieces_samples g fld i _ Hps)|].
    split; [exact (D _ _ _ He Hps)|]. split; intros xi; [apply (Eg _ _ _ _ He Hps)|apply (Ed _ _ _ _ He Hps)]. }
  split; [|split].
  - intros x y z i xi Hi Hs Hc. destruct (K i Hi) as (e & ps & He & Hps & Hv & Hd & G1 & G2).
    destruct (C94_evaluate fld' x y z i e _ xi L' P' He Hv) as (_ & A & _ & _).
    destruct (A Hs) as [A1 A2]. rewrite A1, A2, Hd, G1, G2, Hc. auto.
  - intros x y z i e0 He0 Hc. assert (Hi : (i < length (nf_exp fld))%nat) by (apply nth_error_Some; congruence).
    destruct (K i Hi) as (e & ps & He & Hps & Hv & Hd & G1 & G2).
    destruct (C94_evaluate fld' x y z i e _ [] L' P' He Hv) as (_ & _ & A & _).
    cbn [nf_exp fld'] in He. rewrite He0 in He. inversion He. subst e0.
    rewrite A, Hd, G2, Hc. reflexivity.
  - intros a b c i Hi. destruct (K i Hi) as (e & ps & He & Hps & Hv & Hd & G1 & G2).
    destruct (C94_evaluate fld' a b c i e _ [] L' P' He Hv) as (_ & _ & _ & A). rewrite A, Hd, G2. reflexivity.
Qed.
Print Assumptions C94_reproduces_3d.

Theorem C94_reproduces_2d : forall (g dg : R -> R -> R) (d : Z) (fld : nfield) chi, laid_out fld ->
  let g3 := (fun p : point3 => g (fst (fst p)) (snd (fst p))) in
  let dg3 := (fun p : point3 => dg (fst (fst p)) (snd (fst p))) in
  length (nf_fwd fld (samples g3 (nf_coords fld))) = nf_ncoeffs fld -> length (nf_coeff fld) = nf_ncoeffs fld ->
  nf_bwd fld (nf_fwd fld (samples g3 (nf_coords fld))) = samples g3 (nf_coords fld) ->
  evaluates_exactly fld chi g3 -> evaluates_exactly fld chi dg3 -> differentiates_exactly fld d g3 dg3 ->
  exists fld', interpolate_2d g fld = Some fld' /\
    (forall x y i xi, (i < length (nf_exp fld))%nat -> nf_search fld [x; y] = (Z.of_nat i, xi) ->
       fst (chi i xi) = (x, y) ->
       evaluate_2d fld' x y = Ok (g x y) /\ derivative_2d fld' x y d = Ok (dg x y)).
Proof.
  intros g dg d fld chi L g3 dg3 H1 H2 H3 Eg Ed D.
  pose proof (C94_interpolate_2d g fld H1 H2) as I.
  change (samples (fun p => g (fst (fst p)) (snd (fst p))) (nf_coords fld)) with (samples g3 (nf_coords fld)) in I.
  rewrite H3 in I. eexists. split; [exact I|]. set (fld' := mkField _ _ _ _ _ _ _ _ _).
  assert (L' : laid_out fld') by exact L.
  assert (P' : length (nf_phys fld') = total_points (nf_exp fld')) by exact (phys_length fld _ L).
  intros x y i xi Hi Hs Hc. destruct (nth_error (nf_exp fld) i) as [e|] eqn:He. 2:{ apply nth_error_None in He. lia. }
  pose proof (pieces_nth _ (nf_coords fld) _ _ He) as Hps.
  assert (Hv : nth_error (pieces (nf_exp fld') (nf_phys fld')) i = Some (samples g3 (firstn (ex_npts e) (skipn (total_points (firstn i (nf_exp fld))) (nf_coords fld))))).
  { exact (pieces_samples g3 fld i _ Hps). }
  destruct (C94_evaluate fld' x y 0 i e _ xi L' P' He Hv) as (A & _). destruct (A Hs) as [A1 A2].
  rewrite A1, A2, (D _ _ _ He Hps), (Eg _ _ _ _ He Hps), (Ed _ _ _ _ He Hps). unfold g3, dg3. rewrite Hc. auto.
Qed.
Print Assumptions C94_reproduces_2d.

(** The search reports -1 for a point it finds in no element; every evaluation that searches
    then reads outside its arrays. *)
Theorem C94_outside_refuted : forall (fld : nfield) x y z d xi,
  (nf_search fld [x; y] = ((-1)%Z, xi) -> evaluate_2d fld x y = UB /\ derivative_2d fld x y d = UB) /\
  (nf_search fld [x; y; z] = ((-1)%Z, xi) -> evaluate_3d fld x y z = UB /\ derivative_3d fld x y z d None = UB).
Proof.
  intros fld x y z d xi. unfold evaluate_2d, derivative_2d, evaluate_3d, derivative_3d.
  split; intros ->; split; reflexivity.
Qed.
Print Assumptions C94_outside_refuted.

(** The map from cells to expansions: the last expansion on the geometry of the cell. *)
Theorem C94_cells_to_expansions : forall (exps : list expansion) (c : cell_ids),
  (make_cells_to_exp exps c = None <->
     exists gid, In gid (map_to_nektar c) /\ forall e, In e exps -> ex_gid e <> gid) /\
  (forall m, make_cells_to_exp exps c = Some m ->
     (forall k gid i, nth_error (map_to_nektar c) k = Some gid -> last_expansion_on exps gid i ->
        get_exp_id m (Z.of_nat k) = Some (Z.of_nat i) /\
        exists e, get_exp exps m (Z.of_nat k) = Some (Ok e) /\ nth_error exps i = Some e /\ ex_gid e = gid) /\
     (forall k, (k < 0 \/ Z.of_nat (length (map_to_nektar c)) <= k)%Z -> get_exp_id m k = None)).
Proof.
  intros exps c. unfold make_cells_to_exp. split.
  - rewrite cell_to_exp_none. split; intros (gid & H & H').
    + exists gid. split; auto. destruct (last_expansion_cases exps gid) as [(i & Hi)|K]; auto.
      rewrite (g2e_last _ _ _ _ _ Hi) in H'. discriminate.
    + exists gid. split; auto. rewrite g2e_absent by assumption. reflexivity.
  - intros m Hm. destruct (cell_to_exp_find _ _ _ _ _ Hm) as (A & B & C). split.
    + intros k gid i Hk Hl. specialize (C _ _ Hk). rewrite Z.add_0_l in C.
      rewrite (g2e_last _ _ _ _ _ Hl), Z.add_0_l in C. split; [exact C|].
      destruct Hl as [(e & He & Hg) _]. exists e. unfold get_exp, get_exp_id. rewrite C, (raw_nth_some _ _ _ He). auto.
    + intros k Hk. unfold get_exp_id. destruct Hk as [Hk|Hk]; [apply A; lia|rewrite B; [reflexivity|lia]].
Qed.
Print Assumptions C94_cells_to_expansions.

(** With one expansion per local element, a particle in a local element is translated to a cell
    whose expansion is the expansion on that element, on plane and on solid meshes. *)
Lemma particle_to_expansion (exps : list expansion) (c : cell_ids) (ids : list Z) :
  Permutation (map_to_nektar c) ids ->
  (forall i id, nth_error (map_to_nektar c) i = Some id <-> translate c id = Some (Z.of_nat i)) ->
  Permutation (map ex_gid exps) ids -> NoDup ids ->
  exists m, make_cells_to_exp exps c = Some m /\
    forall gid, In gid ids -> exists cell e, translate c gid = Some cell /\ get_exp exps m cell = Some (Ok e) /\
      In e exps /\ ex_gid e = gid.
Proof.
  intros P1 T P2 ND. destruct (C94_cells_to_expansions exps c) as [N S].
  assert (Hin : forall gid, In gid ids -> exists e, In e exps /\ ex_gid e = gid).
  { intros gid H. apply (Permutation_in _ (Permutation_sym P2)), in_map_iff in H. destruct H as (e & H & H'). now exists e. }
  destruct (make_cells_to_exp exps c) as [m|].
  2:{ destruct (proj1 N eq_refl) as (gid & H & H'). exfalso. apply (Permutation_in _ P1) in H.
      destruct (Hin _ H) as (e & He & Hg). exact (H' e He Hg). }
  exists m. split; auto. intros gid Hg. destruct (S m eq_refl) as [S1 _].
  pose proof (Permutation_in _ (Permutation_sym P1) Hg) as Hc. apply In_nth_error in Hc. destruct Hc as [k Hk].
  exists (Z.of_nat k). destruct (last_expansion_cases exps gid) as [(i & Hi)|K].
  - destruct (S1 _ _ _ Hk Hi) as (_ & e & G & Ne & Hg'). exists e. split; [now apply T|]. split; auto.
    split; [apply (nth_error_In _ _ Ne)|auto].
  - exfalso. destruct (Hin _ Hg) as (e & He & Hg'). exact (K e He Hg').
Qed.
Theorem C94_particle_to_expansion_2d : forall (tris quads : list (Z * geom)) (exps : list expansion),
  let ids := map fst (tris ++ quads) in
  tris ++ quads <> [] -> NoDup ids -> Forall (fun kg => fst kg = fst (snd kg)) (tris ++ quads) ->
  Forall (fun kg => 0 <= fst kg < INT_MAX)%Z (tris ++ quads) ->
  Permutation (map ex_gid exps) ids ->
  exists c m, construct_maps (get_all_elements_2d tris quads) = Some c /\ make_cells_to_exp exps c = Some m /\
    forall gid, In gid ids -> exists cell e, translate c gid = Some cell /\ get_exp exps m cell = Some (Ok e) /\
      In e exps /\ ex_gid e = gid.
Proof.
  intros tris quads exps ids H1 H2 H3 H4 P.
  destruct (C15_cell_translation_2d tris quads H1 H2 H3 H4) as (c & A & B & _ & D & _).
  destruct (particle_to_expansion exps c ids B D P H2) as (m & M & K). exists c, m. auto.
Qed.
Print Assumptions C94_particle_to_expansion_2d.
Theorem C94_particle_to_expansion_3d : forall (tets pyrs prisms hexs : list (Z * geom)) (exps : list expansion),
  let all := tets ++ pyrs ++ prisms ++ hexs in
  let ids := map fst all in
  all <> [] -> NoDup ids -> Forall (fun kg => fst kg = fst (snd kg)) all ->
  Forall (fun kg => 0 <= fst kg < INT_MAX)%Z all ->
  Permutation (map ex_gid exps) ids ->
  exists c m, construct_maps (get_all_elements_3d tets pyrs prisms hexs) = Some c /\ make_cells_to_exp exps c = Some m /\
    forall gid, In gid ids -> exists cell e, translate c gid = Some cell /\ get_exp exps m cell = Some (Ok e) /\
      In e exps /\ ex_gid e = gid.
Proof.
  intros a b c0 d exps all ids H1 H2 H3 H4 P.
  destruct (C15_cell_translation_3d a b c0 d H1 H2 H3 H4) as (c & A & B & _ & D & _).
  destruct (particle_to_expansion exps c ids B D P H2) as (m & M & K). exists c, m. auto.
Qed.
Print Assumptions C94_particle_to_expansion_3d.

(** The error measures. *)
Theorem C94_error_measures : forall c t : R,
  absolute_error c t = Rabs (t - c) /\
  (c <> 0 -> relative_error c t = Rabs ((t - c) / c)) /\
  relative_error 0 t = Rabs t /\
  minimum_absrel_error c t = Rabs (t - c) / Rmax 1 (Rabs c) /\
  minimum_absrel_error c t <= absolute_error c t /\ minimum_absrel_error c t <= relative_error c t /\
  (minimum_absrel_error c t = 0 <-> t = c) /\
  (forall tol, minimum_absrel_error c t <= tol <-> Rabs (t - c) <= tol * Rmax 1 (Rabs c)).
Proof.
  intros c t. assert (A : absolute_error c t = Rabs (t - c)) by (unfold absolute_error; apply Rabs_minus_sym).
  assert (Rr : c <> 0 -> relative_error c t = Rabs ((t - c) / c)).
  { intros H. unfold relative_error. destruct (Req_EM_T (Rabs c) 0) as [E|E].
    - exfalso. apply H. destruct (Req_dec c 0); auto. exfalso. now apply (Rabs_no_R0 c).
    - unfold Rdiv. rewrite Rabs_mult, Rabs_inv. now rewrite Rabs_minus_sym. }
  assert (Z' : relative_error 0 t = Rabs t).
  { unfold relative_error. rewrite Rabs_R0. destruct (Req_EM_T 0 0) as [_|E]; [|congruence].
    rewrite Rabs_minus_sym. f_equal. lra. }
  assert (P : 0 < Rmax 1 (Rabs c)) by (apply Rlt_le_trans with 1; [lra|apply Rmax_l]).
  assert (M : minimum_absrel_error c t = Rabs (t - c) / Rmax 1 (Rabs c) /\ minimum_absrel_error c t <= absolute_error c t /\ minimum_absrel_error c t <= relative_error c t).
  { unfold minimum_absrel_error. rewrite A. pose proof (Rabs_pos (t - c)) as Q.
    destruct (Req_dec c 0) as [->|H].
    - rewrite Z'. rewrite Rabs_R0. rewrite Rmax_left by lra. replace (t - 0) with t by lra.
      destruct (Rlt_dec _ _); split; lra.
    - rewrite (Rr H). unfold Rdiv. rewrite Rabs_mult, Rabs_inv.
      pose proof (Rabs_pos_lt c H) as Pc. destruct (Rle_lt_dec 1 (Rabs c)) as [L|L].
      + rewrite Rmax_right by assumption.
        assert (K : Rabs (t - c) * / Rabs c <= Rabs (t - c)).
        { apply Rmult_le_reg_r with (Rabs c); auto. rewrite Rmult_assoc, Rinv_l by lra. nra. }
        destruct (Rlt_dec _ _); split; try lra.
      + rewrite Rmax_left by lra. rewrite Rinv_1.
        assert (K : Rabs (t - c) <= Rabs (t - c) * / Rabs c).
        { apply Rmult_le_reg_r with (Rabs c); auto. rewrite Rmult_assoc, Rinv_l by lra. nra. }
        destruct (Rlt_dec _ _); split; try lra. }
  destruct M as (M1 & M2 & M3). split; [exact A|]. split; [exact Rr|]. split; [exact Z'|]. split; [exact M1|]. split; [exact M2|]. split; [exact M3|].
  split.
  - rewrite M1. split; intros H.
    + assert (Rabs (t - c) = 0). { apply Rmult_eq_reg_r with (/ Rmax 1 (Rabs c)). { unfold Rdiv in H. lra. } apply Rinv_neq_0_compat. lra. }
      destruct (Req_dec (t - c) 0); [lra|]. exfalso. now apply (Rabs_no_R0 (t - c)).
    + subst. replace (c - c) with 0 by lra. rewrite Rabs_R0. unfold Rdiv. lra.
  - intros tol. rewrite M1. split; intros H.
    + apply Rmult_le_compat_r with (r := Rmax 1 (Rabs c)) in H; [|lra]. unfold Rdiv in H. rewrite Rmult_assoc, Rinv_l in H by lra. lra.
    + apply Rmult_le_reg_r with (Rmax 1 (Rabs c)); auto. unfold Rdiv. rewrite Rmult_assoc, Rinv_l by lra. lra.
Qed.
Print Assumptions C94_error_measures.

(** Two unit squares side by side with bilinear elements, corners as points, and the function
    x*y, whose derivative in the first direction is y. *)
Definition ex_bilinear (gid : Z) (x0 : R) : expansion :=
  mkExpansion gid 4
    (fun xi v => let s := (1 + nth 0 xi 0) / 2 in let t := (1 + nth 1 xi 0) / 2 in
       (1-s)*(1-t) * nth 0 v 0 + s*(1-t) * nth 1 v 0 + (1-s)*t * nth 2 v 0 + s*t * nth 3 v 0)
    (fun d v => if Z.eqb d 0 then [nth 1 v 0 - nth 0 v 0; nth 1 v 0 - nth 0 v 0; nth 3 v 0 - nth 2 v 0; nth 3 v 0 - nth 2 v 0]
                else [nth 2 v 0 - nth 0 v 0; nth 3 v 0 - nth 1 v 0; nth 2 v 0 - nth 0 v 0; nth 3 v 0 - nth 1 v 0])
    (fun p => [2 * (nth 0 p 0 - x0) - 1; 2 * nth 1 p 0 - 1; 0]).
Definition ex_field : nfield :=
  mkField [ex_bilinear 7 0; ex_bilinear 3 1] [0%nat; 4%nat]
    [(0,0,0); (1,0,0); (0,1,0); (1,1,0); (1,0,0); (2,0,0); (1,1,0); (2,1,0)] 8 (fun l => l) (fun l => l)
    (fun p => let x := nth 0 p 0 in
       if Rlt_dec x 0 then ((-1)%Z, []) else if Rle_dec x 1 then (0%Z, ex_loc (ex_bilinear 7 0) p) else (1%Z, ex_loc (ex_bilinear 3 1) p))
    [9;9;9;9;9;9;9;9] [].
Definition ex_chi (i : nat) (xi : list R) : point3 := (INR i + (1 + nth 0 xi 0) / 2, (1 + nth 1 xi 0) / 2, 0).
Example C94_nonvacuous :
  laid_out ex_field /\
  evaluates_exactly ex_field ex_chi (fun p => fst (fst p) * snd (fst p)) /\
  evaluates_exactly ex_field ex_chi (fun p => snd (fst p)) /\
  differentiates_exactly ex_field 0 (fun p => fst (fst p) * snd (fst p)) (fun p => snd (fst p)) /\
  (exists fld', interpolate_3d (fun x y z => x * y) ex_field = Some fld' /\
     evaluate_3d fld' (3/2) (1/3) 0 = Ok (1/2) /\ derivative_3d fld' (3/2) (1/3) 0 0 (Some 1%Z) = Ok (1/3)) /\
  evaluate_2d ex_field (-1) 0 = UB /\
  make_cells_to_exp (nf_exp ex_field) (mkCellIds [3; 7]%Z [] [] 0%Z) = Some [(0, 1); (1, 0)]%Z.
Proof.
  assert (A : laid_out ex_field) by (split; reflexivity).
  assert (B : evaluates_exactly ex_field ex_chi (fun p => fst (fst p) * snd (fst p))).
  { intros [|[|[|]]] e ps xi He Hp; try discriminate; inversion He; inversion Hp; subst; unfold ex_chi; cbn; field. }
  assert (C : evaluates_exactly ex_field ex_chi (fun p => snd (fst p))).
  { intros [|[|[|]]] e ps xi He Hp; try discriminate; inversion He; inversion Hp; subst; unfold ex_chi; cbn; field. }
  assert (D : differentiates_exactly ex_field 0 (fun p => fst (fst p) * snd (fst p)) (fun p => snd (fst p))).
  { intros [|[|[|]]] e ps He Hp; try discriminate; inversion He; inversion Hp; subst; cbn; repeat (apply f_equal2; [ring|]); reflexivity. }
  split; [exact A|]. split; [exact B|]. split; [exact C|]. split; [exact D|]. split; [|split].
  - destruct (C94_reproduces_3d (fun p => fst (fst p) * snd (fst p)) (fun p => snd (fst p)) 0 ex_field ex_chi A eq_refl eq_refl eq_refl B C D)
      as (fld' & I & _ & E1 & E2 & _). exists fld'. split; [exact I|]. split.
    + destruct (E1 (3/2) (1/3) 0 1%nat (ex_loc (ex_bilinear 3 1) [3/2; 1/3; 0])) as [K _].
      * cbn. lia.
      * cbn [ex_field nf_search nth]. destruct (Rlt_dec (3/2) 0); [lra|]. destruct (Rle_dec (3/2) 1); [lra|]. reflexivity.
      * unfold ex_chi. cbn. apply f_equal2; [apply f_equal2; field|reflexivity].
      * rewrite K. cbn [fst snd]. f_equal. field.
    + apply (E2 (3/2) (1/3) 0 1%nat (ex_bilinear 3 1)); [reflexivity|].
      unfold ex_chi. cbn. apply f_equal2; [apply f_equal2; field|reflexivity].
  - apply (C94_outside_refuted ex_field (-1) 0 0 0 []). cbn. destruct (Rlt_dec (-1) 0); [reflexivity|lra].
  - reflexivity.
Qed.
