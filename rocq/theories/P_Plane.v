(** C77: the drift-plane (blob2D) system. *)
From Verif Require Import M_RealBase M_Util M_Grid M_Fluid M_Plane S_Plane L_RealBase L_Coord L_Fluid L_Fluid6 L_Plane.
From Flocq Require Import Core.Raux.
From Coq Require Import Reals Lra Lia ZArith String FunctionalExtensionality List.
Import ListNotations.
Open Scope R_scope.
Open Scope string_scope.
Open Scope list_scope.

(** The system only starts with variables in the order ne, w, phi. *)
Theorem C77_session s : plane_init s = FOk tt <-> exists r, fs_vars s = ("ne" :: "w" :: "phi" :: r)%string.
Proof. exact (plane_init_ok s). Qed.

(** The right hand sides for every state: weak DG divergence of f*v (v = B times the drift velocity; plus epsilon*n in the y
    component for the vorticity) with upwind numerical fluxes, over -B, and the sheath terms. *)
Theorem C77_rhs e s p a b phys n w nx ny : blob_sess s -> blob_pars p -> length phys = length (fs_vars s) ->
  pe_normals e = [nx; ny] ->
  exists phi dn dw, blob_rhs e s p [a; b] phys [n; w] = FOk (phi, [dn; dw]) /\ is_phi e s p phys w phi /\
  let v := vnormal e nx ny phi in
  (forall i, dn i = - pe_wdg e 0 [(fun i => n i * vx e phi i); (fun i => n i * vy e phi i)]
       (fun i => upflux (v i) (pe_fwd e 0 n i) (pe_bwd e 0 n i)) i / pp_B p + n i * phi i / (pp_e p * pp_Lpar p)) /\
  (forall i, dw i = - pe_wdg e 1 [(fun i => w i * vx e phi i); (fun i => w i * vy e phi i + eps_of p * n i)]
       (fun i => upflux (v i) (pe_fwd e 1 w i) (pe_bwd e 1 w i) + eps_of p * ny i * upval (v i) (pe_fwd e 0 n i) (pe_bwd e 0 n i)) i
       / pp_B p + n i * phi i / pp_Lpar p).
Proof. intros Hs Hp Hl Hn. exact (blob_ok e s p a b phys n w nx ny Hs Hp Hl Hn). Qed.

(** For fields that are continuous between elements these are the drift-plane equations
    dn/dt = (dphi/dx dn/dy - dphi/dy dn/dx)/B + n phi/(e L),  dw/dt = (dphi/dx dw/dy - dphi/dy dw/dx)/B - (eps/B) dn/dy + n phi/L. *)
Theorem C77_equations e s p a b phys n w nx ny phi dn dw i : blob_sess s -> blob_pars p -> length phys = length (fs_vars s) ->
  pe_normals e = [nx; ny] -> blob_rhs e s p [a; b] phys [n; w] = FOk (phi, [dn; dw]) ->
  continuous e nx ny phi n w -> product_rule e phi n i -> product_rule e phi w i ->
  pY e (fun j => w j * vy e phi j + eps_of p * n j) i = pY e (fun j => w j * vy e phi j) i + eps_of p * pY e n i ->
  dn i = (pX e phi i * pY e n i - pY e phi i * pX e n i) / pp_B p + n i * phi i / (pp_e p * pp_Lpar p) /\
  dw i = (pX e phi i * pY e w i - pY e phi i * pX e w i) / pp_B p - eps_of p / pp_B p * pY e n i + n i * phi i / pp_Lpar p.
Proof.
  intros Hs Hp Hl Hn H Hc [P1 P2] [P3 P4] P5.
  destruct (blob_ok e s p a b phys n w nx ny Hs Hp Hl Hn) as (phi' & dn' & dw' & H' & _ & D1 & D2).
  rewrite H in H'. injection H' as <- <- <-. rewrite D1, D2. destruct Hp as (HB & HL & HR & He).
  rewrite (cont_n e nx ny phi n w Hc), (cont_w e p nx ny phi n w Hc), P1, P2, P3, P5, P4. unfold vx, vy. split; field; auto.
Qed.

(** The drift follows the equipotentials and, when mixed derivatives agree, has no divergence. *)
Theorem C77_drift e phi a b : exists v0 v1, calc_drift_velocity e phi [a; b] = FOk [v0; v1] /\
  (forall i, v0 i * pe_deriv e 0 phi i + v1 i * pe_deriv e 1 phi i = 0) /\
  ((forall f i, pe_deriv e 1 (fun j => - f j) i = - pe_deriv e 1 f i) ->
   forall i, pe_deriv e 0 (pe_deriv e 1 phi) i = pe_deriv e 1 (pe_deriv e 0 phi) i ->
     pe_deriv e 0 v0 i + pe_deriv e 1 v1 i = 0) /\
  (forall i, v0 i * v0 i + v1 i * v1 i = pe_deriv e 0 phi i * pe_deriv e 0 phi i + pe_deriv e 1 phi i * pe_deriv e 1 phi i).
Proof.
  exists (pe_deriv e 1 phi), (vneg (pe_deriv e 0 phi)). split; [reflexivity|]. unfold vneg. split; [intros; ring|].
  split; [|intros; ring]. intros HN i Hm. rewrite (HN (pe_deriv e 0 phi) i), Hm. ring.
Qed.

(** The numerical flux: with the same state on both sides it is the normal component of the flux; exchanging the sides of a
    moving face and reversing its normal changes its sign only. *)
Theorem C77_numerical_flux c vn ny nf wf nb wb : exists f0 f1, drift_upwind c 0 1 vn ny [nf; wf] [nb; wb] = FOk [f0; f1] /\
  (forall i, nf i = nb i -> f0 i = vn i * nf i /\ (wf i = wb i -> f1 i = vn i * wf i - c * ny i * nf i)) /\
  (forall i, vn i <> 0 -> exists g0 g1, drift_upwind c 0 1 (fun i => - vn i) (fun i => - ny i) [nb; wb] [nf; wf] = FOk [g0; g1] /\
     g0 i = - f0 i /\ g1 i = - f1 i).
Proof.
  do 2 eexists. split; [reflexivity|]. cbn. split.
  - intros i E. split; [|intros E2]; destruct (Rle_bool 0 (vn i)); rewrite ?E, ?E2; reflexivity.
  - intros i Hv. do 2 eexists. split; [reflexivity|]. cbn. destruct (Rle_bool_spec 0 (vn i)); destruct (Rle_bool_spec 0 (- vn i)); try lra; split; ring.
Qed.
(** On a face with no normal velocity the diamagnetic part takes the density of the first side, whichever that is. *)
Theorem C77_still_face_refuted : exists c vn ny nf wf nb wb f0 f1 g0 g1, vn 0%nat = 0 /\
  drift_upwind c 0 1 vn ny [nf; wf] [nb; wb] = FOk [f0; f1] /\
  drift_upwind c 0 1 (fun i => - vn i) (fun i => - ny i) [nb; wb] [nf; wf] = FOk [g0; g1] /\ g1 0%nat <> - f1 0%nat.
Proof.
  exists 1, (fun _ => 0), (fun _ => 1), (fun _ => 2), (fun _ => 0), (fun _ => 1), (fun _ => 0). do 4 eexists.
  split; [reflexivity|]. split; [reflexivity|]. split; [reflexivity|]. cbn.
  rewrite Ropp_0. rewrite Rle_bool_true by lra. intro; lra.
Qed.

(** When the weak divergence conserves (closed or periodic domains), the only sources of density and of vorticity are the sheath
    terms: the vorticity gained is e times the density gained. *)
Theorem C77_budget (I : fld -> R) e s p a b phys n w nx ny phi dn dw : blob_sess s -> blob_pars p -> length phys = length (fs_vars s) ->
  pe_normals e = [nx; ny] -> blob_rhs e s p [a; b] phys [n; w] = FOk (phi, [dn; dw]) ->
  (forall f g x y, I (fun i => x * f i + y * g i) = x * I f + y * I g) -> (forall k F num, I (pe_wdg e k F num) = 0) ->
  I dn = I (fun i => n i * phi i) / (pp_e p * pp_Lpar p) /\ I dw = pp_e p * I dn.
Proof.
  intros Hs Hp Hl Hn H HI HW. destruct (blob_ok e s p a b phys n w nx ny Hs Hp Hl Hn) as (phi' & dn' & dw' & H' & _ & D1 & D2).
  rewrite H in H'. injection H' as <- <- <-. destruct Hp as (HB & HL & HR & He).
  assert (E1 : I dn = I (fun i => n i * phi i) / (pp_e p * pp_Lpar p)).
  { rewrite (functional_extensionality dn _ D1). set (W := pe_wdg e 0 _ _).
    replace (fun i => - W i / pp_B p + n i * phi i / (pp_e p * pp_Lpar p))
      with (fun i => (- / pp_B p) * W i + / (pp_e p * pp_Lpar p) * (n i * phi i)) by (extensionality i; field; auto).
    rewrite (HI W (fun i => n i * phi i)). unfold W. rewrite HW. field. auto. }
  split; [exact E1|]. rewrite E1.
  rewrite (functional_extensionality dw _ D2). set (W := pe_wdg e 1 _ _).
  replace (fun i => - W i / pp_B p + n i * phi i / pp_Lpar p)
    with (fun i => (- / pp_B p) * W i + / pp_Lpar p * (n i * phi i)) by (extensionality i; field; auto).
  rewrite (HI W (fun i => n i * phi i)). unfold W. rewrite HW. field. auto.
Qed.

(** Other space dimensions are not rejected: in one dimension the velocity is written out of bounds, in three its third
    component is whatever the storage held. *)
Theorem C77_dimension_refuted e phi a b c : calc_drift_velocity e phi [a] = FUB /\
  exists v0 v1, calc_drift_velocity e phi [a; b; c] = FOk [v0; v1; c].
Proof. split; [reflexivity|]. do 2 eexists. reflexivity. Qed.

(** A zero field strength, connection length, radius or charge gives a state that is not finite. *)
Theorem C77_zero_parameters e s p a b phys n w nx ny : blob_sess s -> length phys = length (fs_vars s) -> pe_normals e = [nx; ny] ->
  ~ blob_pars p -> blob_rhs e s p [a; b] phys [n; w] = FNan.
Proof.
  intros Hs Hl Hn Hp. destruct (blob_idx s Hs) as (I0 & I1 & I2). destruct (blob_phi e s p phys w Hs Hl) as (rhs & R1 & _).
  unfold blob_rhs. rewrite I0, I1, I2. ax. rewrite R1.
  assert (L3 : (2 < length phys)%nat). { rewrite Hl. destruct Hs as (_ & _ & r & ->). cbn. lia. }
  change 2%Z with (Z.of_nat 2). rewrite aget_of_nat. destruct (nth_error phys 2) eqn:E2; [|apply nth_error_None in E2; lia].
  cbn [fbind]. unfold calc_drift_velocity, upd. ax. unfold calc_div_sheath.
  destruct (Req_dec (pp_Lpar p) 0) as [HL|HL]. { rewrite (rdiv_zero _ _ HL). reflexivity. }
  rewrite (rdiv_q _ _ HL). cbn [fnan fbind]. unfold plane_advect, plane_flux, epsilon. rewrite I0, I1. cbn [fbind].
  destruct (Req_dec (pp_Rxy p * pp_Rxy p) 0) as [HR|HR]. { rewrite (rdiv_zero _ _ HR). reflexivity. }
  rewrite !(rdiv_q _ _ HR). cbn [fnan fbind map]. ax. rewrite Hn. cbn [plane_vn]. ax. unfold drift_upwind. cbn [imap combine map fst snd]. ax.
  cbn [fnan]. ax. unfold upd. ax.
  destruct (Req_dec (pp_B p) 0) as [HB|HB]. { rewrite (rdiv_zero _ _ HB). reflexivity. }
  rewrite (rdiv_q _ _ HB). cbn [fnan fbind].
  destruct (Req_dec (pp_e p) 0) as [He|He]. { rewrite (rdiv_zero _ _ He). reflexivity. }
  exfalso. apply Hp. repeat split; auto. intro. apply HR. rewrite H. ring.
Qed.

(** The README of the example gives other equations: a plus sign in the bracket, n phi/L in the density equation and
    + eps dn/dy in the vorticity equation; and 10 as the default of Lpar. *)
Definition readme_n (e : penv) (p : ppar) (phi n : fld) (i : nat) : R :=
  (pX e phi i * pY e n i + pY e phi i * pX e n i) / pp_B p + n i * phi i / pp_Lpar p.
Definition readme_w (e : penv) (p : ppar) (phi n w : fld) (i : nat) : R :=
  (pX e phi i * pY e w i + pY e phi i * pX e w i) / pp_B p + eps_of p * pY e n i + n i * phi i / pp_Lpar p.
(** A 3 x 3 grid whose second order differences are exact for the fields below. *)
Definition q3 (f0 f1 f2 : R) (a : nat) : R :=
  match a with 0%nat => (- 3 * f0 + 4 * f1 - f2) / 2 | 1%nat => (f2 - f0) / 2 | _ => (f0 - 4 * f1 + 3 * f2) / 2 end.
Definition qd (j : nat) (f : fld) (i : nat) : R := let a := (i / 3)%nat in let b := (i mod 3)%nat in
  match j with 0%nat => q3 (f b) (f (3 + b)%nat) (f (6 + b)%nat) a | _ => q3 (f (3 * a)%nat) (f (3 * a + 1)%nat) (f (3 * a + 2)%nat) b end.
Definition qx (i : nat) : R := INR (i / 3) - 1.
Definition qy (i : nat) : R := INR (i mod 3) - 1.
Definition qenv : penv := {| pe_deriv := qd; pe_poisson := fun g i => g i + qx i * qy i; pe_trace := fun f => f; pe_fwd := fun _ f => f;
  pe_bwd := fun _ f => f; pe_normals := [(fun _ => 1); (fun _ => 0)];
  pe_wdg := fun _ F _ i => qd 0 (nth 0 F vzero) i + qd 1 (nth 1 F vzero) i |}.
Definition qsess : fsess := {| fs_vars := ["ne"; "w"; "phi"]; fs_mesh := 2; fs_space := 2; fs_part := false; fs_npts := 9 |}.
Definition qn (i : nat) : R := qx i + 2 * qy i.
Lemma qsess_ok : blob_sess qsess.
Proof. split; [reflexivity|]. split; [repeat constructor; cbn; intuition discriminate|]. exists []. reflexivity. Qed.
Lemma qpars_ok : blob_pars (plane_params (fun _ => None)).
Proof. unfold plane_params, sparam, blob_pars. cbn [pp_B pp_Lpar pp_Rxy pp_e]. repeat split; lra. Qed.
Lemma qcase : let p := plane_params (fun _ => None) in exists phi dn dw,
  blob_rhs qenv qsess p [vzero; vzero] [qn; vzero; vzero] [qn; vzero] = FOk (phi, [dn; dw]) /\
  continuous qenv (fun _ => 1) (fun _ => 0) phi qn vzero /\ product_rule qenv phi qn 8 /\ product_rule qenv phi vzero 8 /\
  pY qenv (fun j => vzero j * vy qenv phi j + eps_of p * qn j) 8 = pY qenv (fun j => vzero j * vy qenv phi j) 8 + eps_of p * pY qenv qn 8 /\
  phi 8%nat = 1 /\ qn 8%nat = 3 /\ pX qenv phi 8 = 1 /\ pY qenv phi 8 = 1 /\ pX qenv qn 8 = 1 /\ pY qenv qn 8 = 2.
Proof.
  cbv zeta. set (p := plane_params _).
  destruct (blob_ok qenv qsess p vzero vzero [qn; vzero; vzero] qn vzero (fun _ => 1) (fun _ => 0) qsess_ok qpars_ok eq_refl eq_refl)
    as (phi & dn & dw & H & [F _] & _).
  exists phi, dn, dw. split; [exact H|].
  assert (F' : phi = fun i => qx i * qy i).
  { rewrite F by (cbn; intuition discriminate). cbn [qenv pe_poisson]. unfold vzero. extensionality i. ring. }
  rewrite F'. split; [constructor; cbn [qenv pe_fwd pe_bwd pe_trace pe_wdg]; auto|].
  unfold product_rule, pX, pY, vx, vy, pX, pY, qn, qx, qy, vzero. cbn -[eps_of]. repeat split; try lra. 
Qed.
Theorem C77_readme_refuted : exists e s p a b phys n w nx ny phi dn dw i, blob_sess s /\ blob_pars p /\ pe_normals e = [nx; ny] /\
  length phys = length (fs_vars s) /\ continuous e nx ny phi n w /\ product_rule e phi n i /\ product_rule e phi w i /\
  blob_rhs e s p [a; b] phys [n; w] = FOk (phi, [dn; dw]) /\ dn i <> readme_n e p phi n i /\ dw i <> readme_w e p phi n w i.
Proof.
  set (p := plane_params (fun _ => None)). destruct qcase as (phi & dn & dw & H & C & P1 & P2 & P3 & F & N & X1 & X2 & X3 & X4). fold p in H, P3.
  exists qenv, qsess, p, vzero, vzero, [qn; vzero; vzero], qn, vzero, (fun _ => 1), (fun _ => 0), phi, dn, dw, 8%nat.
  split; [exact qsess_ok|]. split; [exact qpars_ok|]. split; [reflexivity|]. split; [reflexivity|].
  split; [exact C|]. split; [exact P1|]. split; [exact P2|]. split; [exact H|].
  destruct (C77_equations qenv qsess p vzero vzero [qn; vzero; vzero] qn vzero (fun _ => 1) (fun _ => 0) _ _ _ 8%nat qsess_ok qpars_ok eq_refl eq_refl H C P1 P2 P3) as [D1 D2].
  rewrite D1, D2. unfold readme_n, readme_w. rewrite F, N, X1, X2, X3, X4.
  unfold eps_of. unfold p, plane_params, sparam. cbn [pp_B pp_Lpar pp_Rxy pp_e pp_Te].
  assert (Z1 : pX qenv vzero 8 = 0) by (unfold pX, vzero; cbn; lra). assert (Z2 : pY qenv vzero 8 = 0) by (unfold pY, vzero; cbn; lra).
  rewrite Z1, Z2. split; lra.
Qed.
Theorem C77_parameters ps : let p := plane_params ps in
  (forall v, ps "B" = Some v -> pp_B p = v) /\ (forall v, ps "Lpar" = Some v -> pp_Lpar p = v) /\ (forall v, ps "T_e" = Some v -> pp_Te p = v) /\
  (forall v, ps "Rxy" = Some v -> pp_Rxy p = v) /\ (forall v, ps "e" = Some v -> pp_e p = v) /\
  (ps "B" = None -> pp_B p = 35 / 100) /\ (ps "T_e" = None -> pp_Te p = 5) /\ (ps "Rxy" = None -> pp_Rxy p = 3 / 2) /\ (ps "e" = None -> pp_e p = -1).
Proof. cbv zeta. unfold plane_params, sparam. cbn [pp_B pp_Lpar pp_Te pp_Rxy pp_e]. repeat split; intros; rewrite H; reflexivity. Qed.
Theorem C77_default_length_refuted : pp_Lpar (plane_params (fun _ => None)) <> 10.
Proof. unfold plane_params, sparam. cbn [pp_Lpar]. lra. Qed.
Example C77_nonvacuous : blob_sess qsess /\ blob_pars (plane_params (fun _ => None)) /\ exists phi dn dw,
  blob_rhs qenv qsess (plane_params (fun _ => None)) [vzero; vzero] [qn; vzero; vzero] [qn; vzero] = FOk (phi, [dn; dw]) /\
  dn 8%nat = (2 - 1) / (35 / 100) - 3.
Proof.
  split; [exact qsess_ok|]. split; [exact qpars_ok|].
  set (p := plane_params (fun _ => None)). destruct qcase as (phi & dn & dw & H & C & P1 & P2 & P3 & F & N & X1 & X2 & X3 & X4). fold p in H, P3.
  exists phi, dn, dw. split; [exact H|].
  destruct (C77_equations qenv qsess p vzero vzero [qn; vzero; vzero] qn vzero (fun _ => 1) (fun _ => 0) _ _ _ 8%nat qsess_ok qpars_ok eq_refl eq_refl H C P1 P2 P3) as [D1 D2].
  rewrite D1, F, N, X1, X2, X3, X4. unfold p, plane_params, sparam. cbn [pp_B pp_Lpar pp_Rxy pp_e pp_Te]. lra.
Qed.
(** Two finite volumes on a ring: the weak divergence conserves. *)
Definition ring2 : penv := {| pe_deriv := fun _ f => f; pe_poisson := fun g i => g i + 1; pe_trace := fun f => f; pe_fwd := fun _ f => f;
  pe_bwd := fun _ f => f; pe_normals := [(fun _ => 1); (fun _ => 0)];
  pe_wdg := fun _ _ num i => match i with 0%nat => num 1%nat - num 0%nat | 1%nat => num 0%nat - num 1%nat | _ => 0 end |}.
Example C77_budget_nonvacuous : let I := fun f : fld => f 0%nat + f 1%nat in
  (forall f g x y, I (fun i => x * f i + y * g i) = x * I f + y * I g) /\ (forall k F num, I (pe_wdg ring2 k F num) = 0) /\ exists phi dn dw, blob_rhs ring2 qsess (plane_params (fun _ => None)) [vzero; vzero] [vzero; vzero; vzero] [(fun _ => 1); vzero] = FOk (phi, [dn; dw]) /\ I dn = -2.
Proof.
  cbv zeta. assert (HI : forall (f g : fld) x y, x * f 0%nat + y * g 0%nat + (x * f 1%nat + y * g 1%nat) = x * (f 0%nat + f 1%nat) + y * (g 0%nat + g 1%nat)) by (intros; ring).
  assert (HW : forall k F num, pe_wdg ring2 k F num 0%nat + pe_wdg ring2 k F num 1%nat = 0) by (intros; cbn; ring).
  split; [exact HI|]. split; [exact HW|].
  destruct (blob_ok ring2 qsess (plane_params (fun _ => None)) vzero vzero [vzero; vzero; vzero] (fun _ => 1) vzero (fun _ => 1) (fun _ => 0) qsess_ok qpars_ok eq_refl eq_refl)
    as (phi & dn & dw & H & [F _] & _).
  exists phi, dn, dw. split; [exact H|].
  destruct (C77_budget (fun f => f 0%nat + f 1%nat) ring2 qsess (plane_params (fun _ => None)) vzero vzero [vzero; vzero; vzero] (fun _ => 1) vzero (fun _ => 1) (fun _ => 0) phi dn dw
    qsess_ok qpars_ok eq_refl eq_refl H HI HW) as [E _].
  rewrite E. rewrite F by (cbn; intuition discriminate). cbn [ring2 pe_poisson]. unfold vzero, plane_params, sparam. cbn [pp_e pp_Lpar pp_B]. lra.
Qed.
Print Assumptions C77_session.
Print Assumptions C77_rhs.
Print Assumptions C77_equations.
Print Assumptions C77_readme_refuted.
