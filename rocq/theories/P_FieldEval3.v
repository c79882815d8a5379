(** C99: fields that are affine functions, and examples. *)
From Verif Require P_NewtonBind P_Regular P_Journey P_Journey2.
From Verif Require Import M_RealBase M_Grid M_Coord M_NewtonMap M_NewtonBind M_Regular.
From Verif Require Import S_NewtonM S_NewtonBind S_Regular.
From Coq Require Import ZArith Reals Lra Lia Permutation Sorting.Sorted.
From Verif Require Import M_Bytes M_Pack2D M_RemoteGeom M_Transport M_Exchange M_Halo3D M_Util M_Journey L_RealBase L_Coord.
From Verif Require Import S_Journey M_FieldEval S_FieldEval L_FieldEval P_FieldEval S_Newton S_FieldEval2 P_FieldEval2.
From Coq Require Import List.
Import ListNotations.
Local Open Scope R_scope.

Definition uncollapsed (s : M_Basis.shape) (eta : pt3) : pt3 :=
  match s with
  | M_Basis.Tri => let '(a, b) := tri_to_loc (fst eta) in (a, b, 0) | M_Basis.Quad => (fst eta, 0)
  | M_Basis.Hex => eta | M_Basis.Pyr => pyr_to_loc eta | M_Basis.Prism => prism_to_loc eta | M_Basis.Tet => tet_to_loc eta
  end.
Lemma corner_sum s u0 u1 u2 u3 e0 e1 e2 rest :
  S_Basis.dot (map (fun xi => u0 + u1 * comp xi 0 + u2 * comp xi 1 + u3 * comp xi 2) (corners s) ++ rest) (smodes s 2 e0 e1 e2) =
  (let xi := uncollapsed s (e0, e1, e2) in u0 + u1 * comp xi 0 + u2 * comp xi 1 + u3 * comp xi 2).
Proof. assert (Z : S_Basis.dot rest [] = 0) by (destruct rest; reflexivity). destruct s; cbn; rewrite Z; unfold Rdiv; field. Qed.
Lemma collapse_uncollapsed s xi eta : M_Basis.collapse s xi = Some eta -> off_collapse s xi -> (shape_ndim s = 2%nat -> comp xi 2 = 0) -> uncollapsed s eta = xi.
Proof.
  pose proof tol_pos as KP.
  destruct xi as [[x0 x1] x2], eta as [[e0 e1] e2].
  destruct s; cbn; unfold tri_to_collapsed, quad_to_collapsed, hex_to_collapsed, pyr_to_collapsed, prism_to_collapsed, tet_to_collapsed; intros E A Z;
    rewrite ?guard_far in E by lra; rewrite ?rdiv_ok in E by lra; cbn in E; injection E as <- <- <-; try (rewrite (Z eq_refl)); try reflexivity;
    repeat f_equal; try field; try lra.
Qed.

(** A field with two modes per direction whose coefficients are the values of an affine function at the element's vertices is
    that function, at every position off the collapsed edges. *)
Theorem C99_affine_fields : forall e coeffs u0 u1 u2 u3 rest xi v,
  let u := fun x : pt3 => u0 + u1 * comp x 0 + u2 * comp x 1 + u3 * comp x 2 in
  cell_P (fe_exp e) = 2%nat -> skipn (fe_off e) coeffs = map u (corners (M_Basis.ex_shape (fe_exp e))) ++ rest ->
  off_collapse (M_Basis.ex_shape (fe_exp e)) xi -> (shape_ndim (M_Basis.ex_shape (fe_exp e)) = 2%nat -> comp xi 2 = 0) ->
  value_at e coeffs xi v -> v = u xi.
Proof.
  intros e coeffs u0 u1 u2 u3 rest xi v u HP HC HO H2 (e0 & e1 & e2 & Hc & ->). rewrite HC, HP. unfold u. rewrite corner_sum. cbv zeta.
  rewrite (collapse_uncollapsed _ _ _ Hc HO H2). reflexivity.
Qed.
(** So on elements with an affine map the field is the affine function of the physical position. *)
Theorem C99_affine_represents : forall n e coeffs A b f0 f1 f2 f3 rest, (n = 2 \/ n = 3)%nat -> shape_ndim (M_Basis.ex_shape (fe_exp e)) = n ->
  let f := fun x : pt3 => f0 + f1 * comp x 0 + f2 * comp x 1 + f3 * comp x 2 in
  cell_P (fe_exp e) = 2%nat ->
  skipn (fe_off e) coeffs = map (fun xi => f (phys n (affine_coeffs n A b xi))) (corners (M_Basis.ex_shape (fe_exp e))) ++ rest ->
  represents n (off_collapse (M_Basis.ex_shape (fe_exp e))) e coeffs (affine_coeffs n A b) f.
Proof.
  intros n e coeffs A b f0 f1 f2 f3 rest Hn Hs f HP HC xi v H2 HO HV.
  set (k3 := if Nat.eqb n 3 then 1 else 0).
  set (w := fun k : nat => f1 * A 0%nat k + f2 * A 1%nat k + k3 * (f3 * A 2%nat k)).
  assert (W : forall x : pt3, f (phys n (affine_coeffs n A b x)) = (f0 + f1 * b 0%nat + f2 * b 1%nat + k3 * (f3 * b 2%nat)) + w 0%nat * comp x 0 + w 1%nat * comp x 1 + (k3 * w 2%nat) * comp x 2).
  { intros [[x0 x1] x2]. unfold f, phys, affine_coeffs, w, k3. destruct Hn as [-> | ->]; cbn; ring. }
  rewrite W. apply (C99_affine_fields e coeffs _ _ _ _ rest xi v HP); auto.
  - rewrite HC. f_equal. apply map_ext. exact W.
  - intros E. apply H2. congruence.
Qed.

(** The hypotheses are met: the triangle (id 7) of C98's 2D example on rank 0, the field 3 + 2 x - y on it, and the particle
    at (-1/2, -1/2) that mapping placed there gets 3 + 2 (-1/2) - (-1/2) = 5/2. *)
Definition vx_exp := {| fe_gid := 7; fe_elmt := 0; fe_exp := {| M_Basis.ex_shape := M_Basis.Tri; M_Basis.ex_base := [(2, 2); (2, 3)]%nat |}; fe_off := 0 |}.
Definition vx_f (x : pt3) : R := 3 + 2 * comp x 0 + -1 * comp x 1 + 0 * comp x 2.
Definition vx_coeffs : list R := map (fun xi => vx_f (phys 2 (affine_coeffs 2 P_Regular.delta (fun _ => 0) xi))) (corners M_Basis.Tri).
Definition vx_q' := bind_particle 2 7 0 (-1/2, -1/2, 0) P_Journey2.k_q.
Definition vx_call := value_call 1 1 vx_coeffs (fun _ _ _ => -1/2).
Example C99_applied_2d : forall conf, 0 <= regular_tol_2d conf -> forall d,
  exists ct z d', rank_translation_2d (P_Journey2.k_tris 0) (P_Journey2.k_none 0) = Some ct /\ basis_setup [vx_exp] (map_to_nektar ct) = Ok z /\
    holds 2 conf 2 0 (fun a => P_Journey2.k_tris a ++ P_Journey2.k_none a) P_Journey2.k_mk ct (ec_ref vx_call) 0 0 P_Journey2.k_q vx_q' /\
    run_items z vx_call (items (cell_shapes (bz_cells z)) 4 2 (Group [1%nat])) d = Ok d' /\ d' 1%nat 0%nat 0%nat 0%nat = Some (5 / 2).
Proof.
  intros conf Ht d. pose proof tol_lt1 as T1.
  destruct P_Journey2.C98_nonvacuous_2d as (_ & _ & _ & _ & _ & Hin & Haf & Hint & Hat & _ & _).
  set (ct := {| map_to_nektar := [7%Z]; map_to_geom_type := [3%Z]; id_map := [Some 0%Z]; id_shift := 7%Z |}).
  assert (Ect : rank_translation_2d (P_Journey2.k_tris 0) (P_Journey2.k_none 0) = Some ct) by reflexivity.
  assert (Hcf : closed_form 2 conf (P_Journey2.k_mk 0 7 (P_Halo3D.ex_tri 7)) = true) by reflexivity.
  destruct (P_Regular.C48_not_vacuous ATri) as (Af & Dt).
  assert (HA : accepted 2 conf (P_Journey2.k_mk 0 7 (P_Halo3D.ex_tri 7)) P_Journey2.k_q (-1/2, -1/2, 0)).
  { unfold accepted. rewrite Hcf. apply (P_Regular.C48_accepts_exactly ATri _ P_Regular.delta (fun _ => 0)); auto; try reflexivity.
    split; [intros; reflexivity|]. split; [exact Hat|]. cbn. unfold tri_to_collapsed. rewrite guard_far by lra. rewrite rdiv_ok by lra. cbn.
    eexists. split; [reflexivity|]. intros [|[|]] Ha; [| |cbn in Ha; lia]; cbn; apply Rabs_le; cbn in Ht; lra. }
  assert (HP : placed 2 conf 2 (fun a => P_Journey2.k_tris a ++ P_Journey2.k_none a) P_Journey2.k_mk P_Journey2.k_q vx_q').
  { exists 0%Z, 7%Z, (P_Halo3D.ex_tri 7), (-1/2, -1/2, 0). split; [lia|]. split; [exact Hin|]. split; [exact HA|].
    split; [reflexivity|]. split; [reflexivity|]. split; [reflexivity|]. split; [reflexivity|]. intros [|[|dd]]; try reflexivity. }
  assert (HH : holds 2 conf 2 0 (fun a => P_Journey2.k_tris a ++ P_Journey2.k_none a) P_Journey2.k_mk ct (ec_ref vx_call) 0 0 P_Journey2.k_q vx_q').
  { split; [exact HP|]. split; [reflexivity|]. split; [reflexivity|]. intros [|[|dd]] Hd; [reflexivity..|lia]. }
  assert (G : field_good 3 [vx_exp]).
  { split; [|split].
    - intros [|[|i]] e H; cbn in H; try discriminate. injection H as <-. reflexivity.
    - cbn. repeat constructor. intros [].
    - intros e [<-|[]]. split; [cbn; lia|]. split; [|vm_compute; lia]. intros [|[|[|dd]]] nm tnm H; cbn in H; try discriminate; injection H as <- _; reflexivity. }
  assert (EX : forall x, In x (map_to_nektar ct) -> exists e, expansion_of [vx_exp] x e).
  { intros x [<-|[]]. exists vx_exp. split; [left; reflexivity|reflexivity]. }
  destruct (C99_setup 3 [vx_exp] (map_to_nektar ct) G EX) as (z & Ez & Lz & _ & _ & Hz).
  assert (Cz : bz_cells z = [vx_exp]).
  { destruct (Hz 0%nat 7%Z eq_refl) as (e & He & ([<-|[]] & _)). destruct (bz_cells z) as [|x [|]]; try discriminate. cbn in He. congruence. }
  destruct (C99_value_at_position_2d 3 2 0 P_Journey2.k_tris P_Journey2.k_none P_Journey2.k_mk conf ct [vx_exp] z vx_call (Group [1%nat]) 4
     (items (cell_shapes (bz_cells z)) 4 2 (Group [1%nat])) d (fun _ => off_collapse M_Basis.Tri) vx_f (fun _ => 0) (fun _ => 0)) as (d' & Er & V); auto; try lia.
  - intros a Ha. unfold P_Journey2.k_tris, P_Journey2.k_none. destruct (Z.eqb a 0); cbn; (split; [repeat constructor; intros []|]).
    + constructor; [|constructor]. cbn. unfold INT_MAX. lia.
    + constructor.
  - rewrite Cz. cbn. constructor; [cbn; auto|constructor].
  - cbn. lia.
  - rewrite Cz. intros [|[|cell]] e layer He _; cbn in He; try discriminate. injection He as <-. cbn. apply C99_clear_positions. lra.
  - intros i el e Hi [[<-|[]] He]. cbn in Hi. destruct Hi as [Hi|[]]. injection Hi as <- <-.
    exists (affine_coeffs 2 P_Regular.delta (fun _ => 0)), (fun _ => 0). split; [|split; [|intros; lra]].
    + apply (em_closed 2 conf _ ATri); auto.
    + apply (C99_affine_represents 2 vx_exp vx_coeffs P_Regular.delta (fun _ => 0) 3 2 (-1) 0 []); auto.
  - destruct (V 0%nat 0%nat P_Journey2.k_q vx_q') as (v & Ev & _ & Hv); auto.
    + cbn. lia.
    + intros gm [<-|[]]. intros (E & _). cbn in E. discriminate.
    + intros i xi _ H. assert (comp xi 1 = -1/2) by (rewrite (H 1%nat) by lia; reflexivity). destruct xi as [[x0 x1] x2]. cbn in *. lra.
    + exists ct, z, d'. split; [exact Ect|]. split; [exact Ez|]. split; [exact HH|]. split; [exact Er|]. change (ec_sym vx_call) with 1%nat in Ev. cbn in Ev. rewrite Ev. f_equal.
      rewrite Hv. 2:{ intros i el [Hi|[]]. injection Hi as <- <-. reflexivity. }
      unfold vx_f. cbn. lra.
Qed.
Print Assumptions C99_affine_fields.
Print Assumptions C99_affine_represents.
Print Assumptions C99_reference_position.
Print Assumptions C99_value_at_position_3d.
Print Assumptions C99_value_at_position_2d.
