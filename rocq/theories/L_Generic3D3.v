(** Lemmas for C85: acceptance, affine elements. *)
From Verif Require Import M_Loop S_Loop L_Loop M_Bary S_Bary L_RealBase S_Coord M_Coord L_Coord M_NewtonMap M_NewtonBind L_NewtonBind L_NewtonBind2 M_Generic3D S_Newton S_Generic3D L_Generic3D L_Generic3D2.
From Coq Require Import Lia Lra List.
Import ListNotations.
Open Scope R_scope.

Lemma max3_le a b c t : Rmax (Rmax a b) c <= t <-> a <= t /\ b <= t /\ c <= t.
Proof.
  pose proof (Rmax_l a b). pose proof (Rmax_r a b). pose proof (Rmax_l (Rmax a b) c). pose proof (Rmax_r (Rmax a b) c).
  split; [intros; lra|]. intros (A & B & C). apply Rmax_lub; auto. apply Rmax_lub; auto.
Qed.
Lemma accepted s x p xi_in mx tol ctol ov xi : 0 <= ctol -> try_cell (element_type s x) p xi_in mx tol ctol ov = Some xi ->
  (exists eta, xi = to_loc3 s eta /\ forall a, (a < 3)%nat -> Rabs (comp eta a) <= 1 + ctol) /\
  forall a, (a < 3)%nat -> Rabs (elem_X s x xi a - comp p a) * comp (xm_scale x) a <= tol.
Proof.
  intros Hc H. unfold try_cell in H. destruct (x_inverse_kernel _ _ _ _ _ _) as [o conv]. destruct o as [xi0|]; [|discriminate]. cbn [bind element_type nt_coll nt_loc nt_resid] in H.
  rewrite coll_eq in H. cbn [bind] in H. set (e := clamp3 ctol (collapsed s xi0)) in *.
  cbn [fst] in H. match type of H with (if Rle_bool ?r tol && conv then _ else _) = _ => destruct (Rle_bool_spec r tol) as [Hr|Hr] end; [|discriminate].
  destruct conv; [|discriminate]. cbn [andb] in H. injection H as H. rewrite H in Hr. apply max3_le in Hr as (R0 & R1 & R2). split.
  - exists e. split; auto. intros a Ha. unfold e. destruct (collapsed s xi0) as [[a0 a1] a2]. cbn [clamp3].
    assert (Q : forall t, Rabs (clamp1 ctol t) <= 1 + ctol).
    { intros t. unfold clamp1. rewrite fmax_Rmax, fmin_Rmin. apply Rabs_le. unfold Rmax, Rmin. repeat destruct Rle_dec; lra. }
    destruct a as [|[|a]]; cbn [comp]; apply Q.
  - intros a Ha. assert (C : a = 0%nat \/ a = 1%nat \/ a = 2%nat) by lia. destruct C as [->|[->| ->]]; auto.
Qed.
Lemma resid_zero s x p fin xi : (forall a, (a < 3)%nat -> elem_X s x xi a = comp p a) ->
  exists f, nt_resid (element_type s x) xi p fin = Some (0, f).
Proof.
  intros H. cbn [element_type nt_resid]. rewrite !H by lia. eexists. f_equal. f_equal. rewrite !Rminus_diag_eq by auto. rewrite Rabs_R0, !Rmult_0_l.
  unfold Rmax. repeat destruct Rle_dec; auto.
Qed.
Lemma inside_accepted s x p xi_in mx tol ctol ov xi : 0 <= ctol ->
  x_inverse_kernel (element_type s x) p xi_in mx tol ov = (Some xi, true) -> in_ref3 s xi -> away3 s kNekZeroTol xi ->
  try_cell (element_type s x) p xi_in mx tol ctol ov = Some xi.
Proof.
  intros Hc H Hi Ha. unfold try_cell. rewrite H. cbn [bind].
  change (nt_coll (element_type s x)) with (to_collapsed3 s). change (nt_loc (element_type s x)) with (to_loc3 s). rewrite coll_eq. cbn [bind].
  destruct (element3 s xi (collapsed s xi) Hi (coll_eq s xi)) as [Hcube _].
  rewrite clamp3_id by auto. pose proof (roundtrip3 s xi Ha) as Rt. rewrite coll_eq in Rt. cbn [option_map] in Rt. injection Rt as Rt. rewrite Rt.
  apply kernel_exact in H as (start & k & _ & _ & (r & f & Ek & Hr) & _). apply iterate_resid in Ek as [fin R0].
  cbn [element_type nt_resid] in *. injection R0 as R0 _. cbn [bind fst]. rewrite R0. rewrite Rle_bool_true by auto. reflexivity.
Qed.
(** affine maps: one step *)
Definition affineG (A : nat -> nat -> R) (b : nat -> R) (xi : pt3) (a : nat) : R :=
  b a + A a 0%nat * comp xi 0 + A a 1%nat * comp xi 1 + A a 2%nat * comp xi 2.
Lemma affine_solve s x A b xs start p mx tol : good_xmap s x -> represents s x (affineG A b) (fun _ => A) -> det 3 A <> 0 ->
  away3 s kNekZeroTol xs -> away3 s kNekZeroTol start -> (forall a, (a < 3)%nat -> comp p a = affineG A b xs a) -> 0 <= tol -> (1 <= mx)%Z ->
  x_inverse_kernel (element_type s x) p start mx tol true = (Some xs, true) \/
  (x_inverse_kernel (element_type s x) p start mx tol true = (Some start, true) /\
   forall a, (a < 3)%nat -> Rabs (affineG A b start a - comp p a) * comp (xm_scale x) a <= tol).
Proof.
  intros Hg Hr Hd Ha Has Hp Ht Hm. destruct (exact_at s x _ _ start Hg Hr Has) as [X0 J0]. destruct (exact_at s x _ _ xs Hg Hr Ha) as [X1 _].
  destruct (resid_zero s x p) with (xi := xs) (fin := (elem_X s x start 0 - comp p 0, elem_X s x start 1 - comp p 1, elem_X s x start 2 - comp p 2)) as [f1 E1].
  { intros a La. rewrite X1, Hp; auto. }
  unfold x_inverse_kernel. set (r0 := Rmax (Rmax (Rabs (elem_X s x start 0 - comp p 0) * comp (xm_scale x) 0) (Rabs (elem_X s x start 1 - comp p 1) * comp (xm_scale x) 1)) (Rabs (elem_X s x start 2 - comp p 2) * comp (xm_scale x) 2)).
  set (f0 := (elem_X s x start 0 - comp p 0, elem_X s x start 1 - comp p 1, elem_X s x start 2 - comp p 2)) in *.
  change (nt_resid (element_type s x) start p (0, 0, 0)) with (Some (r0, f0)). cbv iota.
  destruct (Z.to_nat mx) as [|n] eqn:En; [lia|]. cbn [inverse_loop]. destruct (Rlt_bool_spec tol r0) as [Hlt|Hge]; cbn [andb negb].
  - left. change (nt_step (element_type s x) start p f0) with (solve_update (elem_J s x start) start f0).
    assert (U : solve_update (elem_J s x start) start f0 = Some xs).
    { pose proof (solve_spec (elem_J s x start) start f0) as S. destruct (solve_update _ start f0) as [y|].
      - f_equal. destruct S as [Sd S]. apply (update_unique (elem_J s x start) start f0); auto. intros a La. unfold f0.
        cbn [seq fold_right]. rewrite !J0 by lia.
        assert (Q : affineG A b xs a = affineG A b start a + (A a 0%nat * (comp xs 0 - comp start 0) + A a 1%nat * (comp xs 1 - comp start 1) + A a 2%nat * (comp xs 2 - comp start 2))) by (unfold affineG; ring).
        assert (C : a = 0%nat \/ a = 1%nat \/ a = 2%nat) by lia.
        destruct C as [->|[->| ->]]; unfold comp at 7; rewrite X0, Hp by lia; lra.
      - exfalso. apply Hd. rewrite <- S. cbn [det]. rewrite !J0 by lia. reflexivity. }
    rewrite U, E1. destruct n as [|n]; cbn [inverse_loop].
    + rewrite Rle_bool_true by auto. reflexivity.
    + rewrite (Rlt_bool_false tol 0) by auto. cbn [andb]. rewrite Rle_bool_true by auto. reflexivity.
  - right. rewrite Rle_bool_true by auto. split; auto. apply max3_le in Hge as (R0 & R1 & R2). intros a La. rewrite <- X0 by auto.
    assert (C : a = 0%nat \/ a = 1%nat \/ a = 2%nat) by lia. destruct C as [->|[->| ->]]; auto.
Qed.
