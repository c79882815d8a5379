(** C78: the SimpleSOL fluid equations and their source terms. *)
From Verif Require Import M_RealBase M_Util M_Grid M_Fluid M_Plane M_Euler S_Euler L_RealBase L_Coord L_Fluid L_Fluid5 L_Fluid6 L_Plane L_Euler.
From Flocq Require Import Core.Raux.
From Coq Require Import Reals Lra Lia ZArith String FunctionalExtensionality List.
Import ListNotations.
Open Scope R_scope.
Open Scope string_scope.
Open Scope list_scope.

(** Equations 5-7 of the README in two dimensions, for any equation of state, any number of forcing terms and any state without
    vacuum: minus the divergence (the advection operator applied to the Euler flux) plus the sources; every forcing term adds the
    particle source fields. *)
Theorem C78_rhs_2d adv pres s forc X Y fprev phys n mx my E p0 p1 p2 p3 f0 f1 f2 f3 : sol_sess s -> fs_space s = 2%nat ->
  length phys = length (fs_vars s) -> Forall src_ok forc -> (forall i, length (fprev i) = 4%nat) ->
  (forall i, (i < fs_npts s)%nat -> n i <> 0) ->
  src_field s phys "rho" f0 -> src_field s phys "rhou" f1 -> src_field s phys "rhov" f2 -> src_field s phys "E" f3 ->
  exists F a b d e, sol_rhs adv pres s forc X Y fprev phys [n; mx; my; E] [p0; p1; p2; p3] = FOk [a; b; d; e] /\
  (forall i, (i < fs_npts s)%nat -> F i = euler2 (n i) (mx i) (my i) (E i) (pres [n i; mx i; my i; E i])) /\
  forall i, (i < fs_npts s)%nat -> let A k := adv k F [n; mx; my; E] i in
    a i = - A 0%nat + total (fun c => S_rho c (X i) (Y i)) forc + INR (length forc) * f0 i /\
    b i = - A 1%nat + total (fun c => cos (sr_theta c) * S_u c (X i) (Y i)) forc + INR (length forc) * f1 i /\
    d i = - A 2%nat + total (fun c => sin (sr_theta c) * S_u c (X i) (Y i)) forc + INR (length forc) * f2 i /\
    e i = - A 3%nat + total (fun c => S_E c (X i) (Y i)) forc + INR (length forc) * f3 i.
Proof.
  intros [Hn [[H1 _]|[_ [r Hr]]]] Hd; [lia|]. intros. eapply rhs2; eauto.
Qed.
Theorem C78_rhs_1d adv pres s forc X Y fprev phys n mx E p0 p1 p3 f0 f1 f3 : sol_sess s -> fs_space s = 1%nat ->
  length phys = length (fs_vars s) -> Forall src_ok forc -> (forall i, length (fprev i) = 3%nat) ->
  (forall i, (i < fs_npts s)%nat -> n i <> 0) ->
  src_field s phys "rho" f0 -> src_field s phys "rhou" f1 -> src_field s phys "E" f3 ->
  exists F a b e, sol_rhs adv pres s forc X Y fprev phys [n; mx; E] [p0; p1; p3] = FOk [a; b; e] /\
  (forall i, (i < fs_npts s)%nat -> F i = euler1 (n i) (mx i) (E i) (pres [n i; mx i; E i])) /\
  forall i, (i < fs_npts s)%nat -> let A k := adv k F [n; mx; E] i in
    a i = - A 0%nat + total (fun c => S_rho c (X i) (Y i)) forc + INR (length forc) * f0 i /\
    b i = - A 1%nat + total (fun c => cos (sr_theta c) * S_u c (X i) (Y i)) forc + INR (length forc) * f1 i /\
    e i = - A 2%nat + total (fun c => S_E c (X i) (Y i)) forc + INR (length forc) * f3 i.
Proof.
  intros [Hn [[_ [Hrv [r Hr]]]|[H1 _]]] Hd; [|lia]. intros. eapply rhs1; eauto.
Qed.

(** The flux does not depend on the frame: rotating the momentum rotates the rows (an equation of state that only sees the size
    of the momentum is assumed). *)
Definition rot (t : R) (a b : R) : R * R := (cos t * a - sin t * b, sin t * a + cos t * b).
Definition row (F : list (list R)) (k : nat) : R * R := (nth 0 (nth k F []) 0, nth 1 (nth k F []) 0).
Theorem C78_flux_rotation pres r m0 m1 E t q0 q1 q2 q3 : r <> 0 ->
  (forall a b, pres [r; fst (rot t a b); snd (rot t a b); E] = pres [r; a; b; E]) ->
  exists F G, euler_pt 2 pres 0 3 [q0; q1; q2; q3] [r; m0; m1; E] = FOk F /\
    euler_pt 2 pres 0 3 [q0; q1; q2; q3] [r; fst (rot t m0 m1); snd (rot t m0 m1); E] = FOk G /\
    row G 0 = rot t (fst (row F 0)) (snd (row F 0)) /\ row G 3 = rot t (fst (row F 3)) (snd (row F 3)) /\
    (let c0 := rot t (fst (row F 1)) (fst (row F 2)) in let c1 := rot t (snd (row F 1)) (snd (row F 2)) in
     row G 1 = rot t (fst c0) (fst c1) /\ row G 2 = rot t (snd c0) (snd c1)).
Proof.
  intros Hr Hp. do 2 eexists. split; [apply euler2_ok; exact Hr|]. split; [apply euler2_ok; exact Hr|]. rewrite Hp.
  unfold euler2, row, rot. cbn [nth fst snd]. set (p := pres _). pose proof (sin2_cos2 t) as SC. unfold Rsqr in SC.
  set (sn := sin t) in *. set (cs := cos t) in *.
  repeat split; f_equal; try ring; try (field; exact Hr);
  replace p with ((sn * sn + cs * cs) * p) at 1 by (rewrite SC; ring); field; exact Hr.
Qed.
(** Momentum flux is symmetric; vacuum gives a state that is not finite. *)
Theorem C78_flux_symmetric pres r m0 m1 E q0 q1 q2 q3 F : euler_pt 2 pres 0 3 [q0; q1; q2; q3] [r; m0; m1; E] = FOk F ->
  r <> 0 /\ snd (row F 1) = fst (row F 2) /\ row F 0 = (m0, m1).
Proof.
  destruct (Req_dec r 0) as [->|Hr]; [rewrite euler_vacuum2; discriminate|]. rewrite (euler2_ok _ _ _ _ _ _ _ _ _ Hr). intros [= <-].
  split; [exact Hr|]. unfold row, euler2. cbn. split; [f_equal; ring|reflexivity].
Qed.
Theorem C78_vacuum adv pres s forc X Y fprev phys n mx my E prev i : sol_sess s -> fs_space s = 2%nat -> (i < fs_npts s)%nat ->
  n i = 0 -> (forall j, length (fprev j) = 4%nat) -> (forall j, (j < i)%nat -> n j <> 0) ->
  sol_rhs adv pres s forc X Y fprev phys [n; mx; my; E] prev = FNan.
Proof.
  intros [Hn [[H1 _]|[_ [r Hr]]]] Hd Hi Hz Hfp Hj; [lia|]. unfold sol_rhs.
  rewrite (fget_ok s "E" 3 Hn) by (rewrite Hr; reflexivity). rewrite (fget_ok s "rho" 0 Hn) by (rewrite Hr; reflexivity). rewrite Hd.
  cbn [Z.of_nat Pos.of_succ_nat Pos.succ].
  rewrite (fall_nan (A := list (list R)) [] (fs_npts s) _ (fun j => euler2 (n j) (mx j) (my j) (E j) (pres [n j; mx j; my j; E j])) i Hi); [reflexivity| |].
  - cbn [map]. rewrite Hz. apply euler_vacuum2.
  - intros j Hlt. cbn [map]. specialize (Hfp j). destruct (fprev j) as [|q0 [|q1 [|q2 [|q3 [|]]]]]; try discriminate.
    apply euler2_ok. auto.
Qed.

(** The sources depend on the position along the field line only, are symmetric about its middle (momentum: opposite), point
    along the field line, and keep their total when the width changes: the profile in units of the width, times the width, is the same. *)
Theorem C78_source_shape c x y t : src_ok c ->
  let x' := x - t * sin (sr_theta c) in let y' := y + t * cos (sr_theta c) in
  (S_rho c x' y' = S_rho c x y /\ S_u c x' y' = S_u c x y /\ S_E c x' y' = S_E c x y) /\
  (forall xm ym, along_line c xm ym = sr_smax c - along_line c x y ->
     S_rho c xm ym = S_rho c x y /\ S_u c xm ym = - S_u c x y /\ S_E c xm ym = S_E c x y) /\
  (0 < sr_smax c -> 0 <= sr_mask c -> 0 < sr_sigma c ->
     0 <= S_rho c x y /\ 0 <= S_E c x y /\ S_u c x y * (along_line c x y - sr_smax c / 2) <= 0).
Proof.
  intros [Hs Hm] x' y'. assert (A : along_line c x' y' = along_line c x y) by (unfold along_line, x', y'; ring).
  split; [unfold S_rho, S_u, S_E; rewrite A; auto|]. split.
  - intros xm ym Hx. unfold S_rho, S_u, S_E. rewrite Hx. set (s := along_line c x y).
    assert (G : gauss c (sr_smax c - s) = gauss c s) by (unfold gauss; f_equal; field; exact Hs). rewrite G.
    repeat split; field; auto.
  - intros Hp Hk Hg. set (s := along_line c x y).
    assert (G : 0 < gauss c s) by apply exp_pos.
    assert (Q : 0 <= sr_mask c / sr_sigma c) by (apply Rmult_le_pos; [lra|left; apply Rinv_0_lt_compat; lra]).
    unfold S_rho, S_u, S_E. fold s. unfold K_rho, K_u, K_E. repeat split.
    + replace (sr_mask c * (7978845608 / 10 ^ 10) / sr_sigma c * gauss c s) with (sr_mask c / sr_sigma c * (7978845608 / 10 ^ 10) * gauss c s) by (field; auto).
      apply Rmult_le_pos; [|lra]. apply Rmult_le_pos; lra.
    + replace (sr_mask c * (47873073648 / 10 ^ 10) / sr_sigma c * gauss c s / 2) with (sr_mask c / sr_sigma c * (47873073648 / 10 ^ 10 / 2) * gauss c s) by (field; auto).
      apply Rmult_le_pos; [|lra]. apply Rmult_le_pos; lra.
    + replace (sr_mask c * - (14593314828 / 10 ^ 10) / sr_sigma c * (s / (sr_smax c / 2) - 1) * gauss c s * (s - sr_smax c / 2))
        with (- (sr_mask c / sr_sigma c * (14593314828 / 10 ^ 10 / (sr_smax c / 2)) * gauss c s * ((s - sr_smax c / 2) * (s - sr_smax c / 2)))) by (field; auto).
      assert (0 <= 14593314828 / 10 ^ 10 / (sr_smax c / 2)) by (apply Rmult_le_pos; [lra|left; apply Rinv_0_lt_compat; lra]).
      pose proof (Rle_0_sqr (s - sr_smax c / 2)) as Sq. unfold Rsqr in Sq.
      assert (0 <= sr_mask c / sr_sigma c * (14593314828 / 10 ^ 10 / (sr_smax c / 2)) * gauss c s * ((s - sr_smax c / 2) * (s - sr_smax c / 2))); [|lra].
      apply Rmult_le_pos; [|exact Sq]. apply Rmult_le_pos; [|lra]. apply Rmult_le_pos; auto.
Qed.
Theorem C78_source_width c c' x y x' y' t : src_ok c -> src_ok c' -> sr_mask c = sr_mask c' ->
  along_line c x y = sr_smax c / 2 + sr_sigma c * t -> along_line c' x' y' = sr_smax c' / 2 + sr_sigma c' * t ->
  sr_sigma c * S_rho c x y = sr_sigma c' * S_rho c' x' y' /\ sr_sigma c * S_E c x y = sr_sigma c' * S_E c' x' y'.
Proof.
  intros [H1 H2] [H3 H4] Hm A1 A2. unfold S_rho, S_E. rewrite A1, A2, Hm.
  assert (G : gauss c (sr_smax c / 2 + sr_sigma c * t) = gauss c' (sr_smax c' / 2 + sr_sigma c' * t)) by (unfold gauss; f_equal; field; auto).
  rewrite G. split; field; auto.
Qed.
Theorem C78_source_parameters ps : let c := src_params ps in
  (forall v, ps "unrotated_x_max" = Some v -> sr_smax c = v) /\ (forall v, ps "theta" = Some v -> sr_theta c = v) /\
  (forall v, ps "srcs_sigma" = Some v -> sr_sigma c = v) /\ (forall v, ps "srcs_mask" = Some v -> sr_mask c = v) /\
  (ps "unrotated_x_max" = None -> sr_smax c = 110) /\ (ps "theta" = None -> sr_theta c = 0) /\ (ps "srcs_sigma" = None -> sr_sigma c = 2) /\
  (ps "srcs_mask" = None -> sr_mask c = 1).
Proof. cbv zeta. unfold src_params, sparam. cbn [sr_smax sr_theta sr_sigma sr_mask]. repeat split; intros; rewrite H; reflexivity. Qed.
(** A zero width is not rejected: the sources are not finite. *)
Theorem C78_zero_width s c X Y phys out : sr_sigma c = 0 -> src_apply s c X Y phys out = FNan.
Proof. intros H. unfold src_apply, rho_prefac. rewrite (rdiv_zero _ _ H). reflexivity. Qed.

(** The sources that the particles project are part of the forcing term: a session without one drops them, a session with two
    adds them twice. *)
Definition s2p : fsess := {| fs_vars := ["rho"; "rhou"; "rhov"; "E"; "T"; "rho_src"; "rhou_src"; "rhov_src"; "E_src"];
  fs_mesh := 2; fs_space := 2; fs_part := true; fs_npts := 4 |}.
Definition one : fld := fun _ => 1.
Definition phys2 : list fld := [one; vzero; vzero; one; one; one; vzero; vzero; one].
Definition c0 : srcpar := src_params (fun n => if String.eqb n "srcs_mask" then Some 0 else None).
Lemma c0_ok : src_ok c0.
Proof. unfold src_ok, c0, src_params, sparam. cbn. split; lra. Qed.
Lemma s2p_ok : sol_sess s2p.
Proof.
  split; [cbn; repeat constructor; cbn; intuition discriminate|]. right. split; [reflexivity|].
  exists ["T"; "rho_src"; "rhou_src"; "rhov_src"; "E_src"]. reflexivity.
Qed.
Lemma s2p_src : src_field s2p phys2 "rho" one /\ src_field s2p phys2 "rhou" vzero /\ src_field s2p phys2 "rhov" vzero /\ src_field s2p phys2 "E" one.
Proof.
  unfold src_field. repeat split; try (intros H; exfalso; apply H; cbn; tauto); intros _;
  [exists 5%nat|exists 6%nat|exists 7%nat|exists 8%nat]; split; reflexivity.
Qed.
Lemma mask0 x y : S_rho c0 x y = 0.
Proof. unfold S_rho, c0, src_params, sparam. cbn [sr_mask String.eqb Ascii.eqb Bool.eqb]. cbn. unfold Rdiv. ring. Qed.
Theorem C78_forcing_count_refuted : exists adv pres fprev p a b, sol_sess s2p /\ src_field s2p phys2 "rho" one /\
  sol_rhs adv pres s2p [] vzero vzero fprev phys2 [one; vzero; vzero; one] p = FOk a /\
  sol_rhs adv pres s2p [c0; c0] vzero vzero fprev phys2 [one; vzero; vzero; one] p = FOk b /\
  (forall k F inn i, adv k F inn i = 0) /\ (exists f, nth_error a 0 = Some f /\ f 0%nat = 0) /\ (exists f, nth_error b 0 = Some f /\ f 0%nat = 2).
Proof.
  destruct s2p_src as (G0 & G1 & G2 & G3). set (z := repeat (@nil R) 4).
  destruct (C78_rhs_2d (fun _ _ _ _ => 0) (fun _ => 0) s2p [] vzero vzero (fun _ => z) phys2 one vzero vzero one vzero vzero vzero vzero one vzero vzero one
     s2p_ok eq_refl eq_refl ltac:(constructor) ltac:(reflexivity) ltac:(intros; unfold one; lra) G0 G1 G2 G3) as (F & a0 & a1 & a2 & a3 & H & _ & V).
  destruct (C78_rhs_2d (fun _ _ _ _ => 0) (fun _ => 0) s2p [c0; c0] vzero vzero (fun _ => z) phys2 one vzero vzero one vzero vzero vzero vzero one vzero vzero one
     s2p_ok eq_refl eq_refl ltac:(repeat constructor; apply c0_ok) ltac:(reflexivity) ltac:(intros; unfold one; lra) G0 G1 G2 G3) as (F' & b0 & b1 & b2 & b3 & H' & _ & V').
  do 6 eexists. split; [exact s2p_ok|]. split; [exact G0|]. split; [exact H|]. split; [exact H'|]. split; [reflexivity|].
  split; eexists; (split; [reflexivity|]).
  - destruct (V 0%nat ltac:(cbn; lia)) as [-> _]. cbn [total fold_right length INR]. unfold one. ring.
  - destruct (V' 0%nat ltac:(cbn; lia)) as [-> _]. cbn [total fold_right length INR]. rewrite !mask0. unfold one. ring.
Qed.
(** The order of the variables is not checked: arrays arrive in the order rho, rhou, (rhov,) E, but are indexed with the positions of
    the session. A variable before the energy is an access out of bounds; exchanged variables give a wrong flux. *)
Theorem C78_order_refuted :
  (exists s, sol_init s = FOk tt /\ NoDup (fs_vars s) /\ exists inn, gather [one; one; one; one] [0%Z; 1%Z; 3%Z] = FOk inn /\
     int_variables s (sol_names 1) = FOk [0%Z; 1%Z; 3%Z] /\
     forall adv pres X Y fprev phys prev, sol_rhs adv pres s [] X Y fprev phys inn prev = FUB) /\
  (exists s phys n m E inn pres F, sol_init s = FOk tt /\ NoDup (fs_vars s) /\ phys = [m; n; E] /\ fs_vars s = ["rhou"; "rho"; "E"] /\
     int_variables s (sol_names 1) = FOk [1%Z; 0%Z; 2%Z] /\ gather phys [1%Z; 0%Z; 2%Z] = FOk inn /\
     euler_pt 1 pres (fget_idx s "rho") (fget_idx s "E") [[]; []; []] (map (fun f : fld => f 0%nat) inn) = FOk F /\
     n 0%nat = 2 /\ m 0%nat = 4 /\ F <> euler1 2 4 (E 0%nat) (pres [2; 4; E 0%nat])).
Proof.
  split.
  - exists {| fs_vars := ["rho"; "rhou"; "T"; "E"]; fs_mesh := 1; fs_space := 1; fs_part := false; fs_npts := 1 |}.
    split; [reflexivity|]. split; [cbn; repeat constructor; cbn; intuition discriminate|].
    exists [one; one; one]. split; [reflexivity|]. split; [reflexivity|]. intros. reflexivity.
  - exists {| fs_vars := ["rhou"; "rho"; "E"]; fs_mesh := 1; fs_space := 1; fs_part := false; fs_npts := 1 |}.
    exists [(fun _ => 4); (fun _ => 2); one], (fun _ => 2), (fun _ => 4), one, [(fun _ => 2); (fun _ => 4); one], (fun _ => 0).
    eexists. split; [reflexivity|]. split; [cbn; repeat constructor; cbn; intuition discriminate|].
    split; [reflexivity|]. split; [reflexivity|]. split; [reflexivity|]. split; [reflexivity|]. split.
    + unfold euler_pt. change (fget_idx _ "rho") with 1%Z. change (fget_idx _ "E") with 2%Z.
      change (Z.to_nat (2 + 1)) with 3%nat. cbn [seq fmapM Z.of_nat Pos.of_succ_nat Pos.succ map]. ax.
      rewrite (rdiv_q 1 4) by lra. cbn [fnan]. ax. cbn [map]. change (0 + 1)%Z with 1%Z. ax. change (1 + 0)%Z with 1%Z. ax. change (1 + 1)%Z with 2%Z. ax. reflexivity.
    + split; [reflexivity|]. split; [reflexivity|]. unfold euler1. intros E. injection E as E1 E2. lra.
Qed.
Example C78_nonvacuous : exists F a b d e, sol_rhs (fun k F _ i => nth 0 (nth k (F i) []) 0) (fun v => nth 3 v 0) s2p [c0]
    vzero vzero (fun _ => repeat [] 4) phys2 [one; one; one; one] [vzero; vzero; vzero; vzero] = FOk [a; b; d; e] /\
  F 2%nat = euler2 1 1 1 1 1 /\ a 2%nat = 0 /\ b 2%nat = -2.
Proof.
  destruct s2p_src as (G0 & G1 & G2 & G3).
  destruct (C78_rhs_2d (fun k F _ i => nth 0 (nth k (F i) []) 0) (fun v => nth 3 v 0) s2p [c0] vzero vzero (fun _ => repeat [] 4) phys2 one one one one vzero vzero vzero vzero one vzero vzero one
     s2p_ok eq_refl eq_refl ltac:(repeat constructor; apply c0_ok) ltac:(reflexivity) ltac:(intros; unfold one; lra) G0 G1 G2 G3) as (F & a & b & d & e & H & HF & V).
  exists F, a, b, d, e. split; [exact H|]. pose proof (HF 2%nat ltac:(cbn; lia)) as HF2. split; [exact HF2|].
  destruct (V 2%nat ltac:(cbn; lia)) as (-> & -> & _). cbn [total fold_right length INR]. rewrite mask0, HF2. unfold euler2, S_u, c0, src_params, sparam, one, vzero. cbn. unfold Rdiv. rewrite !Rmult_0_l, ?Rmult_0_r. rewrite !Rinv_1. split; ring.
Qed.
Print Assumptions C78_rhs_2d.
Print Assumptions C78_rhs_1d.
Print Assumptions C78_source_shape.
Print Assumptions C78_order_refuted.

(** The equation system starts exactly in one or two dimensions with the fields of that dimension. *)
Theorem C78_startup s : sol_init s = FOk tt <->
  (fs_space s = 1%nat /\ In "rho" (fs_vars s) /\ In "rhou" (fs_vars s) /\ In "E" (fs_vars s)) \/
  (fs_space s = 2%nat /\ In "rho" (fs_vars s) /\ In "rhou" (fs_vars s) /\ In "rhov" (fs_vars s) /\ In "E" (fs_vars s)).
Proof.
  assert (V : forall l, validate_fields s l = FOk tt <-> forall n, In n l -> In n (fs_vars s)).
  { induction l as [|n l IH]; cbn [validate_fields]; [split; [intros _ n []|reflexivity]|]. destruct (0 <=? fget_idx s n)%Z eqn:E; cbn [fassert fbind].
    - apply fget_idx_nonneg in E. rewrite IH. split; intros H m; [intros [->|Hm]; auto|]. intros Hm. apply H. now right.
    - split; [discriminate|]. intros H. specialize (H n (or_introl eq_refl)). apply fget_idx_nonneg in H. congruence. }
  unfold sol_init, sol_names. destruct (fs_space s) as [|[|[|d]]]; cbn [Nat.eqb orb fassert fbind].
  - split; [discriminate|]. intros [[H _]|[H _]]; discriminate.
  - rewrite V. split.
    + intros H. left. split; [reflexivity|]. split; [|split]; apply H; cbn; auto.
    + intros [(_ & A & B & C)|[H _]]; [|discriminate]. intros n [<-|[<-|[<-|[]]]]; auto.
  - rewrite V. split.
    + intros H. right. split; [reflexivity|]. split; [|split; [|split]]; apply H; cbn; auto.
    + intros [[H _]|(_ & A & B & C & D)]; [discriminate|]. intros n [<-|[<-|[<-|[<-|[]]]]]; auto.
  - split; [discriminate|]. intros [[H _]|[H _]]; discriminate.
Qed.
Print Assumptions C78_startup.
