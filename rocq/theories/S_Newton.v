(** Specification of the linear element maps, independent of the generated code: reference vertices, shape functions,
    X(xi) = sum of shape functions times vertices, and what a Newton step is. *)
From Coq Require Export Reals List Arith Lra Lia.
Export ListNotations.
Open Scope R_scope.

Definition comp (p : R * R * R) (a : nat) : R :=
  let '(x, y, z) := p in match a with 0%nat => x | 1%nat => y | _ => z end.
(** xi with component b replaced by t *)
Definition setc (p : R * R * R) (b : nat) (t : R) : R * R * R :=
  let '(x, y, z) := p in match b with 0%nat => (t, y, z) | 1%nat => (x, t, z) | _ => (x, y, t) end.

Inductive elem := EQuad | ETet | EPrism | EHex | EPyr.
Definition nverts (e : elem) : nat := match e with EQuad => 4 | ETet => 4 | EPrism => 6 | EHex => 8 | EPyr => 5 end.
Definition ndims (e : elem) : nat := match e with EQuad => 2 | _ => 3 end.

(** Reference vertices in Nektar++ order. *)
Definition refvert (e : elem) (i : nat) : R * R * R :=
  nth i match e with
        | EQuad => [(-1,-1,0); (1,-1,0); (1,1,0); (-1,1,0)]
        | ETet => [(-1,-1,-1); (1,-1,-1); (-1,1,-1); (-1,-1,1)]
        | EPrism => [(-1,-1,-1); (1,-1,-1); (1,1,-1); (-1,1,-1); (-1,-1,1); (-1,1,1)]
        | EHex => [(-1,-1,-1); (1,-1,-1); (1,1,-1); (-1,1,-1); (-1,-1,1); (1,-1,1); (1,1,1); (-1,1,1)]
        | EPyr => [(-1,-1,-1); (1,-1,-1); (1,1,-1); (-1,1,-1); (-1,-1,1)]
        end (0,0,0).

(** The linear function of t that is 1 at t = s and 0 at t = -s (s = +1 or -1). *)
Definition lin (s t : R) : R := (1 + s * t) / 2.
Definition bilin (i : nat) (x y : R) : R :=
  lin (comp (refvert EQuad i) 0) x * lin (comp (refvert EQuad i) 1) y.
(** Shape functions. The pyramid's are the base's bilinear functions of the collapsed coordinates
    eta = 2 (1 + x) / (1 - z) - 1, scaled towards the apex. *)
Definition shapef (e : elem) (i : nat) (xi : R * R * R) : R :=
  let '(x, y, z) := xi in
  match e with
  | EQuad => bilin i x y
  | EHex => let r := refvert EHex i in lin (comp r 0) x * lin (comp r 1) y * lin (comp r 2) z
  | ETet => match i with 0%nat => - (1 + x + y + z) / 2 | 1%nat => (1 + x) / 2 | 2%nat => (1 + y) / 2 | _ => (1 + z) / 2 end
  | EPrism =>
      (match i with 0%nat | 3%nat => - (x + z) / 2 | 1%nat | 2%nat => (1 + x) / 2 | _ => (1 + z) / 2 end)
      * lin (comp (refvert EPrism i) 1) y
  | EPyr => match i with
            | 4%nat => (1 + z) / 2
            | _ => (1 - z) / 2 * bilin i (2 * (1 + x) / (1 - z) - 1) (2 * (1 + y) / (1 - z) - 1)
            end
  end.
(** X(xi), component a, of the element with vertices c. *)
Definition Xmap (e : elem) (c : nat -> nat -> R) (xi : R * R * R) (a : nat) : R :=
  fold_right (fun i acc => shapef e i xi * c i a + acc) 0 (seq 0 (nverts e)).
(** Where the map is differentiable: everywhere, except the collapsed plane of the pyramid. *)
Definition regular (e : elem) (xi : R * R * R) : Prop :=
  match e with EPyr => comp xi 2 <> 1 | _ => True end.

(** J is the Jacobian matrix at xi of the map X : R^n -> R^n. *)
Definition is_jacobian (n : nat) (X : R * R * R -> nat -> R) (xi : R * R * R) (J : nat -> nat -> R) : Prop :=
  forall a b, (a < n)%nat -> (b < n)%nat ->
    derivable_pt_lim (fun t => X (setc xi b t) a) (comp xi b) (J a b).
Definition det (n : nat) (J : nat -> nat -> R) : R :=
  match n with
  | 2%nat => J 0%nat 0%nat * J 1%nat 1%nat - J 0%nat 1%nat * J 1%nat 0%nat
  | _ => J 0%nat 0%nat * (J 1%nat 1%nat * J 2%nat 2%nat - J 1%nat 2%nat * J 2%nat 1%nat)
       - J 0%nat 1%nat * (J 1%nat 0%nat * J 2%nat 2%nat - J 1%nat 2%nat * J 2%nat 0%nat)
       + J 0%nat 2%nat * (J 1%nat 0%nat * J 2%nat 1%nat - J 1%nat 1%nat * J 2%nat 0%nat)
  end.
(** xin = xi - J^{-1} f, i.e. J (xin - xi) = - f. *)
Definition newton_update (n : nat) (J : nat -> nat -> R) (xi f xin : R * R * R) : Prop :=
  forall a, (a < n)%nat ->
    fold_right (fun b acc => J a b * (comp xin b - comp xi b) + acc) 0 (seq 0 n) = - comp f a.

(** Quadrilateral embedded in 3D: the bilinear map plus xi2 times a fixed vector w (used as a penalty direction). *)
Definition Xquad3 (c : nat -> nat -> R) (w : R * R * R) (xi : R * R * R) (a : nat) : R :=
  Xmap EQuad c xi a + comp xi 2 * comp w a.
(** Triangle embedded in 3D, reference vertices (-1,-1), (1,-1), (-1,1). *)
Definition Xtri (c : nat -> nat -> R) (xi : R * R * R) (a : nat) : R :=
  let '(x, y, _) := xi in - (x + y) / 2 * c 0%nat a + (1 + x) / 2 * c 1%nat a + (1 + y) / 2 * c 2%nat a.
Definition dot3 (u v : nat -> R) : R := u 0%nat * v 0%nat + u 1%nat * v 1%nat + u 2%nat * v 2%nat.
