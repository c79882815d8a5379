(** Specification vocabulary for C98. *)
From Coq Require Import ZArith Reals.
From Verif Require Import M_Bytes M_Pack2D M_RemoteGeom M_Transport M_Exchange M_Halo3D M_Util M_Regular M_Journey S_Grid S_MeshIf S_NewtonBind S_Regular.
From Coq Require Import List.
Import ListNotations.
Local Open Scope Z_scope.

(** A position strictly inside the (open) box / in the (closed) cell. *)
Definition inside_box (n : nat) (b : list (R * R)) (x : list R) : Prop :=
  forall d, (d < n)%nat -> (fst (nth d b (0, 0)) < nthR x d < snd (nth d b (0, 0)))%R.
Definition in_cell (n : nat) (c : list (R * R)) (x : list R) : Prop :=
  forall d, (d < n)%nat -> (fst (nth d c (0, 0)) <= nthR x d <= snd (nth d c (0, 0)))%R.
(** An element of the distributed mesh has an id no element of another rank has. *)
Definition ids_unique {E} (size : Z) (elems : Z -> list (Z * E)) : Prop :=
  forall a b i e e', 0 <= a < size -> 0 <= b < size -> In (i, e) (elems a) -> In (i, e') (elems b) -> a = b.
(** What the mappers read off an element: its id, the rank it lives on and the box Nektar++ gives (the one claims are made with). *)
Definition describes {E} (mk : Z -> Z -> E -> mgeom) (bx : E -> list (R * R)) (shape : E -> Z) : Prop :=
  forall a i e, g_id (mk a i e) = i /\ g_rank (mk a i e) = a /\ g_box (mk a i e) = bx e /\ g_shape (mk a i e) = shape e.
(** The element's inverse map, in one of the passes, gives the reference coordinates [xi] for the particle's position: the
    closed form for regular elements (3D: unless the session asks for generic mappers only), Newton's method for others, of
    which in 2D only the quads are ever tried. *)
Definition closed_form (n : nat) (conf : store) (g : mgeom) : bool := g_regular g && (Nat.eqb n 2 || negb (all_generic_newton conf)).
Definition accepted (n : nat) (conf : store) (g : mgeom) (q : particle) (xi : pt3) : Prop :=
  if closed_form n conf g then regular_accepts n (if Nat.eqb n 2 then regular_tol_2d conf else regular_tol_3d conf) g (kernel_pos n q) = Some xi
  else (n = 2%nat -> g_shape g = eQuadrilateral) /\
    (accepts_initial (read_config conf) (kernel_pos n q) g = Some xi \/
     exists grid, accepts_final (read_config conf) n grid (kernel_pos n q) g = Some xi).
(** The particle was placed: it is bound to an element of the mesh (id and rank of the owner), at reference coordinates at
    which that element accepts it; nothing else about it changed. *)
Definition placed {E} (n : nat) (conf : store) (size : Z) (elems : Z -> list (Z * E)) (mk : Z -> Z -> E -> mgeom) (q q' : particle) : Prop :=
  exists a i e xi, 0 <= a < size /\ In (i, e) (elems a) /\ accepted n conf (mk a i e) q xi /\ bound_to n i a xi q q'.
(** Fate of one particle in a mapping call: particles that have a rank are left alone, others are placed or left alone. *)
Definition fate {E} (n : nat) (conf : store) (size : Z) (elems : Z -> list (Z * E)) (mk : Z -> Z -> E -> mgeom) (q q' : particle) : Prop :=
  (0 <= q_rank q -> q' = q) /\ (q_rank q < 0 -> (n <= length (q_ref q))%nat -> q' = q \/ placed n conf size elems mk q q').
(** Points strictly inside the reference element. *)
Definition in_interior (s : ashape) (xi : pt3) : Prop :=
  let '(x, y, z) := xi in
  match s with
  | ATri => -1 < x /\ -1 < y /\ x + y < 0 /\ z = 0
  | AElem EQuad => -1 < x < 1 /\ -1 < y < 1 /\ z = 0
  | AElem ETet => -1 < x /\ -1 < y /\ -1 < z /\ x + y + z < -1
  | AElem EPrism => -1 < x /\ -1 < y < 1 /\ -1 < z /\ x + z < 0
  | AElem EPyr => -1 < x /\ -1 < y /\ -1 < z /\ x + z < 0 /\ y + z < 0
  | AElem EHex => -1 < x < 1 /\ -1 < y < 1 /\ -1 < z < 1
  end%R.
Definition avertices (s : ashape) : nat := match s with ATri => 3 | AElem e => nverts e end.
