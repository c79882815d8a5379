(** Specification vocabulary for C36-C38. *)
From Verif Require Import M_LinePlane.

(** the point at parameter [t] of the line through a and b *)
Definition along (a b : v3) (t : R) : v3 :=
  mkV3 (vx a + t * (vx b - vx a)) (vy a + t * (vy b - vy a)) (vz a + t * (vz b - vz a)).
Definition on_segment (a b x : v3) : Prop := exists t, 0 <= t <= 1 /\ x = along a b t.
(** the plane through [p] orthogonal to [n] *)
Definition in_plane (p n x : v3) : Prop := dot (vsub x p) n = 0.
Definition parallel (n a b : v3) : Prop := dot (vsub b a) n = 0.
Definition dist2 (a b : v3) : R := dot (vsub a b) (vsub a b).
(** weighted sums of points, and convex combinations *)
Fixpoint wsum (wv : list (R * v3)) : v3 :=
  match wv with
  | [] => mkV3 0 0 0
  | (w, v) :: r => let s := wsum r in mkV3 (w * vx v + vx s) (w * vy v + vy s) (w * vz v + vz s)
  end.
Fixpoint wtotal (wv : list (R * v3)) : R := match wv with [] => 0 | (w, _) :: r => w + wtotal r end.
Definition convex_combination (verts : list v3) (x : v3) : Prop :=
  exists ws, length ws = length verts /\ Forall (fun w => 0 <= w) ws /\
    wtotal (combine ws verts) = 1 /\ x = wsum (combine ws verts).
(** all vertices lie in one plane *)
Definition planar (verts : list v3) : Prop :=
  exists p n, n <> mkV3 0 0 0 /\ Forall (in_plane p n) verts.
