(** Specification vocabulary for C95. *)
From Coq Require Import Reals.
From Verif Require Import M_Bytes M_Exchange M_MeshIf M_LinePlane M_Composite M_BoundaryData.
From Verif Require Import S_Composite.
From Coq Require Import List.
Import ListNotations.
Local Open Scope Z_scope.

(** * Previous positions *)
(** no call in [ops] covers particle [i] *)
Fixpoint not_saved (i : nat) (ops : list gop) : Prop :=
  match ops with [] => True | GPre s :: r => ~ In i s /\ not_saved i r | GMove _ :: r => not_saved i r end.
(** the positions after [ops] *)
Fixpoint position_after (ops : list gop) (p : pdat) : pdat :=
  match ops with [] => p | GPre _ :: r => position_after r p | GMove q :: r => position_after r q end.
Definition has_call (ops : list gop) : Prop := exists s, In (GPre s) ops.

(** * Collected elements and normals *)
(** the states of a rank: cells collected one after the other, gathers in between *)
Inductive nreach (ndim : nat) (c2g : list (Z * Z)) (contents : Z -> list cgeom) : cstate * list (Z * nptr) -> Prop :=
| NRInit : nreach ndim c2g contents (cs_init, [])
| NRCell st c st' : nreach ndim c2g contents st -> collect_cell_n ndim c2g contents st c = Ok st' -> nreach ndim c2g contents st'
| NRGather st st' : nreach ndim c2g contents st -> cs_collected st' = cs_collected (fst st) -> cs_tree st' = cs_tree (fst st) ->
    nreach ndim c2g contents (st', snd st).
(** a global id names one element *)
Definition ids_unique (contents : Z -> list cgeom) : Prop :=
  forall c c' x x', In x (contents c) -> In x' (contents c') -> cg_id x = cg_id x' -> cg_geom x = cg_geom x'.
Definition collected_element (tree : list (Z * coll)) (e : delem) : Prop :=
  exists c cc, zget tree c = Some cc /\ (In e (cc_quads cc) \/ In e (cc_tris cc) \/ In e (cc_segs cc)).
(** [n] is a unit vector orthogonal to the element *)
Definition sub3 (a b : v3) : v3 := mkV3 (vx a - vx b)%R (vy a - vy b)%R (vz a - vz b)%R.
Definition unit_normal (ndim : nat) (g : bgeom) (n : list xreal) : Prop :=
  match ndim with
  | 3%nat => exists x y z v0 v1 r, n = [Some x; Some y; Some z] /\ (x * x + y * y + z * z = 1)%R /\
               bg_verts g = v0 :: v1 :: r /\ forall w, w = v1 \/ w = last (bg_verts g) v0 ->
                 (x * (vx w - vx v0) + y * (vy w - vy v0) + z * (vz w - vz v0) = 0)%R
  | _ => exists a b, bg_verts g = [a; b] /\
           ((exists x y, n = [Some x; Some y] /\ (x * x + y * y = 1)%R /\ (x * (vx b - vx a) + y * (vy b - vy a) = 0)%R) \/
            (n = [None; None] /\ vx a = vx b /\ vy a = vy b))
  end.

(** * The data of a particle of a group *)
Definition carries (ndim : nat) (tree : list (Z * coll)) (h : bhit) (d : bdata) : Prop :=
  bd_point d = coords ndim (bh_point h) /\ bd_label d = bh_group h /\ bd_geom d = bh_id h /\
  exists e n, collected_element tree e /\ bg_id (de_geom e) = bh_id h /\ de_group e = bh_group h /\
    bd_normal d = Some n /\ unit_normal ndim (de_geom e) n.
