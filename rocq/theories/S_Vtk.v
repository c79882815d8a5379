(** A reader of the legacy VTK format, as far as the files here use it, and what a picture shows: only the words of a file
    are shared with the model of the writer. *)
From Verif Require Import M_Vtk.
From Coq Require Import Reals ZArith String List.
Import ListNotations.
Open Scope string_scope. Open Scope list_scope. Open Scope Z_scope.

(** points, cells (lists of point numbers), cell types, and the two numbers given for each cell *)
Record vdoc := mkDoc { d_points : list (R * R * R); d_cells : list (list Z); d_types : list Z; d_rank : list Z; d_prop : list R }.

Fixpoint expect (l : list string) (f : list tok) : option (list tok) :=
  match l, f with
  | [], _ => Some f
  | s :: l, TW t :: f => if String.eqb s t then expect l f else None
  | _, _ => None
  end.
Definition read_int (f : list tok) : option (Z * list tok) := match f with TI i :: f => Some (i, f) | _ => None end.
(** one value per cell is given *)
Definition read_one (f : list tok) : option (list tok) := match f with TI 1 :: f => Some f | _ => None end.
Fixpoint read_ints (n : nat) (f : list tok) : option (list Z * list tok) :=
  match n, f with
  | O, _ => Some ([], f)
  | S n, TI i :: f => match read_ints n f with Some (l, f) => Some (i :: l, f) | None => None end
  | _, _ => None
  end.
Fixpoint read_reals (n : nat) (f : list tok) : option (list R * list tok) :=
  match n, f with
  | O, _ => Some ([], f)
  | S n, TR i :: f => match read_reals n f with Some (l, f) => Some (i :: l, f) | None => None end
  | _, _ => None
  end.
Fixpoint read_points (n : nat) (f : list tok) : option (list (R * R * R) * list tok) :=
  match n, f with
  | O, _ => Some ([], f)
  | S n, TR x :: TR y :: TR z :: f => match read_points n f with Some (l, f) => Some ((x, y, z) :: l, f) | None => None end
  | _, _ => None
  end.
(** [n] cells, each its number of points followed by the points; nothing may be left over *)
Fixpoint split_cells (n : nat) (l : list Z) : option (list (list Z)) :=
  match n, l with
  | O, [] => Some []
  | S n, k :: l => if (0 <=? k) && (Z.to_nat k <=? List.length l)%nat then
      match split_cells n (skipn (Z.to_nat k) l) with Some r => Some (firstn (Z.to_nat k) l :: r) | None => None end else None
  | _, _ => None
  end%bool.
Definition read_file (f : list tok) : option vdoc :=
  match expect ["# vtk DataFile Version 2.0"; "NESO Unstructured Grid"; "ASCII"; "DATASET"; "UNSTRUCTURED_GRID"; "POINTS"] f with None => None | Some f =>
  match read_int f with None => None | Some (np, f) => match expect ["float"] f with None => None | Some f =>
  match read_points (Z.to_nat np) f with None => None | Some (pts, f) => match expect ["CELLS"] f with None => None | Some f =>
  match read_int f with None => None | Some (nc, f) => match read_int f with None => None | Some (ni, f) =>
  match read_ints (Z.to_nat ni) f with None => None | Some (ints, f) => match split_cells (Z.to_nat nc) ints with None => None | Some cells =>
  match expect ["CELL_TYPES"] f with None => None | Some f => match read_int f with None => None | Some (nt, f) =>
  match read_ints (Z.to_nat nt) f with None => None | Some (types, f) => match expect ["CELL_DATA"] f with None => None | Some f =>
  match read_int f with None => None | Some (nd, f) => match expect ["SCALARS"; "rank"; "float"] f with None => None | Some f =>
  match read_one f with None => None | Some f => match expect ["LOOKUP_TABLE"; "CellColors"] f with None => None | Some f =>
  match read_ints (Z.to_nat nd) f with None => None | Some (ranks, f) => match expect ["SCALARS"; "generic_property"; "float"] f with None => None | Some f =>
  match read_one f with None => None | Some f => match expect ["LOOKUP_TABLE"; "CellColors"] f with None => None | Some f =>
  match read_reals (Z.to_nat nd) f with
  | Some (props, []) =>
      if (0 <=? np) && (nc =? nt) && (nc =? nd) && forallb (forallb (fun i => (0 <=? i) && (i <? np))) cells
      then Some (mkDoc pts cells types ranks props) else None
  | _ => None end end end end end end end end end end end end end end end end end end end end end end%bool.

(** what a cell shows: the coordinates of its points *)
Definition shown (d : vdoc) (cell : list Z) : list (R * R * R) := map (fun i => nth (Z.to_nat i) (d_points d) (0, 0, 0)%R) cell.
(** the position of a vertex in space: coordinates it does not have are 0 *)
Definition place (v : vert) : R * R * R :=
  ((v_x v, if v_dim v =? 1 then 0 else v_y v, if (v_dim v =? 1) || (v_dim v =? 2) then 0 else v_z v)%bool)%R.
(** the cell types of VTK by the name of the shape *)
Definition vtk_type (shape : Z) : option Z :=
  if shape =? 1 then Some 1 (* vertex *) else if shape =? 2 then Some 3 (* line *) else if shape =? 3 then Some 5 (* triangle *)
  else if shape =? 4 then Some 9 (* quad *) else if shape =? 5 then Some 10 (* tetra *) else if shape =? 6 then Some 14 (* pyramid *)
  else if shape =? 7 then Some 13 (* wedge *) else if shape =? 8 then Some 12 (* hexahedron *) else None.
(** the elements pushed are sound: vertices with one number are at one place, and the vertices of an element are ends of its edges *)
Definition ends (g : vgeo) : list vert := flat_map e_verts (g_edges g).
Definition sound (gs : list vgeo) : Prop :=
  (forall g g' v v', In g gs -> In g' gs -> In v (ends g ++ g_verts g) -> In v' (ends g' ++ g_verts g') -> v_gid v = v_gid v' -> place v = place v') /\
  (forall g v, In g gs -> In v (g_verts g) -> exists v', In v' (ends g) /\ v_gid v' = v_gid v).
(** a writer after the calls of push_back with these elements and properties *)
Definition pushed (rank : Z) (l : list (vgeo * R)) : vwriter := fold_left (fun w gp => push_back (fst gp) (snd gp) w) l (vw_new rank).
(** the property given with the latest push of an object *)
Definition latest (l : list (vgeo * R)) (g : vgeo) : R :=
  match find (fun gp => Nat.eqb (g_ptr (fst gp)) (g_ptr g)) (rev l) with Some gp => snd gp | None => 0%R end.
