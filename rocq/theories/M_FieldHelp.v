(** Model of the field helpers of include/nektar_interface/utilities.hpp (interpolation onto a
    field, evaluation of a field and of its derivatives at a point, map from particle cells to
    expansions) and of the error measures of include/nektar_interface/special_functions.hpp.
    Exact reals. What Nektar++ does is a parameter: the transforms, the search for the
    element of a point and, per element, the evaluation of point values, their derivative
    and the reference coordinates. *)
From Coq Require Import Reals Psatz.
From Verif Require Import M_Bytes M_Util.
From Coq Require Import List.
Import ListNotations.
Open Scope R_scope.

(** LocalRegions::Expansion, as far as the helpers use it. *)
Record expansion := mkExpansion {
  ex_gid : Z;                                    (* GetGeom()->GetGlobalID() *)
  ex_npts : nat;                                 (* GetTotPoints() *)
  ex_std : list R -> list R -> R;                (* StdPhysEvaluate(xi, values) *)
  ex_deriv : Z -> list R -> list R;              (* PhysDeriv(direction, values, out) *)
  ex_loc : list R -> list R }.                   (* GetGeom()->GetLocCoords(coords, xi) *)

(** MultiRegions::ExpList / DisContField / ContField. *)
Record nfield := mkField {
  nf_exp : list expansion;                       (* GetExp(i) *)
  nf_off : list nat;                             (* GetPhys_Offset(i) *)
  nf_coords : list (R * R * R);                  (* GetCoords *)
  nf_ncoeffs : nat;                              (* GetNcoeffs() *)
  nf_fwd : list R -> list R;                     (* FwdTrans *)
  nf_bwd : list R -> list R;                     (* BwdTrans *)
  nf_search : list R -> Z * list R;              (* GetExpIndex(coords, xi) *)
  nf_coeff : list R;                             (* m_coeffs *)
  nf_phys : list R }.                            (* m_phys *)

Definition set_coeff_all (fld : nfield) (c : list R) : nfield :=
  mkField (nf_exp fld) (nf_off fld) (nf_coords fld) (nf_ncoeffs fld) (nf_fwd fld) (nf_bwd fld) (nf_search fld)
    c (nf_phys fld).
Definition set_phys (fld : nfield) (p : list R) : nfield :=
  mkField (nf_exp fld) (nf_off fld) (nf_coords fld) (nf_ncoeffs fld) (nf_fwd fld) (nf_bwd fld) (nf_search fld)
    (nf_coeff fld) p.

(** for cx in 0..num_coeffs: field->SetCoeff(cx, coeffs_f[cx]) (utilities.hpp 116-118, 155-157) *)
Fixpoint store_at (l : list R) (i : nat) (v : R) : option (list R) :=
  match l, i with
  | [], _ => None
  | _ :: r, O => Some (v :: r)
  | a :: r, S j => option_map (cons a) (store_at r j v)
  end.
Fixpoint set_coeffs_loop (n cx : nat) (src dst : list R) : option (list R) :=
  match n with
  | O => Some dst
  | S n' => match nth_error src cx with
            | None => None
            | Some v => match store_at dst cx v with
                        | None => None
                        | Some dst' => set_coeffs_loop n' (S cx) src dst'
                        end
            end
  end.

(** interpolate_onto_nektar_field_3d (utilities.hpp 91-123). [None]: an access outside an array.
    The zero initialisation of coeffs_f (110-112) is overwritten by FwdTrans, which this model
    takes as a function of the point values only. *)
Definition interpolate_3d (func : R -> R -> R -> R) (fld : nfield) : option nfield :=
  let f := map (fun p => func (fst (fst p)) (snd (fst p)) (snd p)) (nf_coords fld) in
  let coeffs_f := nf_fwd fld f in
  match set_coeffs_loop (nf_ncoeffs fld) 0 coeffs_f (nf_coeff fld) with
  | None => None
  | Some c => Some (set_phys (set_coeff_all fld c) (nf_bwd fld coeffs_f))
  end.

(** interpolate_onto_nektar_field_2d (utilities.hpp 133-162): the same with GetCoords(x, y). *)
Definition interpolate_2d (func : R -> R -> R) (fld : nfield) : option nfield :=
  let f := map (fun p => func (fst (fst p)) (snd (fst p))) (nf_coords fld) in
  let coeffs_f := nf_fwd fld f in
  match set_coeffs_loop (nf_ncoeffs fld) 0 coeffs_f (nf_coeff fld) with
  | None => None
  | Some c => Some (set_phys (set_coeff_all fld c) (nf_bwd fld coeffs_f))
  end.

(** A read of m_phys_offset[i] or of the i-th entry of m_exp without a check: outside is undefined. *)
Definition raw_nth {A} (l : list A) (i : Z) : outcome A :=
  if Z.ltb i 0 then UB else match nth_error l (Z.to_nat i) with Some a => Ok a | None => UB end.
(** [n] doubles from the pointer GetPhys() + off. *)
Definition raw_slice (l : list R) (off n : nat) : outcome (list R) :=
  if Nat.leb (off + n) (length l) then Ok (firstn n (skipn off l)) else UB.

(** The common body: elmtPhys = GetPhys() + GetPhys_Offset(idx); expansion = GetExp(idx). *)
Definition element_values (fld : nfield) (idx : Z) : outcome (expansion * list R) :=
  obind (raw_nth (nf_off fld) idx) (fun off =>
  obind (raw_nth (nf_exp fld) idx) (fun e =>
  obind (raw_slice (nf_phys fld) off (ex_npts e)) (fun v => Ok (e, v)))).

(** evaluate_scalar_2d (utilities.hpp 202-216) *)
Definition evaluate_2d (fld : nfield) (x y : R) : outcome R :=
  let '(idx, xi) := nf_search fld [x; y] in
  obind (element_values fld idx) (fun ev => Ok (ex_std (fst ev) xi (snd ev))).
(** evaluate_scalar_3d (227-241) *)
Definition evaluate_3d (fld : nfield) (x y z : R) : outcome R :=
  let '(idx, xi) := nf_search fld [x; y; z] in
  obind (element_values fld idx) (fun ev => Ok (ex_std (fst ev) xi (snd ev))).
(** evaluate_scalar_derivative_2d (253-275) *)
Definition derivative_2d (fld : nfield) (x y : R) (direction : Z) : outcome R :=
  let '(idx, xi) := nf_search fld [x; y] in
  obind (element_values fld idx) (fun ev =>
    let du := ex_deriv (fst ev) direction (snd ev) in Ok (ex_std (fst ev) xi du)).
(** evaluate_scalar_derivative_3d (290-322) *)
Definition derivative_3d (fld : nfield) (x y z : R) (direction : Z) (element_id : option Z) : outcome R :=
  obind (match element_id with
         | None => Ok (nf_search fld [x; y; z])
         | Some i => obind (raw_nth (nf_exp fld) i) (fun e => Ok (i, ex_loc e [x; y; z]))
         end) (fun ix =>
  let '(idx, xi) := ix in
  obind (element_values fld idx) (fun ev =>
    let du := ex_deriv (fst ev) direction (snd ev) in Ok (ex_std (fst ev) xi du))).
(** evaluate_scalar_derivative_local_3d (336-359) *)
Definition derivative_local_3d (fld : nfield) (xi0 xi1 xi2 : R) (direction : Z) (element_id : Z) : outcome R :=
  obind (element_values fld element_id) (fun ev =>
    let du := ex_deriv (fst ev) direction (snd ev) in Ok (ex_std (fst ev) [xi0; xi1; xi2] du)).

(** NESOCellsToNektarExp (utilities.hpp 449-502). std::map by [zassign]; [None]: std::map::at throws. *)
Fixpoint map_find (m : list (Z * Z)) (k : Z) : option Z :=
  match m with [] => None | (k', v) :: r => if Z.eqb k' k then Some v else map_find r k end.
(** first loop 470-475 *)
Fixpoint geom_to_exp (exps : list expansion) (ei : Z) (m : list (Z * Z)) : list (Z * Z) :=
  match exps with [] => m | e :: r => geom_to_exp r (ei + 1)%Z (zassign m (ex_gid e) ei) end.
(** second loop 477-482 *)
Fixpoint cell_to_exp (g2e : list (Z * Z)) (to_nektar : list Z) (cell : Z) (m : list (Z * Z)) : option (list (Z * Z)) :=
  match to_nektar with
  | [] => Some m
  | gid :: r => match map_find g2e gid with
                | None => None
                | Some e => cell_to_exp g2e r (cell + 1)%Z (zassign m cell e)
                end
  end.
Definition make_cells_to_exp (exps : list expansion) (c : cell_ids) : option (list (Z * Z)) :=
  cell_to_exp (geom_to_exp exps 0%Z []) (map_to_nektar c) 0%Z [].
(** get_exp_id (501); get_exp (491-493) reads GetExp of it. *)
Definition get_exp_id (m : list (Z * Z)) (cell : Z) : option Z := map_find m cell.
Definition get_exp (exps : list expansion) (m : list (Z * Z)) (cell : Z) : option (outcome expansion) :=
  match get_exp_id m cell with None => None | Some i => Some (raw_nth exps i) end.

(** relative_error (special_functions.hpp 95-99), absolute_error (108-111), minimum_absrel_error (121-124) *)
Definition relative_error (correct to_test : R) : R :=
  let abs_correct := Rabs correct in
  let abs_error := Rabs (correct - to_test) in
  if Req_EM_T abs_correct 0 then abs_error else abs_error / abs_correct.
Definition absolute_error (correct to_test : R) : R := Rabs (correct - to_test).
(** std::min(a, b) is b if b < a, else a *)
Definition minimum_absrel_error (correct to_test : R) : R :=
  let a := absolute_error correct to_test in
  let b := relative_error correct to_test in
  if Rlt_dec b a then b else a.
