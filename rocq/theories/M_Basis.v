(** Model of the modal basis code: include/nektar_interface/basis_evaluation.hpp (device kernels),
    src/nektar_interface/basis_reference.cpp (host reference), include/nektar_interface/expansion_looping/*.hpp
    (loops over modes), basis_evaluate_base.hpp (table sizes), function_basis_projection.hpp and
    function_basis_evaluation.hpp (drivers). Exact reals; [fl] is a double, None = inf or NaN.
    The outer [option] of a kernel is None when the program reads uninitialised memory or out of bounds. *)
From Verif Require Export M_Jacobi.

Notation fl := (option R).
Definition fmul (a b : fl) : fl := match a, b with Some x, Some y => Some (x * y) | _, _ => None end.
Definition fadd (a b : fl) : fl := match a, b with Some x, Some y => Some (x + y) | _, _ => None end.

(** * Device kernels, basis_evaluation.hpp *)
(** pn = c_pnm10 * pnm1 * z + c_pnm11 * pnm1 + c_pnm2 * pnm2 with coefficients read at k_stride_n * alpha + nx
    (e.g. 89-92). [pnm1], [pnm2] are None while uninitialised. *)
Definition recur (T : jtable) (alpha nx : nat) (z : R) (pnm1 pnm2 : option R) : option fl :=
  match nth_error (jt_data T) (jt_stride T * alpha + nx), pnm1, pnm2 with
  | Some c, Some a, Some b =>
      Some (match c with None => None | Some (c10, c11, c2) => Some (c10 * a * z + c11 * a + c2 * b) end)
  | _, _, _ => None
  end.
(** The variables pnm1, pnm2 of a row and the output written so far. Writes go to consecutive addresses, so the
    buffer is the list of the values written; the recurrence values themselves are finite unless a coefficient is not,
    in which case [recur] gives Some None and the row is stopped as an error (never reached; see L_Basis). *)
Definition rowst := (option R * option R * list fl)%type.
(** Loop body over qx of mod_B (72-120); the body over r of mod_C (218-267) is the same text with qx = r,
    b1_pow = inner_b1_pow and px = p + q. *)
Definition row_step (T : jtable) (z : R) (px : nat) (b1_pow : fl) (qx : nat) (st : option rowst) : option rowst :=
  match st with
  | None => None
  | Some (pnm1, pnm2, out) =>
      let b0 := 1/2 * (1 - z) in
      let b1 := 1/2 * (1 + z) in
      let alpha := (2 * px - 1)%nat in
      if Nat.eqb px 0 then
        if Nat.eqb qx 0 then Some (pnm1, pnm2, out ++ [Some b0]) else
        if Nat.eqb qx 1 then Some (pnm1, pnm2, out ++ [Some b1]) else
        if Nat.eqb qx 2 then Some (pnm1, Some 1, out ++ [Some (b0 * b1)]) else
        if Nat.eqb qx 3 then let p1 := 2 + 2 * (z - 1) in Some (Some p1, pnm2, out ++ [Some (b0 * b1 * p1)]) else
        match recur T 1 (qx - 2) z pnm1 pnm2 with
        | Some (Some pn) => Some (Some pn, pnm1, out ++ [Some (pn * b0 * b1)])
        | _ => None end
      else if Nat.eqb qx 0 then Some (pnm1, pnm2, out ++ [b1_pow])
      else
        let nx := (qx - 1)%nat in
        if Nat.eqb qx 1 then Some (pnm1, Some 1, out ++ [fmul b1_pow (Some b1)]) else
        if Nat.eqb qx 2 then
          let p1 := 1/2 * (2 * (INR alpha + 1) + (INR alpha + 3) * (z - 1)) in
          Some (Some p1, pnm2, out ++ [fmul (fmul b1_pow (Some b1)) (Some p1)]) else
        match recur T alpha nx z pnm1 pnm2 with
        | Some (Some pn) => Some (Some pn, pnm1, out ++ [fmul (fmul b1_pow (Some b1)) (Some pn)])
        | _ => None end
  end.
(** One row: pn, pnm1, pnm2 declared uninitialised (69, 216), then [n] iterations. *)
Definition mod_row (T : jtable) (z : R) (px : nat) (b1_pow : fl) (n : nat) (out : list fl) : option (list fl) :=
  match forr n (row_step T z px b1_pow) (Some (None, None, out)) with
  | None => None | Some (_, _, out') => Some out' end.
(** mod_B (60-122). b1_pow starts at 1.0 / b0 (67): not finite for z = 1, and stays so. *)
Definition mod_B (T : jtable) (nummodes : nat) (z : R) : option (list fl) :=
  let b0 := 1/2 * (1 - z) in
  match forr nummodes (fun px st =>
      match st with
      | None => None
      | Some (b1_pow, out) =>
          let b1_pow := fmul b1_pow (Some b0) in
          match mod_row T z px b1_pow (nummodes - px) out with None => None | Some out => Some (b1_pow, out) end
      end) (Some (rdiv 1 b0, [])) with
  | None => None | Some (_, out) => Some out end.
(** mod_A (147-174): output[0] and output[1] are written unconditionally (153-154). *)
Definition mod_A (T : jtable) (nummodes : nat) (z : R) : option (list fl) :=
  let b0 := 1/2 * (1 - z) in
  let b1 := 1/2 * (1 + z) in
  let pnm1 := 2 + 2 * (z - 1) in
  let out := [Some b0; Some b1] in
  let out := if Nat.ltb 2 nummodes then out ++ [Some (b0 * b1)] else out in
  let out := if Nat.ltb 3 nummodes then out ++ [Some (b0 * b1 * pnm1)] else out in
  match forr (nummodes - 4) (fun i (st : option rowst) =>
      match st with
      | None => None
      | Some (pnm1, pnm2, out) =>
          let modex := (4 + i)%nat in
          match recur T 1 (modex - 2) z pnm1 pnm2 with
          | Some (Some pn) => Some (Some pn, pnm1, out ++ [Some (b0 * b1 * pn)])
          | _ => None end
      end) (Some (Some pnm1, Some 1, out)) with
  | None => None | Some (_, _, out) => Some out end.
(** mod_C (199-271). *)
Definition mod_C (T : jtable) (nummodes : nat) (z : R) : option (list fl) :=
  let b0 := 1/2 * (1 - z) in
  match forr nummodes (fun p st =>
      match st with
      | None => None
      | Some (outer_pow, out) =>
          let outer_pow := fmul outer_pow (Some b0) in
          match forr (nummodes - p) (fun q st2 =>
              match st2 with
              | None => None
              | Some (inner_pow, out) =>
                  match mod_row T z (p + q) inner_pow (nummodes - p - q) out with
                  | None => None | Some out => Some (fmul inner_pow (Some b0), out) end
              end) (Some (outer_pow, out)) with
          | None => None | Some (_, out) => Some (outer_pow, out) end
      end) (Some (rdiv 1 b0, [])) with
  | None => None | Some (_, out) => Some out end.
(** for (cx < n) output[cx] = output_base[cx] (310-312, 318-320): reads of cells already written, else an error. *)
Definition copy_range (base n : nat) (out : list fl) : option (list fl) :=
  if Nat.leb (base + n) (length out) then Some (out ++ firstn n (skipn base out)) else None.
(** Loop body over r of mod_PyrC (361-384); r = 1 + i. *)
Definition pyr_step (T : jtable) (z : R) (alpha : nat) (r0_pow_inner : fl) (i : nat) (st : option rowst) : option rowst :=
  match st with
  | None => None
  | Some (pnm1, pnm2, out) =>
      let r := (1 + i)%nat in
      let cf := fmul r0_pow_inner (Some (1/2 * (1 + z))) in
      if Nat.eqb r 1 then Some (pnm1, Some 1, out ++ [cf]) else
      if Nat.eqb r 2 then
        let p1 := 1/2 * (2 * (INR alpha + 1) + (INR alpha + 3) * (z - 1)) in
        Some (Some p1, pnm2, out ++ [fmul (Some p1) cf]) else
      match recur T alpha (r - 1) z pnm1 pnm2 with
      | Some (Some pn) => Some (Some pn, pnm1, out ++ [fmul (Some pn) cf])
      | _ => None end
  end.
(** mod_PyrC (296-387). The pointers output and output_base are the end of the list of values written and an index
    into it. The two interleaved copies of 335-338 write disjoint cells and are made one after the other. *)
Definition mod_PyrC (T : jtable) (nummodes : nat) (z : R) : option (list fl) :=
  let one_m_z := 1/2 * (1 - z) in
  match mod_B T nummodes z with
  | None => None
  | Some out =>
      let base := nummodes in
      match copy_range base (nummodes - 1) out with
      | None => None
      | Some out =>
          match copy_range base ((nummodes - 1) * nummodes / 2) out with
          | None => None
          | Some out =>
              let base := (base + (nummodes - 1))%nat in
              match forr (nummodes - 2) (fun i st =>
                  match st with
                  | None => None
                  | Some (r0_pow, base, out) =>
                      let p := (2 + i)%nat in
                      let r0_pow := fmul r0_pow (Some one_m_z) in
                      let l_tmp := (nummodes - p)%nat in
                      match copy_range base l_tmp out with
                      | None => None
                      | Some out =>
                          match copy_range base l_tmp out with
                          | None => None
                          | Some out =>
                              let base := (base + l_tmp)%nat in
                              match forr (nummodes - 2) (fun j st2 =>
                                  match st2 with
                                  | None => None
                                  | Some (r0_pow_inner, out) =>
                                      let q := (2 + j)%nat in
                                      let r0_pow_inner := fmul r0_pow_inner (Some one_m_z) in
                                      let out := out ++ [r0_pow_inner] in
                                      let alpha := (2 * p + 2 * q - 3)%nat in
                                      let maxpq := Nat.max p q in
                                      match forr (nummodes - maxpq - 1) (pyr_step T z alpha r0_pow_inner) (Some (None, None, out)) with
                                      | None => None | Some (_, _, out) => Some (r0_pow_inner, out) end
                                  end) (Some (r0_pow, out)) with
                              | None => None | Some (_, out) => Some (r0_pow, base, out) end
                          end
                      end
                  end) (Some (Some 1, base, out)) with
              | None => None | Some (_, _, out) => Some out end
          end
      end
  end.

(** * Host reference, basis_reference.cpp *)
(** eval_modA_i (12-22) *)
Definition eval_modA_i (p : nat) (z : R) : fl :=
  let b0 := 1/2 * (1 - z) in
  let b1 := 1/2 * (1 + z) in
  if Nat.eqb p 0 then Some b0 else if Nat.eqb p 1 then Some b1 else fmul (Some (b0 * b1)) (jacobi_c (p - 2) z 1 1).
(** eval_modB_ij (32-45); std::pow is the exact power. *)
Definition eval_modB_ij (p q : nat) (z : R) : fl :=
  if Nat.eqb p 0 then eval_modA_i q z
  else if Nat.eqb q 0 then Some ((1/2 * (1 - z)) ^ p)
  else fmul (Some ((1/2 * (1 - z)) ^ p * (1/2) * (1 + z))) (jacobi_c (q - 1) z (2 * p - 1) 1).
(** eval_modC_ijk (57-59) *)
Definition eval_modC_ijk (p q r : nat) (z : R) : fl := eval_modB_ij (p + q) r z.
(** eval_modPyrC_ijk (71-92) *)
Definition eval_modPyrC_ijk (p q r : nat) (z : R) : fl :=
  if Nat.eqb p 0 then eval_modB_ij q r z
  else if Nat.eqb p 1 then (if Nat.eqb q 0 then eval_modB_ij 1 r z else eval_modB_ij q r z)
  else if Nat.ltb q 2 then eval_modB_ij p r z
  else if Nat.eqb r 0 then Some ((1/2 * (1 - z)) ^ (p + q - 2))
  else fmul (Some ((1/2 * (1 - z)) ^ (p + q - 2) * (1/2 * (1 + z)))) (jacobi_c (r - 1) z (2 * p + 2 * q - 3) 1).
(** The loops writing b.at(mode), mode++ : one value appended per iteration. *)
Definition push {A} (v : A) (l : list A) : list A := l ++ [v].
(** eval_modA (147-153), eval_modB (162-172), eval_modC (181-193), eval_modPyrC (203-215); [b] large enough. *)
Definition eval_modA (P : nat) (z : R) : list fl := forr P (fun p => push (eval_modA_i p z)) [].
Definition eval_modB (P : nat) (z : R) : list fl :=
  forr P (fun p => forr (P - p) (fun q => push (eval_modB_ij p q z))) [].
Definition eval_modC (P : nat) (z : R) : list fl :=
  forr P (fun p => forr (P - p) (fun q => forr (P - p - q) (fun r => push (eval_modC_ijk p q r z)))) [].
Definition eval_modPyrC (P : nat) (z : R) : list fl :=
  forr P (fun p => forr P (fun q => forr (P - Nat.max p q) (fun r => push (eval_modPyrC_ijk p q r z)))) [].

Inductive shape := Tri | Quad | Hex | Pyr | Prism | Tet.
Inductive btype := ModA | ModB | ModC | ModPyrC.
(** get_total_num_modes(BasisType, P) (103-138) *)
Definition total_modes_b (b : btype) (P : nat) : nat :=
  match b with
  | ModA => P
  | ModB => forr P (fun p => forr (P - p) (fun _ m => S m)) 0%nat
  | ModC => forr P (fun p => forr (P - p) (fun q => forr (P - p - q) (fun _ m => S m))) 0%nat
  | ModPyrC => forr P (fun p => forr P (fun q => forr (P - Nat.max p q) (fun _ m => S m))) 0%nat
  end.
(** get_total_num_modes(ShapeType, P, &max_n, &max_alpha) (254-348); state (n, alpha, mode). The ints p - 2, q - 1,
    2p - 1, 2p + 2q - 3 may be negative but are only compared by max with a value >= 0: truncated subtraction. *)
Definition tms := (nat * nat * nat)%type.
Definition lambda_A (p : nat) (s : tms) : tms := let '(n, a, m) := s in (Nat.max n (p - 2), Nat.max a 1, m).
Definition lambda_B (p q : nat) (s : tms) : tms := let '(n, a, m) := s in (Nat.max n (q - 1), Nat.max a (2 * p - 1), m).
Definition lambda_C (p q r : nat) (s : tms) : tms := lambda_B (p + q) r s.
Definition lambda_PyrC (p q r : nat) (s : tms) : tms :=
  let s := lambda_B q r s in
  let s := lambda_B 1 r s in
  let s := lambda_B p r s in
  let '(n, a, m) := s in (Nat.max n (r - 1), Nat.max a (2 * p + 2 * q - 3), m).
Definition incm (s : tms) : tms := let '(n, a, m) := s in (n, a, S m).
Definition total_modes_s (sh : shape) (P : nat) : tms :=
  let s0 : tms := (0, 0, 0)%nat in
  match sh with
  | Tri => forr P (fun p => forr (P - p) (fun q s => incm (lambda_B p q (lambda_A p s)))) s0
  | Quad => let '(n, a, _) := lambda_A (P - 1) s0 in (n, a, P * P)%nat
  | Hex => let '(n, a, _) := lambda_A (P - 1) s0 in (n, a, P * P * P)%nat
  | Pyr => forr P (fun p => forr P (fun q => forr (P - Nat.max p q) (fun r s => incm (lambda_PyrC p q r (lambda_A q (lambda_A p s)))))) s0
  | Prism => forr P (fun p => forr P (fun q => forr (P - p) (fun r s => incm (lambda_B p r (lambda_A q (lambda_A p s)))))) s0
  | Tet => forr P (fun p => forr (P - p) (fun q => forr (P - p - q) (fun r s => incm (lambda_C p q r (lambda_B p q (lambda_A p s)))))) s0
  end.
(** eval_modes (362-459): the appended list; [mode] is its length. *)
Definition eval_modes (sh : shape) (P : nat) (eta0 eta1 eta2 : R) : list fl :=
  match sh with
  | Tri => forr P (fun px => forr (P - px) (fun qx b =>
      let etmp0 := if Nat.eqb (length b) 1 then Some 1 else eval_modA_i px eta0 in
      b ++ [fmul etmp0 (eval_modB_ij px qx eta1)])) []
  | Quad => forr P (fun my => forr P (fun mx => push (fmul (eval_modA_i mx eta0) (eval_modA_i my eta1)))) []
  | Hex => forr P (fun mz => forr P (fun my => forr P (fun mx =>
      push (fmul (fmul (eval_modA_i mx eta0) (eval_modA_i my eta1)) (eval_modA_i mz eta2))))) []
  | Pyr => forr P (fun p => forr P (fun q => forr (P - Nat.max p q) (fun r b =>
      let contrib_0 := eval_modA_i p eta0 in
      let contrib_1 := eval_modA_i q eta1 in
      let contrib_2 := eval_modPyrC_ijk p q r eta2 in
      b ++ [if Nat.eqb (length b) 1 then contrib_2 else fmul (fmul contrib_0 contrib_1) contrib_2]))) []
  | Prism => forr P (fun p => forr P (fun q => forr (P - p) (fun r b =>
      let contrib_0 := eval_modA_i p eta0 in
      let contrib_1 := eval_modA_i q eta1 in
      let contrib_2 := eval_modB_ij p r eta2 in
      b ++ [if Nat.eqb p 0 && Nat.eqb r 1 then fmul contrib_1 contrib_2 else fmul (fmul contrib_0 contrib_1) contrib_2]))) []
  | Tet => forr P (fun p => forr (P - p) (fun q => forr (P - p - q) (fun r b =>
      let contrib_0 := eval_modA_i p eta0 in
      let contrib_1 := eval_modB_ij p q eta1 in
      let contrib_2 := eval_modC_ijk p q r eta2 in
      b ++ [if Nat.eqb (length b) 1 then contrib_2
            else if Nat.eqb p 0 && Nat.eqb q 1 then fmul contrib_1 contrib_2
            else fmul (fmul contrib_0 contrib_1) contrib_2]))) []
  end.

(** * BasisEvaluateBase constructor (basis_evaluate_base.hpp 170-226, 251) *)
(** An expansion: its shape and, per direction, (GetNumModes, GetTotNumModes) of the 1D basis (Nektar++). *)
Record expansion := { ex_shape : shape; ex_base : list (nat * nat) }.
Definition shape_eqb (a b : shape) : bool :=
  match a, b with Tri, Tri | Quad, Quad | Hex, Hex | Pyr, Pyr | Prism, Prism | Tet, Tet => true | _, _ => false end.
(** map_total_nummodes *)
Definition tot_map := shape -> nat -> nat.
Definition tm_set (m : tot_map) (s : shape) (d v : nat) : tot_map := fun s' d' => if shape_eqb s s' && Nat.eqb d d' then v else m s' d'.
(** State: max_n, max_alpha, map_total_nummodes, dh_nummodes (so far). *)
Record ctor_st := { cs_n : nat; cs_alpha : nat; cs_tot : tot_map; cs_nummodes : list nat }.
(** The loop over directions (197-211); None: the assertion at 204. *)
Fixpoint ctor_dims (s : shape) (dimx : nat) (base : list (nat * nat)) (nm0 : nat) (max_n : nat) (tot : tot_map) : option (nat * tot_map) :=
  match base with
  | [] => Some (max_n, tot)
  | (nm, tnm) :: base' =>
      let max_n := Nat.max max_n (nm - 1) in
      if negb (Nat.eqb dimx 0) && negb (Nat.eqb nm0 nm) then None
      else ctor_dims s (S dimx) base' nm0 max_n (tm_set tot s dimx (Nat.max (tot s dimx) tnm))
  end.
(** One cell (183-226). dh_nummodes[cell] is the first direction's number of modes; an expansion with no directions
    would leave it unset: not possible, modelled as 0. *)
Definition ctor_cell (st : option ctor_st) (e : expansion) : option ctor_st :=
  match st with
  | None => None
  | Some st =>
      let nm0 := match ex_base e with [] => 0%nat | (nm, _) :: _ => nm end in
      match ctor_dims (ex_shape e) 0 (ex_base e) nm0 (cs_n st) (cs_tot st) with
      | None => None
      | Some (max_n, tot) =>
          let '(n_tmp, alpha_tmp, _) := total_modes_s (ex_shape e) nm0 in
          Some {| cs_n := Nat.max max_n n_tmp; cs_alpha := Nat.max (cs_alpha st) alpha_tmp; cs_tot := tot;
                  cs_nummodes := cs_nummodes st ++ [nm0] |}
      end
  end.
Definition ctor_loop (cells : list expansion) : option ctor_st :=
  fold_left ctor_cell cells (Some {| cs_n := 1; cs_alpha := 1; cs_tot := fun _ _ => 0%nat; cs_nummodes := [] |}).
(** The tables built by the constructor (251-268). *)
Definition ctor_table (st : ctor_st) : jtable := make_table (cs_n st) (cs_alpha st).

(** * Loops over modes, expansion_looping/*.hpp *)
(** evaluate_basis_{0,1,2}_v of each shape (lines 21-47 of each file): the 1D bases used per direction. *)
Definition shape_bases (s : shape) : list btype :=
  match s with
  | Quad => [ModA; ModA] | Tri => [ModA; ModB] | Hex => [ModA; ModA; ModA]
  | Pyr => [ModA; ModA; ModPyrC] | Prism => [ModA; ModA; ModB] | Tet => [ModA; ModB; ModC] end.
Definition eval_b (T : jtable) (b : btype) (P : nat) (z : R) : option (list fl) :=
  match b with ModA => mod_A T P z | ModB => mod_B T P z | ModC => mod_C T P z | ModPyrC => mod_PyrC T P z end.
(** loop_evaluate_v; state (mode, evaluation); [dofs] and local spaces are lists, reads out of bounds give None. *)
Definition rd (l : list fl) (i : nat) : option fl := nth_error l i.
Definition rdR (l : list R) (i : nat) : option fl := match nth_error l i with None => None | Some x => Some (Some x) end.
Notation "'get' x <- e ; f" := (match e with None => None | Some x => f end) (at level 200, x name, e at level 100, f at level 200).
(** quadrilateral.hpp 45-60 *)
Definition loop_evaluate_quad (nummodes : nat) (dofs : list R) (ls0 ls1 : list fl) : option fl :=
  forr nummodes (fun qx => forr nummodes (fun px (st : option fl) =>
    get ev <- st;
    let mode := (qx * nummodes + px)%nat in
    get coeff <- rdR dofs mode; get etmp0 <- rd ls0 px; get etmp1 <- rd ls1 qx;
    Some (fadd ev (fmul (fmul coeff etmp0) etmp1)))) (Some (Some 0)).
(** quadrilateral.hpp 62-80: the list of atomic fetch_add operations, in program order. *)
Definition loop_project_quad (nummodes : nat) (value : R) (ls0 ls1 : list fl) : option (list (nat * fl)) :=
  forr nummodes (fun qx => forr nummodes (fun px (st : option (list (nat * fl))) =>
    get adds <- st;
    let mode := (qx * nummodes + px)%nat in
    get etmp0 <- rd ls0 px; get etmp1 <- rd ls1 qx;
    Some (adds ++ [(mode, fmul (fmul (Some value) etmp0) etmp1)]))) (Some []).
(** triangle.hpp 45-63 *)
Definition loop_evaluate_tri (nummodes : nat) (dofs : list R) (ls0 ls1 : list fl) : option fl :=
  get r <- forr nummodes (fun px => forr (nummodes - px) (fun qx (st : option (nat * fl)) =>
    get s <- st;
    let '(mode, ev) := s in
    get coeff <- rdR dofs mode;
    get etmp0 <- (if Nat.eqb mode 1 then Some (Some 1) else rd ls0 px);
    get etmp1 <- rd ls1 mode;
    Some (S mode, fadd ev (fmul (fmul coeff etmp0) etmp1)))) (Some (O, Some 0));
  Some (snd r).
(** triangle.hpp 65-82 *)
Definition loop_project_tri (nummodes : nat) (value : R) (ls0 ls1 : list fl) : option (list (nat * fl)) :=
  get r <- forr nummodes (fun px => forr (nummodes - px) (fun qx (st : option (nat * list (nat * fl))) =>
    get s <- st;
    let '(mode, adds) := s in
    get etmp0 <- (if Nat.eqb mode 1 then Some (Some 1) else rd ls0 px);
    get etmp1 <- rd ls1 mode;
    Some (S mode, adds ++ [(mode, fmul (fmul (Some value) etmp0) etmp1)]))) (Some (O, []));
  Some (snd r).
(** hexahedron.hpp 48-68; local_space_1[qx] and local_space_2[rx] are read in the outer loops. *)
Definition loop_evaluate_hex (nummodes : nat) (dofs : list R) (ls0 ls1 ls2 : list fl) : option fl :=
  forr nummodes (fun rx (st : option fl) =>
    let mode_r := (rx * nummodes * nummodes)%nat in
    get etmp2 <- rd ls2 rx;
    forr nummodes (fun qx (st : option fl) =>
      let mode_q := (qx * nummodes + mode_r)%nat in
      get l1 <- rd ls1 qx;
      let etmp1 := fmul l1 etmp2 in
      forr nummodes (fun px (st : option fl) =>
        get ev <- st;
        let mode := (px + mode_q)%nat in
        get coeff <- rdR dofs mode; get etmp0 <- rd ls0 px;
        Some (fadd ev (fmul (fmul coeff etmp0) etmp1))) st) st) (Some (Some 0)).
(** hexahedron.hpp 70-91 *)
Definition loop_project_hex (nummodes : nat) (value : R) (ls0 ls1 ls2 : list fl) : option (list (nat * fl)) :=
  forr nummodes (fun rx (st : option (list (nat * fl))) =>
    let mode_r := (rx * nummodes * nummodes)%nat in
    get l2 <- rd ls2 rx;
    let etmp2 := fmul l2 (Some value) in
    forr nummodes (fun qx (st : option (list (nat * fl))) =>
      let mode_q := (qx * nummodes + mode_r)%nat in
      get l1 <- rd ls1 qx;
      let etmp1 := fmul l1 etmp2 in
      forr nummodes (fun px (st : option (list (nat * fl))) =>
        get adds <- st;
        let mode := (px + mode_q)%nat in
        get etmp0 <- rd ls0 px;
        Some (adds ++ [(mode, fmul etmp0 etmp1)])) st) st) (Some []).
(** pyramid.hpp 49-73 *)
Definition loop_evaluate_pyr (nummodes : nat) (dofs : list R) (ls0 ls1 ls2 : list fl) : option fl :=
  get r <- forr nummodes (fun p (st : option (nat * fl)) =>
    get etmp0 <- rd ls0 p;
    forr nummodes (fun q (st : option (nat * fl)) =>
      get etmp1 <- rd ls1 q;
      let l := Nat.max p q in
      forr (nummodes - l) (fun r (st : option (nat * fl)) =>
        get s <- st;
        let '(mode, ev) := s in
        get etmp2 <- rd ls2 mode; get coeff <- rdR dofs mode;
        Some (S mode, fadd ev (if Nat.eqb mode 1 then fmul coeff etmp2 else fmul (fmul (fmul coeff etmp0) etmp1) etmp2))) st) st) (Some (O, Some 0));
  Some (snd r).
(** pyramid.hpp 75-101 *)
Definition loop_project_pyr (nummodes : nat) (value : R) (ls0 ls1 ls2 : list fl) : option (list (nat * fl)) :=
  get r <- forr nummodes (fun p (st : option (nat * list (nat * fl))) =>
    get etmp0 <- rd ls0 p;
    forr nummodes (fun q (st : option (nat * list (nat * fl))) =>
      get etmp1 <- rd ls1 q;
      let l := Nat.max p q in
      forr (nummodes - l) (fun r (st : option (nat * list (nat * fl))) =>
        get s <- st;
        let '(mode, adds) := s in
        get etmp2 <- rd ls2 mode;
        Some (S mode, adds ++ [(mode, if Nat.eqb mode 1 then fmul (Some value) etmp2
                                      else fmul (fmul (fmul (Some value) etmp0) etmp1) etmp2)])) st) st) (Some (O, []));
  Some (snd r).
(** prism.hpp 46-73; state (mode_r, mode, evaluation). *)
Definition loop_evaluate_prism (nummodes : nat) (dofs : list R) (ls0 ls1 ls2 : list fl) : option fl :=
  get r <- forr nummodes (fun p (st : option (nat * (nat * fl))) =>
    get etmp0 <- rd ls0 p;
    get s0 <- st;
    let '(mode_r, st) := s0 in
    get st' <- forr nummodes (fun q (st : option (nat * fl)) =>
      get etmp1 <- rd ls1 q;
      forr (nummodes - p) (fun r (st : option (nat * fl)) =>
        get s <- st;
        let '(mode, ev) := s in
        get etmp2 <- rd ls2 (mode_r + r);
        let tmp := if Nat.eqb p 0 && Nat.eqb r 1 then fmul etmp1 etmp2 else fmul (fmul etmp0 etmp1) etmp2 in
        get coeff <- rdR dofs mode;
        Some (S mode, fadd ev (fmul coeff tmp))) st) (Some st);
    Some ((mode_r + (nummodes - p))%nat, st')) (Some (O, (O, Some 0)));
  Some (snd (snd r)).
(** prism.hpp 75-102 *)
Definition loop_project_prism (nummodes : nat) (value : R) (ls0 ls1 ls2 : list fl) : option (list (nat * fl)) :=
  get r <- forr nummodes (fun p (st : option (nat * (nat * list (nat * fl)))) =>
    get etmp0 <- rd ls0 p;
    get s0 <- st;
    let '(mode_r, st) := s0 in
    get st' <- forr nummodes (fun q (st : option (nat * list (nat * fl))) =>
      get etmp1 <- rd ls1 q;
      forr (nummodes - p) (fun r (st : option (nat * list (nat * fl))) =>
        get s <- st;
        let '(mode, adds) := s in
        get etmp2 <- rd ls2 (mode_r + r);
        Some (S mode, adds ++ [(mode, if Nat.eqb p 0 && Nat.eqb r 1 then fmul (fmul (Some value) etmp1) etmp2
                                      else fmul (fmul (fmul (Some value) etmp0) etmp1) etmp2)])) st) (Some st);
    Some ((mode_r + (nummodes - p))%nat, st')) (Some (O, (O, [])));
  Some (snd (snd r)).
(** tetrahedron.hpp 48-75; state (mode_q, (mode, evaluation)). *)
Definition loop_evaluate_tet (nummodes : nat) (dofs : list R) (ls0 ls1 ls2 : list fl) : option fl :=
  get r <- forr nummodes (fun p (st : option (nat * (nat * fl))) =>
    get etmp0 <- rd ls0 p;
    forr (nummodes - p) (fun q (st : option (nat * (nat * fl))) =>
      get s0 <- st;
      let '(mode_q, st) := s0 in
      get etmp1 <- rd ls1 mode_q;
      get st' <- forr (nummodes - p - q) (fun r (st : option (nat * fl)) =>
        get s <- st;
        let '(mode, ev) := s in
        get etmp2 <- rd ls2 mode; get coeff <- rdR dofs mode;
        Some (S mode, fadd ev (if Nat.eqb mode 1 then fmul coeff etmp2
                               else if Nat.eqb p 0 && Nat.eqb q 1 then fmul (fmul coeff etmp1) etmp2
                               else fmul (fmul (fmul coeff etmp0) etmp1) etmp2))) (Some st);
      Some (S mode_q, st')) st) (Some (O, (O, Some 0)));
  Some (snd (snd r)).
(** tetrahedron.hpp 77-106 *)
Definition loop_project_tet (nummodes : nat) (value : R) (ls0 ls1 ls2 : list fl) : option (list (nat * fl)) :=
  get r <- forr nummodes (fun p (st : option (nat * (nat * list (nat * fl)))) =>
    get etmp0 <- rd ls0 p;
    forr (nummodes - p) (fun q (st : option (nat * (nat * list (nat * fl)))) =>
      get s0 <- st;
      let '(mode_q, st) := s0 in
      get etmp1 <- rd ls1 mode_q;
      get st' <- forr (nummodes - p - q) (fun r (st : option (nat * list (nat * fl))) =>
        get s <- st;
        let '(mode, adds) := s in
        get etmp2 <- rd ls2 mode;
        Some (S mode, adds ++ [(mode, if Nat.eqb mode 1 then fmul (Some value) etmp2
                                      else if Nat.eqb p 0 && Nat.eqb q 1 then fmul (fmul (Some value) etmp1) etmp2
                                      else fmul (fmul (fmul (Some value) etmp0) etmp1) etmp2)])) (Some st);
      Some (S mode_q, st')) st) (Some (O, (O, [])));
  Some (snd (snd r)).
Definition loop_evaluate (s : shape) (P : nat) (dofs : list R) (ls0 ls1 ls2 : list fl) : option fl :=
  match s with
  | Quad => loop_evaluate_quad P dofs ls0 ls1 | Tri => loop_evaluate_tri P dofs ls0 ls1
  | Hex => loop_evaluate_hex P dofs ls0 ls1 ls2 | Pyr => loop_evaluate_pyr P dofs ls0 ls1 ls2
  | Prism => loop_evaluate_prism P dofs ls0 ls1 ls2 | Tet => loop_evaluate_tet P dofs ls0 ls1 ls2 end.
Definition loop_project (s : shape) (P : nat) (value : R) (ls0 ls1 ls2 : list fl) : option (list (nat * fl)) :=
  match s with
  | Quad => loop_project_quad P value ls0 ls1 | Tri => loop_project_tri P value ls0 ls1
  | Hex => loop_project_hex P value ls0 ls1 ls2 | Pyr => loop_project_pyr P value ls0 ls1 ls2
  | Prism => loop_project_prism P value ls0 ls1 ls2 | Tet => loop_project_tet P value ls0 ls1 ls2 end.

(** * Per-particle drivers *)
(** extract_ref_positions (27-49: xi padded with 0 in 2D) then loc_coord_to_loc_collapsed of the shape (the functions
    of coordinate_mapping.hpp, M_Coord). *)
Definition collapse (s : shape) (xi : R * R * R) : option (R * R * R) :=
  let '(x0, x1, x2) := xi in
  match s with
  | Quad => match quad_to_collapsed (x0, x1) with None => None | Some (a, b) => Some (a, b, 0) end
  | Tri => match tri_to_collapsed (x0, x1) with None => None | Some (a, b) => Some (a, b, 0) end
  | Hex => hex_to_collapsed xi | Pyr => pyr_to_collapsed xi | Prism => prism_to_collapsed xi | Tet => tet_to_collapsed xi
  end.
(** prepare_per_dim_basis (basis_evaluate_base.hpp 57-80): the three local spaces; in 2D the third is not used
    (evaluate_basis_2_v is empty). The spaces are disjoint because each output fits its space (C53). *)
Definition prepare (T : jtable) (s : shape) (P : nat) (eta : R * R * R) : option (list fl * list fl * list fl) :=
  let '(e0, e1, e2) := eta in
  match shape_bases s with
  | [b0; b1; b2] => get l0 <- eval_b T b0 P e0; get l1 <- eval_b T b1 P e1; get l2 <- eval_b T b2 P e2; Some (l0, l1, l2)
  | [b0; b1] => get l0 <- eval_b T b0 P e0; get l1 <- eval_b T b1 P e1; Some (l0, l1, [])
  | _ => None
  end.
(** The kernel of FunctionEvaluateBasis (function_basis_evaluation.hpp 101-121, 167-189) for one particle. *)
Definition evaluate_particle (T : jtable) (s : shape) (P : nat) (dofs : list R) (xi : R * R * R) : option fl :=
  match collapse s xi with
  | None => Some None
  | Some eta =>
      get l <- prepare T s P eta;
      let '(l0, l1, l2) := l in
      loop_evaluate s P dofs l0 l1 l2
  end.
(** The kernel of FunctionProjectBasis (function_basis_projection.hpp 98-115, 159-179): the atomic adds it performs,
    relative to the start of the cell's dofs. *)
Definition project_particle (T : jtable) (s : shape) (P : nat) (xi : R * R * R) (value : R) : option (list (nat * fl)) :=
  match collapse s xi with
  | None => None
  | Some eta =>
      get l <- prepare T s P eta;
      let '(l0, l1, l2) := l in
      loop_project s P value l0 l1 l2
  end.

(** * FunctionProjectBasis::project (217-269) *)
(** A cell: its shape, nummodes, coefficient offset and the particles in it (reference position, value). *)
Record pcell := { pc_shape : shape; pc_P : nat; pc_off : nat; pc_parts : list (R * R * R * R) }.
Definition ndim_shapes (ndim : nat) : list shape := if Nat.eqb ndim 2 then [Quad; Tri] else [Hex; Pyr; Prism; Tet].
Definition adds_cell (T : jtable) (c : pcell) : option (list (nat * fl)) :=
  fold_left (fun acc pv =>
    get acc <- acc;
    let '(xi, v) := pv in
    get a <- project_particle T (pc_shape c) (pc_P c) xi v;
    Some (acc ++ map (fun mv => ((pc_off c + fst mv)%nat, snd mv)) a)) (pc_parts c) (Some []).
(** All atomic adds of the kernels launched (239-254), listed in one order: shapes in launch order, cells of the shape
    in order, particles in order, modes in order. An execution performs the same adds in some other order. *)
Definition adds_all (T : jtable) (ndim : nat) (cells : list pcell) : option (list (nat * fl)) :=
  fold_left (fun acc c => get acc <- acc; get a <- adds_cell T c; Some (acc ++ a))
    (flat_map (fun s => filter (fun c => shape_eqb (pc_shape c) s) cells) (ndim_shapes ndim)) (Some []).
(** coeff_atomic_ref.fetch_add: None when out of bounds. *)
Definition add_at (g : list fl) (k : nat) (v : fl) : option (list fl) :=
  match nth_error g k with
  | None => None
  | Some x => Some (firstn k g ++ [fadd x v] ++ skipn (S k) g) end.
Definition apply_adds (adds : list (nat * fl)) (g : option (list fl)) : option (list fl) :=
  fold_left (fun g kv => get g <- g; add_at g (fst kv) (snd kv)) adds g.
(** The zero fill (227-230) and an execution of the adds in the order [order]. *)
Definition project_run (ncoeff : nat) (order : list (nat * fl)) : option (list fl) := apply_adds order (Some (repeat (Some 0) ncoeff)).
