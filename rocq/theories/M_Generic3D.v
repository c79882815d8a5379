(** include/nektar_interface/particle_cell_mapping/newton_generic_3d.hpp (MappingGeneric3D, the Newton implementation of
    curved 3D elements) and its use by x_map_newton_kernel.hpp, with the local memory threaded through explicitly.
    [double] is R; None for a value = a non-finite value was produced. *)
From Verif Require Export M_Loop M_Bary M_Coord M_NewtonMap M_NewtonBind M_Bytes.
From Coq Require Import List.
Import ListNotations.
Open Scope R_scope.

(** What write_data_v asks of Nektar++: the points and barycentric weights of each direction of GetBase(), GetTotPoints(),
    the BwdTrans of the coefficients of each coordinate (95-97), PhysDeriv (119-121), the shape and the exit scalings of
    create_newton_relative_exit_tolerances (155-156). *)
Record xmap := { xm_base : list (list R * list R); xm_tot : nat; xm_phys : nat -> list R;
  xm_deriv : list R -> nat -> list R; xm_scale : pt3; xm_shape : Z }.
(** DataDevice 18-32, with pointers as offsets into the one buffer d_zbw, and DataHost 34-37 *)
Record g3data := { g_shape : Z; g_scale : pt3; g_n0 : nat; g_n1 : nat; g_n2 : nat;
  g_z0 : nat; g_z1 : nat; g_z2 : nat; g_bw0 : nat; g_bw1 : nat; g_bw2 : nat; g_phys : nat; g_deriv : nat;
  g_mem : list R; g_local : nat }.
(** a vector of [n] doubles written by a loop *)
Definition vec (n : nat) (b : buf) : list R := map b (seq 0 n).
Definition rd (l : list R) : buf := fun i => nth i l 0.
(** 98-102: interlaced_tmp.at(3 * ix + c) = physvals_c[ix] *)
Definition interlace3 (n : nat) (p0 p1 p2 : buf) : list R :=
  vec (3 * n) (forr n (fun ix t => upd (upd (upd t (3 * ix + 0) (p0 ix)) (3 * ix + 1) (p1 ix)) (3 * ix + 2) (p2 ix)) (fun _ => 0)).
(** 122-132. [d a b]: the array DaDb. *)
Definition interlace9 (n : nat) (d : nat -> nat -> buf) : list R :=
  vec (9 * n) (forr n (fun ix t =>
    let t := upd t (9 * ix + 0)%nat (d 0%nat 0%nat ix) in let t := upd t (9 * ix + 1)%nat (d 0%nat 1%nat ix) in
    let t := upd t (9 * ix + 2)%nat (d 0%nat 2%nat ix) in let t := upd t (9 * ix + 3)%nat (d 1%nat 0%nat ix) in
    let t := upd t (9 * ix + 4)%nat (d 1%nat 1%nat ix) in let t := upd t (9 * ix + 5)%nat (d 1%nat 2%nat ix) in
    let t := upd t (9 * ix + 6)%nat (d 2%nat 0%nat ix) in let t := upd t (9 * ix + 7)%nat (d 2%nat 1%nat ix) in
    upd t (9 * ix + 8)%nat (d 2%nat 2%nat ix)) (fun _ => 0)).
(** write_data_v 43-158 *)
Definition g3_write (x : xmap) : outcome g3data :=
  match xm_base x with
  | [(z0, bw0); (z1, bw1); (z2, bw2)] =>
      let n0 := length z0 in let n1 := length z1 in let n2 := length z2 in
      let num_physvals := (n0 * n1 * n2)%nat in
      let num_elements := (2 * (n0 + n1 + n2) + 12 * num_physvals)%nat in
      if Nat.eqb (xm_tot x) num_physvals then
        let s_zbw := z0 ++ z1 ++ z2 ++ bw0 ++ bw1 ++ bw2
          ++ interlace3 num_physvals (rd (xm_phys x 0)) (rd (xm_phys x 1)) (rd (xm_phys x 2))
          ++ interlace9 num_physvals (fun a b => rd (xm_deriv x (xm_phys x a) b)) in
        let p_z0 := O in let p_z1 := (p_z0 + n0)%nat in let p_z2 := (p_z1 + n1)%nat in
        let p_bw0 := (p_z2 + n2)%nat in let p_bw1 := (p_bw0 + n0)%nat in let p_bw2 := (p_bw1 + n1)%nat in
        let p_phys := (p_bw2 + n2)%nat in let p_deriv := (p_phys + 3 * num_physvals)%nat in
        if Nat.eqb (p_deriv + 9 * num_physvals) num_elements then
          Ok {| g_shape := xm_shape x; g_scale := xm_scale x; g_n0 := n0; g_n1 := n1; g_n2 := n2;
                g_z0 := p_z0; g_z1 := p_z1; g_z2 := p_z2; g_bw0 := p_bw0; g_bw1 := p_bw1; g_bw2 := p_bw2;
                g_phys := p_phys; g_deriv := p_deriv; g_mem := s_zbw; g_local := (n0 + n1 + n2)%nat |}
        else AssertFail
      else AssertFail
  | _ => AssertFail
  end.

(** newton_residual_v 204-237: the residual, f, and the local memory afterwards *)
Definition g3_resid (d : g3data) (xi p : pt3) (loc : buf) : option (R * pt3 * buf) :=
  let mem := rd (g_mem d) in
  do eta <- generic_to_collapsed_3d (g_shape d) xi;
  let '(eta0, eta1, eta2) := eta in
  let div0 := O in let div1 := (div0 + g_n0 d)%nat in let div2 := (div1 + g_n1 d)%nat in
  do l0 <- preprocess_weights (g_n0 d) eta0 (at_ mem (g_z0 d)) (at_ mem (g_bw0 d)) div0 1 loc;
  do l1 <- preprocess_weights (g_n1 d) eta1 (at_ mem (g_z1 d)) (at_ mem (g_bw1 d)) div1 1 l0;
  do l2 <- preprocess_weights (g_n2 d) eta2 (at_ mem (g_z2 d)) (at_ mem (g_bw2 d)) div2 1 l1;
  let X := compute_dir_210_interlaced_N 3 (g_n0 d) (g_n1 d) (g_n2 d) (at_ mem (g_phys d))
             (at_ l2 div0) (at_ l2 div1) (at_ l2 div2) 1 (fun _ => 0) in
  let '(p0, p1, p2) := p in
  let f0 := X 0%nat - p0 in let f1 := X 1%nat - p1 in let f2 := X 2%nat - p2 in
  Some (get_relative_error_3d (g_scale d) f0 f1 f2, (f0, f1, f2), l2).

(** newton_step_v 164-202: reads the weights the residual left in local memory *)
Definition g3_step (d : g3data) (xi f : pt3) (loc : buf) : option pt3 :=
  let mem := rd (g_mem d) in
  let div0 := O in let div1 := (div0 + g_n0 d)%nat in let div2 := (div1 + g_n1 d)%nat in
  let J := compute_dir_210_interlaced_N 9 (g_n0 d) (g_n1 d) (g_n2 d) (at_ mem (g_deriv d))
             (at_ loc div0) (at_ loc div1) (at_ loc div2) 1 (fun _ => 0) in
  let J0 := at_ J 0 in let J1 := at_ J 3 in let J2 := at_ J 6 in
  let '(xi0, xi1, xi2) := xi in let '(f0, f1, f2) := f in
  do inverse_J <- rdiv 1 (J0 0%nat * (J1 1%nat * J2 2%nat - J1 2%nat * J2 1%nat) -
                          J0 1%nat * (J1 0%nat * J2 2%nat - J1 2%nat * J2 0%nat) +
                          J0 2%nat * (J1 0%nat * J2 1%nat - J1 1%nat * J2 0%nat));
  Some (xi0 + ((J1 1%nat * J2 2%nat - J1 2%nat * J2 1%nat) * (- f0) -
               (J0 1%nat * J2 2%nat - J0 2%nat * J2 1%nat) * (- f1) +
               (J0 1%nat * J1 2%nat - J0 2%nat * J1 1%nat) * (- f2)) * inverse_J,
        xi1 - ((J1 0%nat * J2 2%nat - J1 2%nat * J2 0%nat) * (- f0) -
               (J0 0%nat * J2 2%nat - J0 2%nat * J2 0%nat) * (- f1) +
               (J0 0%nat * J1 2%nat - J0 2%nat * J1 0%nat) * (- f2)) * inverse_J,
        xi2 + ((J1 0%nat * J2 1%nat - J1 1%nat * J2 0%nat) * (- f0) -
               (J0 0%nat * J2 1%nat - J0 1%nat * J2 0%nat) * (- f1) +
               (J0 0%nat * J1 1%nat - J0 1%nat * J1 0%nat) * (- f2)) * inverse_J).
(** set_initial_iteration_v 241-254 *)
Definition g3_init : pt3 := (- (2 / 10), - (2 / 10), - (2 / 10)).

(** XMapNewtonKernel::x_inverse (x_map_newton_kernel.hpp 71-127) on MappingGeneric3D: as [inverse_loop] of M_NewtonBind,
    with the local memory. *)
Fixpoint g3_loop (d : g3data) (p : pt3) (tol : R) (fuel : nat) (xi : pt3) (residual : R) (f : pt3) (diverged : bool)
    (loc : buf) : option pt3 * bool * buf :=
  match fuel with
  | O => (Some xi, Rle_bool residual tol, loc)
  | S k =>
      if Rlt_bool tol residual && negb diverged then
        match g3_step d xi f loc with
        | None => (None, false, loc)
        | Some xin =>
            match g3_resid d xin p loc with
            | None => (None, false, loc)
            | Some (r, f', loc') => g3_loop d p tol k xin r f' (over15 xin) loc'
            end
        end
      else (Some xi, Rle_bool residual tol, loc)
  end.
Definition g3_x_inverse (d : g3data) (p xi_in : pt3) (max_iterations : Z) (tol : R) (initial_override : bool) (loc : buf)
  : option pt3 * bool * buf :=
  let xi := if initial_override then xi_in else g3_init in
  match g3_resid d xi p loc with
  | None => (None, false, loc)
  | Some (r, f, loc') => g3_loop d p tol (Z.to_nat max_iterations) xi r f false loc'
  end.
(** XMapNewtonKernel::x 35-49 *)
Definition g3_x (d : g3data) (xi : pt3) (loc : buf) : option (pt3 * buf) :=
  do r <- g3_resid d xi (0, 0, 0) loc; Some (snd (fst r), snd r).
(** invert, collapse, clamp, uncollapse, residual: map_particles_newton.hpp 337-364, 499-527, x_map_newton.hpp 239-262 *)
Definition g3_try_cell (d : g3data) (p xi_in : pt3) (max_iterations : Z) (tol ctol : R) (initial_override : bool) (loc : buf)
  : option pt3 * buf :=
  let '(x, converged, loc1) := g3_x_inverse d p xi_in max_iterations tol initial_override loc in
  match x with
  | None => (None, loc1)
  | Some xi =>
      match generic_to_collapsed_3d (g_shape d) xi with
      | None => (None, loc1)
      | Some eta0 =>
          let xi' := generic_to_loc_3d (g_shape d) (clamp3 ctol eta0) in
          match g3_resid d xi' p loc1 with
          | None => (None, loc1)
          | Some (r, _, loc2) => ((if Rle_bool r tol && converged then Some xi' else None), loc2)
          end
      end
  end.
(** The loop over start points (map_particles_newton.hpp 488-530, x_map_newton.hpp 229-265), one local memory throughout *)
Fixpoint g3_find (d : g3data) (p : pt3) (max_iterations : Z) (tol ctol : R) (starts : list pt3) (loc : buf) : option pt3 * buf :=
  match starts with
  | [] => (None, loc)
  | s :: r =>
      match g3_try_cell d p s max_iterations tol ctol true loc with
      | (Some xi, l) => (Some xi, l)
      | (None, l) => g3_find d p max_iterations tol ctol r l
      end
  end.
