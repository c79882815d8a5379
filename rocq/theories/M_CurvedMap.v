(** MapParticlesNewton<MappingGeneric3D> with its per-geometry data and its local memory: the constructor's tables and the size
    of the local memory block (include/nektar_interface/particle_cell_mapping/map_particles_newton.hpp 80-95, 185-225), and the
    two kernels (254-380, 404-546) as programs of a work-group in which every work item has a block of its own
    (LocalMemoryBlock, NESO-Particles) in one shared memory. *)
From Verif Require Import M_Util.
From Verif Require Export M_Generic3D.
From Coq Require Import List.
Import ListNotations.
Open Scope R_scope.

(** A program of one work item: a result, or an access to the group's memory (what it writes; how it goes on, depending on
    what it read). Simplification: one call of the residual or of the step is one access. *)
Inductive item (A : Type) := Ret (a : A) | Act (write : buf -> buf) (next : buf -> item A).
Arguments Ret {A}. Arguments Act {A}.
(** The memory of the group after the block at [base] became [l]. *)
Definition put_block (base : nat) (loc l : buf) : buf := fun j => if Nat.ltb j base then loc j else l (j - base)%nat.
Definition resid_item {A} (base : nat) (d : g3data) (xi p : pt3) (k : option (R * pt3) -> item A) : item A :=
  Act (fun loc => match g3_resid d xi p (at_ loc base) with Some (_, _, l) => put_block base loc l | None => loc end)
      (fun loc => k match g3_resid d xi p (at_ loc base) with Some (r, f, _) => Some (r, f) | None => None end).
Definition step_item {A} (base : nat) (d : g3data) (xi f : pt3) (k : option pt3 -> item A) : item A :=
  Act (fun loc => loc) (fun loc => k (g3_step d xi f (at_ loc base))).
(** XMapNewtonKernel::x_inverse, x_map_newton_kernel.hpp 71-127 *)
Fixpoint loop_item {A} (base : nat) (d : g3data) (p : pt3) (tol : R) (fuel : nat) (xi : pt3) (residual : R) (f : pt3) (diverged : bool)
    (k : option pt3 * bool -> item A) : item A :=
  match fuel with
  | O => k (Some xi, Rle_bool residual tol)
  | S n =>
      if Rlt_bool tol residual && negb diverged then
        step_item base d xi f (fun o => match o with
          | None => k (None, false)
          | Some xin => resid_item base d xin p (fun o => match o with
              | None => k (None, false)
              | Some (r, f') => loop_item base d p tol n xin r f' (over15 xin) k
              end)
          end)
      else k (Some xi, Rle_bool residual tol)
  end.
Definition inverse_item {A} (base : nat) (d : g3data) (p xi_in : pt3) (max_iterations : Z) (tol : R) (initial_override : bool)
    (k : option pt3 * bool -> item A) : item A :=
  let xi := if initial_override then xi_in else g3_init in
  resid_item base d xi p (fun o => match o with
    | None => k (None, false)
    | Some (r, f) => loop_item base d p tol (Z.to_nat max_iterations) xi r f false k
    end).
(** map_particles_newton.hpp 337-364, 499-527 *)
Definition try_item {A} (base : nat) (d : g3data) (p xi_in : pt3) (max_iterations : Z) (tol ctol : R) (initial_override : bool)
    (k : option pt3 -> item A) : item A :=
  inverse_item base d p xi_in max_iterations tol initial_override (fun res =>
    match fst res with
    | None => k None
    | Some xi =>
        match generic_to_collapsed_3d (M_Generic3D.g_shape d) xi with
        | None => k None
        | Some eta0 =>
            let xi' := generic_to_loc_3d (M_Generic3D.g_shape d) (clamp3 ctol eta0) in
            resid_item base d xi' p (fun o => match o with
              | None => k None
              | Some (r, _) => k (if Rle_bool r tol && snd res then Some xi' else None)
              end)
        end
    end).
(** the loop over start points, 488-530 *)
Fixpoint find_item {A} (base : nat) (d : g3data) (p : pt3) (max_iterations : Z) (tol ctol : R) (starts : list pt3) (k : option pt3 -> item A) : item A :=
  match starts with
  | [] => k None
  | s :: r => try_item base d p s max_iterations tol ctol true (fun o => match o with
      | Some xi => k (Some xi)
      | None => find_item base d p max_iterations tol ctol r k
      end)
  end.
(** the loop over candidates, 320-375 / 475-541. The result None: access outside a table, or an element that needs more local
    memory than the block has. *)
Fixpoint candidates_item (size : nat) (tables : list (option mgeom)) (datas : list (option g3data))
    (try : g3data -> (option pt3 -> item (option particle)) -> item (option particle)) (cands : list Z)
    (k : option (mgeom * pt3) -> item (option particle)) : item (option particle) :=
  match cands with
  | [] => k None
  | i :: r =>
      match rdZ tables i, rdZ datas i with
      | Some (Some g), Some (Some d) =>
          if Nat.leb (g_local d) size then
            try d (fun o => match o with Some xi => k (Some (g, xi)) | None => candidates_item size tables datas try r k end)
          else Ret None
      | _, _ => Ret None
      end
  end.
Record curved_mapper := { cm_map : newton_mapper; cm_data : list (option g3data); cm_local : nat }.
(** one particle: 282-376 / 437-542; [final] selects the second kernel *)
Definition curved_item (m : curved_mapper) (final : bool) (base : nat) (q : particle) : item (option particle) :=
  let nm := cm_map m in let c := nm_conf nm in
  if Nat.eqb (nm_num_geoms nm) 0 then Ret (Some q)
  else if Z.ltb (q_rank q) 0 then
    match nm_lookup nm with
    | None => Ret None
    | Some lk =>
        let p := kernel_pos (nm_ndim nm) q in
        match kernel_candidates lk (q_pos q) with
        | None => Ret None
        | Some cands =>
            candidates_item (cm_local m) (nm_tables nm) (cm_data m)
              (fun d => if final
                 then find_item base d p (newton_max_iteration c) (newton_tol c) (contained_tol c) (grid_starts (nm_ndim nm) (nm_grid_size nm))
                 else try_item base d p (0, 0, 0) (newton_max_iteration c) (newton_tol c) (contained_tol c) false)
              cands
              (fun found => Ret (Some match found with Some (g, xi) => bind_particle (nm_ndim nm) (g_id g) (g_rank g) xi q | None => q end))
        end
    end
  else Ret (Some q).
(** write_data for every geometry (204, 222): the device data at the geometry's lookup index, and the largest local size *)
Fixpoint fill_data (all : list mgeom) (gs : list (mgeom * xmap)) (buf : list (option g3data)) (local : nat) : outcome (list (option g3data) * nat) :=
  match gs with
  | [] => Ok (buf, local)
  | (g, x) :: r =>
      match lookup_id all 0 (g_id g) with
      | None => UB
      | Some i => obind (g3_write x) (fun d =>
          match updZ buf i (Some d) with
          | None => UB
          | Some b => fill_data all r b (Nat.max local (g_local d))
          end)
      end
  end.
Definition make_curved_mapper (conf : store) (geoms : list (mgeom * xmap)) : outcome curved_mapper :=
  match make_newton_mapper 3 conf (map fst geoms) with
  | None => UB
  | Some nm => obind (fill_data (map fst geoms) geoms (repeat None (length geoms)) 0) (fun dl =>
      Ok {| cm_map := nm; cm_data := fst dl; cm_local := snd dl |})
  end.
(** A work-group of particles: item k has the block k * size .. *)
Fixpoint work_group (m : curved_mapper) (final : bool) (k : nat) (qs : list particle) : list (item (option particle)) :=
  match qs with [] => [] | q :: r => curved_item m final (k * cm_local m) q :: work_group m final (S k) r end.
(** One item makes one access. *)
Inductive gstep {A} : list (item A) * buf -> list (item A) * buf -> Prop :=
| gstep_at pre w n post loc : gstep (pre ++ Act w n :: post, loc) (pre ++ n loc :: post, w loc).
Inductive gsteps {A} : list (item A) * buf -> list (item A) * buf -> Prop :=
| gsteps_refl s : gsteps s s
| gsteps_step s t u : gsteps s t -> gstep t u -> gsteps s u.
