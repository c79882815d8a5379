(** Model of the SimpleSOL fluid equations: solvers/SimpleSOL/EquationSystems/SOLSystem.cpp and Forcing/SourceTerms.cpp. Exact
    reals. Nektar++'s equation of state (VariableConverter::GetPressure) and weak DG advection are arguments. *)
From Verif Require Export M_Fluid M_Plane.
Open Scope R_scope.
Open Scope list_scope.

(** A loop over the points that can fail. *)
Fixpoint fall {A} (z : A) (n : nat) (f : nat -> fres A) : fres (nat -> A) :=
  match n with
  | O => FOk (fun _ => z)
  | S m => let! g := fall z m f in let! v := f m in FOk (fun i => if Nat.eqb i m then v else g i)
  end.
Fixpoint fmapM {A B} (f : A -> fres B) (l : list A) : fres (list B) :=
  match l with [] => FOk [] | a :: r => let! b := f a in let! t := fmapM f r in FOk (b :: t) end.

(** SOLSystem constructor 13-27 *)
Definition sol_names (d : nat) : list string :=
  (if Nat.eqb d 2 then ["rho"; "rhou"; "rhov"; "E"] else ["rho"; "rhou"; "E"])%string.
Definition sol_init (s : fsess) : fres unit :=
  let! _ := fassert (Nat.eqb (fs_space s) 1 || Nat.eqb (fs_space s) 2) in validate_fields s (sol_names (fs_space s)).

(** get_flux_vector 172-218 at one point: [vals] the values of the arrays passed in, [prev] the previous contents of the flux
    (one row per advected field). *)
Definition euler_pt (d : nat) (pres : list R -> R) (rho_idx E_idx : Z) (prev : list (list R)) (vals : list R) : fres (list (list R)) :=
  let! v := fmapM (fun k => aget vals (Z.of_nat k)) (seq 0 (Z.to_nat (E_idx + 1))) in
  let! rho := aget v rho_idx in
  let! o := fnan (rdiv 1 rho) in
  let! mom := fmapM (fun dim => aget v (Z.of_nat dim + 1)) (seq 0 d) in
  let vel := map (fun m => m * o) mom in
  let! flux := aset prev 0 mom in
  let p := pres v in
  let! E := aget v E_idx in
  let! flux := (fix dims (l : list nat) (flux : list (list R)) : fres (list (list R)) :=
    match l with
    | [] => FOk flux
    | dim :: r => let! m := aget mom (Z.of_nat dim) in
        let row := map (fun u => u * m) vel in
        let! x := aget row (Z.of_nat dim) in
        let! row := aset row (Z.of_nat dim) (x + p) in
        let! flux := aset flux (1 + Z.of_nat dim) row in dims r flux
    end) (seq 0 d) flux in
  aset flux (Z.of_nat d + 1) (map (fun u => (E + p) * u) vel).

(** SourceTerms: v_InitObject 14-59 *)
Record srcpar := { sr_smax : R; sr_theta : R; sr_sigma : R; sr_mask : R }.
Definition src_params (ps : string -> option R) : srcpar :=
  {| sr_smax := sparam ps "unrotated_x_max" 110; sr_theta := sparam ps "theta" 0; sr_sigma := sparam ps "srcs_sigma" 2;
     sr_mask := sparam ps "srcs_mask" 1 |}.
Definition src_s (c : srcpar) (x y : R) : R := x * cos (sr_theta c) + y * sin (sr_theta c).
Definition src_mu (c : srcpar) : R := sr_smax c / 2.
Definition rho_prefac (c : srcpar) : dbl := rdiv (sr_mask c * (3989422804 / 10 ^ 31) * 10 ^ 21 * 2) (sr_sigma c).
Definition u_prefac (c : srcpar) : dbl := rdiv (sr_mask c * (7296657414 / 10 ^ 36) * - 10 ^ 26 * 2) (sr_sigma c).
Definition E_prefac (c : srcpar) : dbl := rdiv (sr_mask c * (7978845608 / 10 ^ 14) * 30000 * 2) (sr_sigma c).
(** calc_gaussian 61-64 *)
Definition calc_gaussian (prefac mu sigma s : R) : dbl :=
  do a <- rdiv (- (mu - s) * (mu - s) / 2) sigma; do b <- rdiv a sigma; Some (prefac * exp b).

(** v_Apply 66-119. [phys] are the values of the fields, [X], [Y] the coordinates of the points. *)
Definition addpts (s : fsess) (out : list fld) (ix : Z) (f : nat -> dbl) : fres (list fld) :=
  let! o := aget out ix in
  let! g := fnan (fpts (fs_npts s) f) in aset out ix (vadd o g).
Definition src_fields (s : fsess) (phys : list fld) (out : list fld) : fres (list fld) :=
  (fix go (l : list string) (out : list fld) : fres (list fld) :=
    match l with
    | [] => FOk out
    | t :: r => let six := fget_idx s (t ++ "_src") in
        let! out' := if (0 <=? six)%Z then
            let dix := fget_idx s t in
            if (0 <=? dix)%Z then let! src := aget phys six in upd out dix (fun o => vadd o src) else FOk out
          else FOk out in
        go r out'
    end) ["rho"; "rhou"; "rhov"; "E"]%string out.
Definition src_apply (s : fsess) (c : srcpar) (X Y : fld) (phys out : list fld) : fres (list fld) :=
  let sc := fun i => src_s c (X i) (Y i) in let mu := src_mu c in let sg := sr_sigma c in
  let! rp := fnan (rho_prefac c) in let! up := fnan (u_prefac c) in let! ep := fnan (E_prefac c) in
  let! out := addpts s out (fget_idx s "rho") (fun i => calc_gaussian rp mu sg (sc i)) in
  let! out := addpts s out (fget_idx s "rhou") (fun i => do q <- rdiv (sc i) mu; do g <- calc_gaussian up mu sg (sc i);
    Some (cos (sr_theta c) * (q - 1) * g)) in
  let! out := if Nat.eqb (fs_space s) 2 then
      addpts s out (fget_idx s "rhov") (fun i => do q <- rdiv (sc i) mu; do g <- calc_gaussian up mu sg (sc i);
        Some (sin (sr_theta c) * (q - 1) * g))
    else FOk out in
  let! out := addpts s out (fget_idx s "E") (fun i => do g <- calc_gaussian ep mu sg (sc i); Some (g / 2)) in
  src_fields s phys out.

(** explicit_time_int 104-138 with do_advection 153-164: fields up to and including the energy are advected, then every array is
    negated (the others keep their previous contents [prev]), then the forcing terms are added. [adv k F inn] is the weak DG
    operator for field k with flux F. *)
Definition sol_rhs (adv : nat -> (nat -> list (list R)) -> list fld -> fld) (pres : list R -> R) (s : fsess) (forc : list srcpar)
  (X Y : fld) (fprev : nat -> list (list R)) (phys inn prev : list fld) : fres (list fld) :=
  let E_idx := fget_idx s "E" in
  let! F := fall [] (fs_npts s) (fun i => euler_pt (fs_space s) pres (fget_idx s "rho") E_idx (fprev i) (map (fun f : fld => f i) inn)) in
  let out := imap (fun k o => vneg (if (Z.of_nat k <=? E_idx)%Z then adv k F inn else o)) 0 prev in
  (fix go (l : list srcpar) (out : list fld) : fres (list fld) :=
     match l with [] => FOk out | c :: r => let! out' := src_apply s c X Y phys out in go r out' end) forc out.
