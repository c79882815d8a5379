(** Model of the Diffusion solver: solvers/Diffusion/EquationSystems/DiffusionSystem.cpp, CwipiDiffTensorSender.cpp,
    CwipiReceiveDiffTensorAndDiffuse.cpp. Exact reals; a field is its value at every quadrature point; Nektar++'s
    Helmholtz solve (followed by BwdTrans) is an argument. *)
From Verif Require Export M_Fluid M_Plane.
Open Scope R_scope.
Open Scope list_scope.

(** load_params 110-126. [svv] is the value of the SolverInfo SpectralVanishingViscosity compared to "True". *)
Record dpar := { dp_eps : R; dp_kpar : R; dp_kperp : R; dp_n : R; dp_theta : R; dp_svv : option (R * R) }.
Definition diff_params (svv : bool) (ps : string -> option R) : dpar :=
  {| dp_eps := sparam ps "epsilon" 1; dp_kpar := sparam ps "k_par" 100; dp_kperp := sparam ps "k_perp" 1;
     dp_n := sparam ps "n" (10 ^ 18); dp_theta := sparam ps "theta" 0 * (- PI / 180);
     dp_svv := if svv then Some (sparam ps "SVVCutoffRatio" (75 / 100), sparam ps "SVVDiffCoeff" (1 / 10)) else None |}.

(** get_collection_type 84-104. The session's COLLECTIONS element, if any, and its DEFAULT attribute, if any;
    NC::ImplementationTypeMap of Nektar++ with NC::eMatrixFree at position 5. *)
Definition impl_types : list string := ["NoImplementationType"; "NoCollection"; "IterPerExp"; "StdMat"; "SumFac"; "MatrixFree"]%string.
Fixpoint find_type (l : list string) (n : string) (i : nat) : option nat :=
  match l with [] => None | a :: r => if String.eqb n a then Some i else find_type r n (S i) end.
Definition get_collection_type (node : option (option string)) : nat :=
  match node with
  | None => 0%nat
  | Some d => let n := match d with Some n => n | None => "NoImplementationType"%string end in
      match find_type impl_types n 0 with Some i => i | None => 0%nat end
  end.
Definition eMatrixFree : nat := 5.

(** The two maps passed to HelmSolve (DiffusionSystem.hpp 57-58): the keys used by this solver. *)
Record hmaps := { hm_lambda : option R; hm_svv_cut : option R; hm_svv_diff : option R; hm_d00 : option R; hm_d01 : option R;
  hm_d11 : option R; hm_v00 : option fld; hm_v01 : option fld; hm_v11 : option fld }.
Definition hm_empty : hmaps := {| hm_lambda := None; hm_svv_cut := None; hm_svv_diff := None; hm_d00 := None; hm_d01 := None;
  hm_d11 := None; hm_v00 := None; hm_v01 := None; hm_v11 := None |}.
Definition set_lambda (h : hmaps) (l : R) : hmaps := {| hm_lambda := Some l; hm_svv_cut := hm_svv_cut h; hm_svv_diff := hm_svv_diff h;
  hm_d00 := hm_d00 h; hm_d01 := hm_d01 h; hm_d11 := hm_d11 h; hm_v00 := hm_v00 h; hm_v01 := hm_v01 h; hm_v11 := hm_v11 h |}.
Definition set_svv (h : hmaps) (c d : R) : hmaps := {| hm_lambda := hm_lambda h; hm_svv_cut := Some c; hm_svv_diff := Some d;
  hm_d00 := hm_d00 h; hm_d01 := hm_d01 h; hm_d11 := hm_d11 h; hm_v00 := hm_v00 h; hm_v01 := hm_v01 h; hm_v11 := hm_v11 h |}.
Definition set_const (h : hmaps) (a b c : R) : hmaps := {| hm_lambda := hm_lambda h; hm_svv_cut := hm_svv_cut h; hm_svv_diff := hm_svv_diff h;
  hm_d00 := Some a; hm_d01 := Some b; hm_d11 := Some c; hm_v00 := hm_v00 h; hm_v01 := hm_v01 h; hm_v11 := hm_v11 h |}.
Definition set_var (h : hmaps) (a b c : fld) : hmaps := {| hm_lambda := hm_lambda h; hm_svv_cut := hm_svv_cut h; hm_svv_diff := hm_svv_diff h;
  hm_d00 := hm_d00 h; hm_d01 := hm_d01 h; hm_d11 := hm_d11 h; hm_v00 := Some a; hm_v01 := Some b; hm_v11 := Some c |}.
(** helmsolve_varcoeffs.size() *)
Definition var_count (h : hmaps) : nat :=
  let c (o : option fld) := match o with Some _ => 1%nat | None => 0%nat end in (c (hm_v00 h) + c (hm_v01 h) + c (hm_v11 h))%nat.

(** setup_helmsolve_coeffs 140-146 *)
Definition diff_tensor (p : dpar) : fres (R * R * R) :=
  let ct := cos (dp_theta p) in let st := sin (dp_theta p) in
  let! pre := fnan (rdiv 2 (3 * dp_n p)) in
  FOk (pre * ((dp_kpar p - dp_kperp p) * ct * ct + dp_kperp p), pre * ((dp_kpar p - dp_kperp p) * ct * st),
       pre * ((dp_kpar p - dp_kperp p) * st * st + dp_kperp p)).
(** setup_helmsolve_coeffs 133-172 *)
Definition setup_helm (p : dpar) (node : option (option string)) (h : hmaps) : fres hmaps :=
  let! h := match dp_svv p with
            | Some (cut, dc) => let! q := fnan (rdiv dc (dp_eps p)) in FOk (set_svv h cut q)
            | None => FOk h end in
  let! d := diff_tensor p in let '(d00, d01, d11) := d in
  FOk (if Nat.eqb (get_collection_type node) eMatrixFree then set_const h d00 d01 d11
       else set_var h (fun _ => d00) (fun _ => d01) (fun _ => d11)).

(** do_implicit_solve 50-78. [helm i] is HelmSolve of field i followed by BwdTrans. *)
Fixpoint implicit_loop (helm : nat -> hmaps -> fld -> fld) (h : hmaps) (L : R) (i : nat) (inn : list fld) : list fld :=
  match inn with [] => [] | f :: r => helm i h (smul (- L) f) :: implicit_loop helm h L (S i) r end.
Definition do_implicit_solve (helm : nat -> hmaps -> fld -> fld) (p : dpar) (h : hmaps) (inn : list fld) (lambda : R)
  : fres (hmaps * list fld) :=
  let! q := fnan (rdiv 1 lambda) in
  let! L := fnan (rdiv q (dp_eps p)) in
  let h := set_lambda h L in
  FOk (h, implicit_loop helm h L 0 inn).

(** do_ode_projection 29-40: forward then backward transform of every field ([proj i]). *)
Definition diff_projection (proj : nat -> fld -> fld) (inn : list fld) : list fld := imap proj 0 inn.

(** CwipiDiffTensorSender::v_PreIntegrate 35-54: the fields passed to Coupling::Send at this step, None when nothing is sent.
    send_arr has as many rows as the map has entries. Reading the map with operator[] inserts a missing key, but the size was
    already taken. *)
Definition sender_pre (h : hmaps) (step : nat) : fres (option (list fld)) :=
  if Nat.eqb step 0 then
    let rows := repeat vzero (var_count h) in
    let v (o : option fld) := match o with Some f => f | None => vzero end in
    let! r := aset rows 0 (v (hm_v00 h)) in
    let! r := aset r 1 (v (hm_v01 h)) in
    let! r := aset r 2 (v (hm_v11 h)) in
    FOk (Some r)
  else FOk None.
(** CwipiReceiveDiffTensorAndDiffuse::v_InitObject 19-31 does not call setup_helmsolve_coeffs. *)
Definition receiver_init (p : dpar) (h : hmaps) : fres hmaps := FOk h.
(** v_PreIntegrate 33-68. [recv] is what Coupling::Receive writes. *)
Definition receiver_pre (node : option (option string)) (recv : list fld) (h : hmaps) (step : nat) : fres hmaps :=
  if Nat.eqb step 0 then
    let! a := aget recv 0 in let! b := aget recv 1 in let! c := aget recv 2 in
    FOk (if Nat.eqb (get_collection_type node) eMatrixFree then set_const h (a 0%nat) (b 0%nat) (c 0%nat) else set_var h a b c)
  else FOk h.
