(** Model of ImplicitHelper (include/solvers/helpers/implicit_helper.hpp): the implicit stage of the Rogers-Ricci solver. Exact reals.
    The Newton solver, the projection and the right hand side are oracles. Arrays are lists; one per rank where ranks communicate. *)
From Verif Require Export M_Fluid.
From Coq Require Import List.
Import ListNotations.
Open Scope R_scope.

(** The members that change or are used below. *)
Record ihelper := { ih_nf : nat; ih_np : nat; ih_norm : R; ih_jfe : R; ih_time : R; ih_lambda : R; ih_stages : Z; ih_newton : Z; ih_lin : Z }.
(** Constructor 13-32 and the member initialisers 113-121; [npts]: GetNpoints of the fields. *)
Definition ih_make (npts : list nat) (nf : nat) : fres ihelper :=
  match npts with
  | [] => FUB
  | n :: _ => let! u := fassert (forallb (fun m => Nat.eqb m n) npts) in
      FOk {| ih_nf := nf; ih_np := n; ih_norm := -1; ih_jfe := 5 / 10 ^ 8; ih_time := 0; ih_lambda := 0; ih_stages := 0; ih_newton := 0; ih_lin := 0 |}
  end.
(** init_non_lin_sys_solver 83-84: JacobiFreeEps, default 5e-8. The other parameters go to the solver. *)
Definition ih_init (jfe : option R) (h : ihelper) : ihelper :=
  {| ih_nf := ih_nf h; ih_np := ih_np h; ih_norm := ih_norm h; ih_jfe := match jfe with Some x => x | None => 5 / 10 ^ 8 end;
     ih_time := ih_time h; ih_lambda := ih_lambda h; ih_stages := ih_stages h; ih_newton := ih_newton h; ih_lin := ih_lin h |}.

(** Vmath::Vcopy(n, src, 1, dst + off, 1): outside the arrays it is undefined. *)
Definition vcopy (n : nat) (src : list R) (off : nat) (dst : list R) : fres (list R) :=
  if (Nat.leb n (length src) && Nat.leb (off + n) (length dst))%bool then FOk (firstn off dst ++ firstn n src ++ skipn (off + n) dst) else FUB.
(** 49-55: into the uninitialised array [mem] *)
Definition flatten (nf np : nat) (in_pts : list (list R)) (mem : list R) : fres (list R) :=
  fold_left (fun acc ifld => let! a := acc in match nth_error in_pts ifld with None => FUB | Some f => vcopy np f (ifld * np) a end) (seq 0 nf) (FOk mem).
(** 61-64 *)
Definition unflatten (nf np : nat) (out_flat : list R) (out_pts : list (list R)) : fres (list (list R)) :=
  fold_left (fun acc ifld => let! a := acc in
    match nth_error a ifld with
    | None => FUB
    | Some f => let! f' := vcopy np (skipn (ifld * np) out_flat) 0 f in FOk (firstn ifld a ++ f' :: skipn (S ifld) a)
    end) (seq 0 nf) (FOk out_pts).

(** Vmath::Dot(n, x, x) *)
Definition dot (n : nat) (x : list R) : R := fold_left (fun a i => a + nth i x 0 * nth i x 0) (seq 0 n) 0.
(** calc_ref_vals 139-156 on all ranks ([nps]: points per rank, [arrs]: the ranks' arrays); AllReduce(ReduceSum) adds the ranks' arrays. *)
Definition fld_norms (nf np : nat) (arr : list R) : list R := map (fun ifld => dot np (skipn (ifld * np) arr)) (seq 0 nf).
Definition all_reduce (nf : nat) (vals : list (list R)) : list R := map (fun i => fold_left (fun a v => a + nth i v 0) vals 0) (seq 0 nf).
Definition calc_ref_vals (nf : nat) (nps : list nat) (arrs : list (list R)) : R :=
  fold_left Rplus (all_reduce nf (map (fun p => fld_norms nf (fst p) (snd p)) (combine nps arrs))) 0.

(** Vmath::Svtvp (a x + y), Vsub, Smul on the first n entries *)
Definition vec2 (n : nat) (op : R -> R -> R) (x y : list R) : fres (list R) :=
  if (Nat.leb n (length x) && Nat.leb n (length y))%bool then FOk (map (fun p => op (nth p x 0) (nth p y 0)) (seq 0 n)) else FUB.
Fixpoint fmapM {A B} (f : A -> fres B) (l : list A) : fres (list B) :=
  match l with [] => FOk [] | a :: r => let! b := f a in let! bs := fmapM f r in FOk (b :: bs) end.
(** The fields of a flat array: pointers in_arr_flat + ifld*n_pts (185-191); each view extends to the end of the flat array. *)
Definition views (nf np : nat) (flat : list R) : list (list R) := map (fun ifld => skipn (ifld * np) flat) (seq 0 nf).
(** DoProjection then DoOdeRhs (208-209), on all ranks: time, views of the input -> per rank and field the right hand side. *)
Notation odeop := (R -> list (list (list R)) -> list (list (list R))).
(** One rank of non_lin_sys_evaluator 211-219: rhs values [o], input [inn], reference source [src]. The output fields are the consecutive parts of
    the flat output. *)
Definition resid_rank (lam : R) (nf np : nat) (inn src : list R) (o : list (list R)) : fres (list R) :=
  let! fs := fmapM (fun ifld =>
      match nth_error o ifld with
      | None => FUB
      | Some f => let! t := vec2 np (fun x y => - lam * x + y) f (skipn (ifld * np) inn) in vec2 np Rminus t (skipn (ifld * np) src)
      end) (seq 0 nf) in
  FOk (concat fs).
(** non_lin_sys_evaluator_1D 181-193 on all ranks *)
Definition residual (ode : odeop) (h : ihelper) (nps : list nat) (src inn : list (list R)) : fres (list (list R)) :=
  let o := ode (ih_time h) (map (fun p => views (ih_nf h) (fst p) (snd p)) (combine nps inn)) in
  fmapM (fun q => match q with (np, (i, (s, f))) => resid_rank (ih_lambda h) (ih_nf h) np i s f end) (combine nps (combine inn (combine src o))).
(** matrix_multiply_MF 222-243 on all ranks *)
Definition mf_eps (h : ihelper) (v : list (list R)) : dbl :=
  let magn := fold_left (fun a x => a + dot (length x) x) v 0 in
  do sn <- dsqrt (ih_norm h); do q <- rdiv (sn + 1) magn; do sq <- dsqrt q; Some (ih_jfe h * sq).
Definition matrix_multiply (ode : odeop) (h : ihelper) (nps : list nat) (src ref_sln ref_res v : list (list R)) : fres (list (list R)) :=
  let! eps := fnan (mf_eps h v) in
  let! sp := fmapM (fun p => vec2 (length (fst p)) (fun x y => eps * x + y) (fst p) (snd p)) (combine v ref_sln) in
  let! rp := residual ode h nps src sp in
  let! d := fmapM (fun p => match p with (x, (r, f)) => vec2 (length x) Rminus r f end) (combine v (combine rp ref_res)) in
  let! ie := fnan (rdiv 1 eps) in
  FOk (map (map (fun x => ie * x)) d).
(** do_null_precon 159-162 *)
Definition null_precon (inn out : list R) : fres (list R) := vcopy (length inn) inn 0 out.

(** implicit_time_int 38-65 and implicit_time_int_1D 167-175 on one rank of a serial run. [solve]: SolveSystem (iterations, result written to
    the output array) and GetNtotLinSysIts, called with the helper as set by then. [mem], [mem']: the two uninitialised flat arrays. *)
Definition implicit_time_int (solve : ihelper -> list R -> list R -> Z * list R * Z) (h : ihelper) (in_pts out_pts : list (list R)) (mem mem' : list R) (time lambda : R) : fres (ihelper * list (list R)) :=
  let! flat := flatten (ih_nf h) (ih_np h) in_pts mem in
  let h1 := {| ih_nf := ih_nf h; ih_np := ih_np h; ih_norm := calc_ref_vals (ih_nf h) [ih_np h] [flat]; ih_jfe := ih_jfe h; ih_time := time; ih_lambda := lambda;
               ih_stages := ih_stages h; ih_newton := ih_newton h; ih_lin := ih_lin h |} in
  let '(its, out, lin) := solve h1 flat mem' in
  let! out_pts' := unflatten (ih_nf h) (ih_np h) out out_pts in
  FOk ({| ih_nf := ih_nf h1; ih_np := ih_np h1; ih_norm := ih_norm h1; ih_jfe := ih_jfe h1; ih_time := ih_time h1; ih_lambda := ih_lambda h1;
          ih_stages := ih_stages h1 + 1; ih_newton := ih_newton h1 + its; ih_lin := ih_lin h1 + lin |}, out_pts').
