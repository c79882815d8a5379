(** include/nektar_interface/bary_interpolation/bary_evaluation.hpp. Exact reals; [None]: the
    denominator of an evaluation point off the nodes is zero (the code then produces infinities). *)
From Verif Require Export M_Loop.

(** preprocess_weights 24-49. [div + base] is the pointer passed. *)
Definition preprocess_weights (n : nat) (coord : R) (z bw : buf) (base stride : nat) (div : buf) : option buf :=
  let a ix := (base + ix * stride)%nat in
  let d0 := forr n (fun ix d => upd d (a ix) 0) div in
  match find (fun ix => Req_bool (z ix - coord) 0) (seq 0 n) with
  | Some ix => Some (upd d0 (a ix) 1)
  | None =>
      let r := forr n (fun ix st =>
        let bw_over_diff := bw ix / (z ix - coord) in
        (upd (fst st) (a ix) bw_over_diff, snd st + bw_over_diff)) (d0, 0) in
      if Req_bool (snd r) 0 then None
      else let factor := 1 / snd r in
           Some (forr n (fun ix d => upd d (a ix) (d (a ix) * factor)) (fst r))
  end.

(** preprocess_weights_block 65-114. The quotient of a lane on a node (a division by zero) only
    enters that lane's denominator, which is not used. *)
Definition preprocess_weights_block (N n : nat) (coord z bw : buf) (base : nat) (div : buf) : option buf :=
  let a ix b := (base + (ix * N + b))%nat in
  let d0 := forr n (fun ix d => forr N (fun b d => upd d (a ix b) 0) d) div in
  let r1 := forr n (fun ix st => forr N (fun b (st : buf * (nat -> bool)) =>
      if Req_bool (z ix - coord b) 0
      then (upd (fst st) (a ix b) 1, fun j => if Nat.eqb j b then true else snd st j) else st) st) (d0, fun _ => false) in
  let on_point := snd r1 in
  let r2 := forr n (fun ix st => forr N (fun b (st : buf * buf) =>
      let bw_over_diff := bw ix / (z ix - coord b) in
      (upd (fst st) (a ix b) (if on_point b then fst st (a ix b) else bw_over_diff),
       upd (snd st) b (snd st b + bw_over_diff))) st) (fst r1, fun _ => 0) in
  if existsb (fun b => negb (on_point b) && Req_bool (snd r2 b) 0) (seq 0 N) then None
  else let factor b := if on_point b then 1 else 1 / snd r2 b in
       Some (forr n (fun ix d => forr N (fun b d => upd d (a ix b) (d (a ix b) * factor b)) d) (fst r2)).

(** compute_dir_0 125-136 *)
Definition compute_dir_0 (n : nat) (phys div : buf) (stride : nat) : R :=
  forr n (fun ix s => s + div (ix * stride)%nat * phys ix) 0.
(** compute_dir_10 149-162 *)
Definition compute_dir_10 (n0 n1 : nat) (phys div0 div1 : buf) (stride : nat) : R :=
  forr n1 (fun i1 s =>
    let c1 := div1 (i1 * stride)%nat in
    forr n0 (fun i0 s => s + phys (i1 * n0 + i0)%nat * div0 (i0 * stride)%nat * c1) s) 0.
(** compute_dir_10_interlaced, template 179-203: accumulates in tmp, then copies *)
Definition compute_dir_10_interlaced_N (N n0 n1 : nat) (phys div0 div1 : buf) (stride : nat) (output : buf) : buf :=
  let tmp := forr n1 (fun i1 t =>
    let c1 := div1 (i1 * stride)%nat in
    forr n0 (fun i0 t =>
      let inner_stride := ((i1 * n0 + i0) * N)%nat in
      let inner_c := div0 (i0 * stride)%nat * c1 in
      forr N (fun ix t => upd t ix (t ix + phys (inner_stride + ix)%nat * inner_c)) t) t)
    (fun _ => 0) in
  forr N (fun ix o => upd o ix (tmp ix)) output.
(** compute_dir_10_interlaced, run time number of functions, 222-240 *)
Definition compute_dir_10_interlaced (nf n0 n1 : nat) (phys div0 div1 : buf) (stride stride_output : nat) (output : buf) : buf :=
  forr n1 (fun i1 o =>
    let c1 := div1 (i1 * stride)%nat in
    forr n0 (fun i0 o =>
      let inner_stride := ((i1 * n0 + i0) * nf)%nat in
      let inner_c := div0 (i0 * stride)%nat * c1 in
      forr nf (fun ix o => upd o (ix * stride_output)%nat (o (ix * stride_output)%nat + phys (inner_stride + ix)%nat * inner_c)) o) o)
    (forr nf (fun ix o => upd o (ix * stride_output)%nat 0) output).
(** compute_dir_210 255-275 *)
Definition compute_dir_210 (n0 n1 n2 : nat) (phys div0 div1 div2 : buf) (stride : nat) : R :=
  let stride_phys := (n0 * n1)%nat in
  forr n2 (fun i2 s =>
    let c2 := div2 (i2 * stride)%nat in
    forr n1 (fun i1 s =>
      let c1 := c2 * div1 (i1 * stride)%nat in
      forr n0 (fun i0 s => s + phys (i2 * stride_phys + i1 * n0 + i0)%nat * div0 (i0 * stride)%nat * c1) s) s) 0.
(** compute_dir_210_interlaced, template 296-323 *)
Definition compute_dir_210_interlaced_N (N n0 n1 n2 : nat) (phys div0 div1 div2 : buf) (stride : nat) (output : buf) : buf :=
  let stride_phys := (n0 * n1)%nat in
  let tmp := forr n2 (fun i2 t =>
    let c2 := div2 (i2 * stride)%nat in
    forr n1 (fun i1 t =>
      let c1 := c2 * div1 (i1 * stride)%nat in
      forr n0 (fun i0 t =>
        let inner_stride := ((i2 * stride_phys + i1 * n0 + i0) * N)%nat in
        let inner_c := div0 (i0 * stride)%nat * c1 in
        forr N (fun ix t => upd t ix (t ix + phys (inner_stride + ix)%nat * inner_c)) t) t) t)
    (fun _ => 0) in
  forr N (fun ix o => upd o ix (tmp ix)) output.
(** compute_dir_210_interlaced, run time number of functions, 345-371 *)
Definition compute_dir_210_interlaced (nf n0 n1 n2 : nat) (phys div0 div1 div2 : buf) (stride stride_output : nat) (output : buf) : buf :=
  let stride_phys := (n0 * n1)%nat in
  forr n2 (fun i2 o =>
    let c2 := div2 (i2 * stride)%nat in
    forr n1 (fun i1 o =>
      let c1 := c2 * div1 (i1 * stride)%nat in
      forr n0 (fun i0 o =>
        let inner_stride := ((i2 * stride_phys + i1 * n0 + i0) * nf)%nat in
        let inner_c := div0 (i0 * stride)%nat * c1 in
        forr nf (fun ix o => upd o (ix * stride_output)%nat (o (ix * stride_output)%nat + phys (inner_stride + ix)%nat * inner_c)) o) o) o)
    (forr nf (fun ix o => upd o (ix * stride_output)%nat 0) output).
(** compute_dir_210_interlaced_block 392-438 *)
Definition compute_dir_210_interlaced_block (N nf n0 n1 n2 : nat) (phys div0 div1 div2 : buf) (output : buf) : buf :=
  let stride_phys := (n0 * n1)%nat in
  forr n2 (fun i2 o =>
    let b2 b := div2 (i2 * N + b)%nat in
    forr n1 (fun i1 o =>
      let b1 b := div1 (i1 * N + b)%nat * b2 b in
      forr n0 (fun i0 o =>
        let basis_eval b := div0 (i0 * N + b)%nat * b1 b in
        forr nf (fun f o =>
          let inner_stride := ((i2 * stride_phys + i1 * n0 + i0) * nf)%nat in
          let func_coeff := phys (inner_stride + f)%nat in
          forr N (fun b o => upd o (f * N + b)%nat (o (f * N + b)%nat + basis_eval b * func_coeff)) o) o) o) o)
    (forr nf (fun f o => forr N (fun b o => upd o (f * N + b)%nat 0) o) output).

(** evaluate_2d 459-476: both weight arrays live in one buffer *)
Definition evaluate_2d (coord0 coord1 : R) (n0 n1 : nat) (phys div z0 z1 bw0 bw1 : buf) (stride : nat) : option R :=
  match preprocess_weights n0 coord0 z0 bw0 0 stride div with
  | None => None
  | Some d =>
      match preprocess_weights n1 coord1 z1 bw1 (n0 * stride) stride d with
      | None => None
      | Some d => Some (compute_dir_10 n0 n1 phys d (at_ d (n0 * stride)) stride)
      end
  end.
(** evaluate_3d 501-521 *)
Definition evaluate_3d (coord0 coord1 coord2 : R) (n0 n1 n2 : nat) (phys div z0 z1 z2 bw0 bw1 bw2 : buf) (stride : nat) : option R :=
  match preprocess_weights n0 coord0 z0 bw0 0 stride div with
  | None => None
  | Some d =>
      match preprocess_weights n1 coord1 z1 bw1 (n0 * stride) stride d with
      | None => None
      | Some d =>
          match preprocess_weights n2 coord2 z2 bw2 (n0 * stride + n1 * stride) stride d with
          | None => None
          | Some d => Some (compute_dir_210 n0 n1 n2 phys d (at_ d (n0 * stride)) (at_ d (n0 * stride + n1 * stride)) stride)
          end
      end
  end.
