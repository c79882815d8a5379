(** Double precision version of mod_PyrC of include/nektar_interface/basis_evaluation.hpp. The exact version, with the bounds of the output, is
    in M_Basis. [output] and [output_base] are the end of the list of values written and an index into it, as there. The loop over r (361-384) with
    the term before it (345-347) has the text of the loop of mod_B for px = p + q - 1 (alpha = 2 * px - 1 = 2 * p + 2 * q - 3), with r0_pow_inner as
    the power, up to the order of the two factors of a product: it is modelled by the same function. *)
From Coq Require Import Reals List Bool Arith.
From Flocq Require Import Core.
From Verif Require Import M_RealBase M_Loop M_Grid M_Double M_BorisD M_BasisD.
Import ListNotations.
Open Scope R_scope.

(** for (cx < n) output[cx] = output_base[cx] (310-312, 318-320, 335-337); the two interleaved copies of 335-338 are made one after the other *)
Definition copy_d (base n : nat) (out : list (option R)) : list (option R) := out ++ firstn n (skipn base out).
(** mod_PyrC (296-387); [F] the contractions in mod_B, [G] those in the rows of the pyramid; state (r0_pow, output_base, output) *)
Definition mod_PyrC_d (F : nat -> nat -> fuse) (G : nat -> nat -> nat -> fuse) (T : jtable_d) (nummodes : nat) (z : R) : list (option R) :=
  let out := mod_B_d F T nummodes z in
  let base := nummodes in
  let out := copy_d base (nummodes - 1) out in
  let out := copy_d base ((nummodes - 1) * nummodes / 2) out in
  let base := (base + (nummodes - 1))%nat in
  let one_m_z := b0_d z in let one_p_z := b1_d z in
  snd (forr (nummodes - 2) (fun i (st : option R * nat * list (option R)) =>
      let '(r0_pow, base, out) := st in
      let p := (2 + i)%nat in
      let r0_pow := fmul_d r0_pow one_m_z in
      let l_tmp := (nummodes - p)%nat in
      let out := copy_d base l_tmp (copy_d base l_tmp out) in
      (r0_pow, (base + l_tmp)%nat,
       snd (forr (nummodes - 2) (fun j (st : option R * list (option R)) =>
         let q := (2 + j)%nat in
         let r0_pow_inner := fmul_d (fst st) one_m_z in
         (r0_pow_inner, mod_row_d (G p q) T z one_m_z one_p_z (p + q - 1) r0_pow_inner (nummodes - Nat.max p q) (snd st))) (r0_pow, out))))
    (Some 1, base, out)).
