(** Model of usolve/descartes.c, of the sign variation counts of usolve/utils.c and usolve/taylor_shift.c, and
    of the Taylor shift with early sign test. Conventions as in TaylorModel: a polynomial is the list of its
    deg+1 coefficients, constant term first; [None] is an access out of bounds or a loop that does not end. *)
From Coq Require Import ZArith List Arith.
From Verif Require Import ModInvModel TaylorModel.
Import ListNotations.
Local Open Scope bool_scope.
Open Scope Z_scope.

(** usolve.c l.42-45, ilog2_mpz = mpz_sizeinbase (a, 2): number of bits, 1 for 0. *)
Definition sizeb (a : Z) : Z := if a =? 0 then 1 else Z.log2 (Z.abs a) + 1.

(** descartes.c l.34-56, mpz_poly_sgn_variations_coeffs. [i] is the loop index, [s] the last sign; the loop
    stops at the third sign change. *)
Fixpoint sv_loop (i : nat) (u : list Z) (s : Z) (nb : nat) : option nat :=
  match i with
  | O => let? a := getz u 0 in Some (if s * Z.sgn a <? 0 then S nb else nb)
  | S i' => let? a := getz u i in
            if Z.sgn a * s <? 0 then
              if (3 <=? S nb)%nat then Some (S nb) else sv_loop i' u (Z.sgn a) (S nb)
            else sv_loop i' u s nb
  end.
(** [i] is unsigned: for [deg = 0] it starts at ULONG_MAX and upol[i] is out of the array. *)
Definition sgn_variations (u : list Z) (deg : nat) : option nat :=
  match deg with
  | O => None
  | S d => let? a := getz u deg in sv_loop d u (Z.sgn a) 0
  end.

(** usolve.c l.258-279, mpz_poly_sgn_variations_coeffs_is_zero: the same, stopped at the first change. *)
Fixpoint svz_loop (i : nat) (u : list Z) (s : Z) : option nat :=
  match i with
  | O => let? a := getz u 0 in Some (if s * Z.sgn a <? 0 then 1%nat else 0%nat)
  | S i' => let? a := getz u i in
            if Z.sgn a * s <? 0 then Some 1%nat else svz_loop i' u s
  end.
Definition sgn_variations_is_zero (u : list Z) (deg : nat) : option nat :=
  match deg with
  | O => None
  | S d => let? a := getz u deg in svz_loop d u (Z.sgn a)
  end.

(** utils.c l.234-276 USOLVEmpz_poly_sgn_variations_coeffs_bsize and taylor_shift.c l.267-314
    mpz_poly_sgn_variations_coeffs_bsize_with_index: the two bodies are the same except for the output [index],
    which no caller reads. A coefficient of at most N bits is not trusted. The result is [None] for -1. *)
Fixpoint svb_loop (i : nat) (u : list Z) (deg bsize L : nat) (s : Z) (nb : nat) (boo : bool) : option (option nat) :=
  match i with
  | O => let? a := getz u 0 in
         let N := Z.of_nat (L + 1) in
         let boo := if (sizeb a <=? N) || (a =? 0) then false else boo in
         let nb := if (s * Z.sgn a <? 0) && (N <? sizeb a) && negb (a =? 0) then S nb else nb in
         Some (if (3 <=? nb)%nat || boo then Some nb else None)
  | S i' => let? a := getz u i in
            let N := Z.of_nat (Nat.min ((bsize - i + 1) * L + 1) (Nat.min deg ((i + 1) * L + 1))) in
            let boo := if (sizeb a <=? N) || (a =? 0) then false else boo in
            if (Z.sgn a * s <? 0) && (N <? sizeb a) && negb (a =? 0) then
              if (3 <=? S nb)%nat then Some (Some (S nb)) else svb_loop i' u deg bsize L (Z.sgn a) (S nb) boo
            else svb_loop i' u deg bsize L s nb boo
  end.
Definition sgn_variations_bsize (u : list Z) (deg bsize : nat) : option (option nat) :=
  let? a := getz u deg in
  if Z.sgn a =? 0 then Some None
  else match deg with
       | O => None
       | S d => svb_loop d u deg bsize (Nat.log2 bsize) (Z.sgn a) 0 true
       end.

(** ** taylor_shift.c l.323-424, taylorshift1_dac_wsgnvar *)
(** Naive shift of the block of degree [d] at [off] (l.348-358). *)
Definition block_shift_plain (u : list Z) (off d : nat) : option (list Z) :=
  let? b := subz u off (d + 1) in
  let? b' := taylorshift1_naive b d in
  blit u off b'.
Fixpoint block_loop_plain (cnt i sz : nat) (u : list Z) : option (list Z) :=
  match cnt with
  | O => Some u
  | S c => let? u' := block_shift_plain u (i * sz) (sz - 1) in block_loop_plain c (S i) sz u'
  end.
Definition merge_pair_plain (u shifted : list Z) (off sz newdeg : nat) : option (list Z) :=
  let? hi := subz u (off + sz) (newdeg + 1) in
  let t := pmul shifted hi in
  let? lo := subz u off sz in
  let? tlo := subz t 0 sz in
  let? thi := subz t sz (newdeg + 1) in
  let? u' := blit u off (padd lo tlo) in
  blit u' (off + sz) thi.
(** [for (count = nblocks; count >= 1; count--)]. *)
Fixpoint merge_loop_down (count nblocks sz fdeg : nat) (shifted u : list Z) : option (list Z) :=
  match count with
  | O => Some u
  | S c => let? u' := merge_pair_plain u shifted (2 * c * sz) sz
                        (if (count =? nblocks)%nat then fdeg else (sz - 1)%nat) in
           merge_loop_down c nblocks sz fdeg shifted u'
  end.
Fixpoint level_loop_plain (cnt i nblocks sz deg : nat) (tbl : list (list Z)) (u : list Z) : option (nat * list Z) :=
  match cnt with
  | O => Some (sz, u)
  | S c => let? shifted := nth_error tbl i in
           let fdeg := if (1 <? nblocks)%nat then (deg - (nblocks - 1) * sz)%nat else (deg - sz)%nat in
           let nb := (nblocks / 2)%nat in
           let? u' := merge_loop_down nb nb sz fdeg shifted u in
           level_loop_plain c (S i) nb (2 * sz) deg tbl u'
  end.
Definition dac_wsgnvar (u : list Z) (deg : nat) (tbl : list (list Z)) (pwx : nat) : option (option nat) :=
  let nblocks := nblocks_of deg pwx in
  if (nblocks <=? 1)%nat then Some None
  else
    let fdeg := (deg - (nblocks - 1) * pwx)%nat in
    let? u := block_shift_plain u ((nblocks - 1) * pwx) fdeg in
    let? u := block_loop_plain (nblocks - 1) 0 pwx u in
    let? nb := sgn_variations_bsize u deg deg in
    match nb with
    | Some O => Some (Some O)
    | _ =>
        let npwr := Nat.log2 nblocks in
        let? r := level_loop_plain (npwr - 1) 0 nblocks pwx deg tbl u in
        let? shifted := nth_error tbl (npwr - 1) in
        let? u := merge_pair_plain (snd r) shifted 0 (fst r) (deg - fst r) in
        sgn_variations_bsize u deg deg
    end.

(** ** descartes.c l.58-133 *)
(** utils.c l.38-50, mpz_poly_max_bsize_coeffs. *)
Definition max_bsize (u : list Z) : Z := fold_left (fun m a => Z.max m (sizeb a)) u 0.

(** descartes_truncate, l.91-133. [trunc] is computed in unsigned long arithmetic. *)
Definition truncation (lead nbits : Z) (deg : nat) : Z :=
  let lc := sizeb lead in
  let trunc := (nbits - 2 * (Z.of_nat deg + 1)) mod 2 ^ 64 in
  if lc <=? trunc then lc - 1 else trunc.
Definition descartes_truncate (u : list Z) (deg : nat) (nbits : Z) (tbl : list (list Z)) (pwx : nat) : option (option nat) :=
  let? lead := getz u deg in
  let trunc := truncation lead nbits deg in
  dac_wsgnvar (map (fun a => Z.quot a (2 ^ trunc)) u) deg tbl pwx.

(** descartes, l.58-88: number of sign variations, cut at 3, of the numerator of P(1/(x+1)). *)
Definition descartes (u : list Z) (deg : nat) (tbl : list (list Z)) (pwx : nat) : option nat :=
  let r := rev u in
  let? nb := descartes_truncate r deg (max_bsize u) tbl pwx in
  match nb with
  | Some n => Some n
  | None => let? t := taylorshift1_dac r deg tbl pwx in sgn_variations t deg
  end.
