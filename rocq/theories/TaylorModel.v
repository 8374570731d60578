(** Model of usolve/taylor_shift.c and of the parts of usolve/utils.c it uses.
    A polynomial stored in an mpz_t array with its degree [deg] is the list of its [deg+1] entries, constant
    term first. GMP and FLINT integer operations are exact. Degrees and indices are unbounded naturals (the
    C type is unsigned long). [None] stands for an access out of the array or a loop that does not end. *)
From Coq Require Import ZArith List Arith.
From Verif Require Import ModInvModel.
Import ListNotations.
Open Scope Z_scope.

(** ** Arrays *)
Definition getz (u : list Z) (j : nat) : option Z := nth_error u j.
Fixpoint setz (u : list Z) (j : nat) (v : Z) : option (list Z) :=
  match u, j with
  | [], _ => None
  | _ :: u', O => Some (v :: u')
  | a :: u', S j' => let? r := setz u' j' v in Some (a :: r)
  end.
(** The [len] entries starting at [off] (pointer [u + off]). *)
Definition subz (u : list Z) (off len : nat) : option (list Z) :=
  if (off + len <=? length u)%nat then Some (firstn len (skipn off u)) else None.
(** Overwrites the entries starting at [off] by [l]. *)
Definition blit (u : list Z) (off : nat) (l : list Z) : option (list Z) :=
  if (off + length l <=? length u)%nat then Some (firstn off u ++ l ++ skipn (off + length l) u) else None.

(** ** taylor_shift.c l.44-51, taylorshift1_naive *)
(** [for (j = deg-1 ; j >= i; j--) upol[j] += upol[j+1]], [cnt] iterations, the first one at [j]. *)
Fixpoint shift_inner (cnt j : nat) (u : list Z) : option (list Z) :=
  match cnt with
  | O => Some u
  | S c => let? a := getz u j in let? b := getz u (j + 1) in
           let? u' := setz u j (a + b) in shift_inner c (j - 1) u'
  end.
(** [for (i = 0; i <= deg-1; i++)], [cnt] iterations, the first one at [i]. *)
Fixpoint shift_outer (cnt i deg : nat) (u : list Z) : option (list Z) :=
  match cnt with
  | O => Some u
  | S c => let? u' := shift_inner (deg - i) (deg - 1) u in shift_outer c (S i) deg u'
  end.
(** [deg] is unsigned: for [deg = 0] the bound [deg-1] is ULONG_MAX and the loop does not end. *)
Definition taylorshift1_naive (u : list Z) (deg : nat) : option (list Z) :=
  match deg with O => None | _ => shift_outer deg 0 deg u end.

(** ** utils.c l.55-82, mpz_poly_remove_binary_content *)
(** mpz_scan1 (x, 0) for x <> 0. *)
Fixpoint ctz_pos (p : positive) : nat := match p with xO q => S (ctz_pos q) | _ => O end.
Definition scan1 (x : Z) : nat := match x with Z0 => O | Zpos p | Zneg p => ctz_pos p end.
(** [for ( ; (i <= deg) && c; i++) if (upol[i] != 0 && nbit < c) c = nbit]. *)
Fixpoint content_loop (c : nat) (u : list Z) : nat :=
  match u with
  | [] => c
  | a :: u' => if (c =? 0)%nat then c
               else if a =? 0 then content_loop c u'
               else content_loop (if (scan1 a <? c)%nat then scan1 a else c) u'
  end.
(** [while (upol[i] == 0) i++; c = bit_one_index(upol[i])] and the loop above. *)
Fixpoint content_start (u : list Z) : option nat :=
  match u with
  | [] => None
  | a :: u' => if a =? 0 then content_start u' else Some (content_loop (scan1 a) (a :: u'))
  end.
Definition remove_binary_content (u : list Z) : option (nat * list Z) :=
  if last u 0 =? 0 then Some (O, u)
  else let? c := content_start u in
       if (c =? 0)%nat then Some (O, u) else Some (c, map (fun x => x / 2 ^ Z.of_nat c) u).

(** ** taylor_shift.c l.90-98, rescale_upoly_2exp *)
Definition rescale_2exp (u : list Z) (c : nat) : list Z :=
  if (c =? 0)%nat then u else map (fun x => x * 2 ^ Z.of_nat c) u.

(** ** univmultiply.c l.96-126, mpz_poly_mul: FLINT's product, [deg1+deg2+1] entries. *)
Fixpoint padd (p q : list Z) : list Z :=
  match p, q with
  | [], _ => q
  | _, [] => p
  | a :: p', b :: q' => (a + b) :: padd p' q'
  end.
Fixpoint pmul (p q : list Z) : list Z :=
  match p with
  | [] => []
  | [a] => map (Z.mul a) q
  | a :: p' => padd (map (Z.mul a) q) (0 :: pmul p' q)
  end.

(** ** taylor_shift.c l.139-236, taylorshift1_dac *)
(** One block: content removal, naive shift, content restored (l.170-185). *)
Definition block_shift (u : list Z) (off d : nat) : option (list Z) :=
  let? b := subz u off (d + 1) in
  let? r := remove_binary_content b in
  let? b' := taylorshift1_naive (snd r) d in
  blit u off (rescale_2exp b' (fst r)).
(** The parallel loop over the blocks; the blocks are disjoint, the model runs them in order. *)
Fixpoint block_loop (cnt i nblocks sz fdeg : nat) (u : list Z) : option (list Z) :=
  match cnt with
  | O => Some u
  | S c => let? u' := block_shift u (i * sz) (if (i <? nblocks - 1)%nat then (sz - 1)%nat else fdeg) in
           block_loop c (S i) nblocks sz fdeg u'
  end.
(** One merge (l.208-226): the upper block is multiplied by the table entry (a power of X+1), the low [sz]
    coefficients of the product are added to the lower block, the others replace the upper block. The
    buffer tmpol only holds the product; what the swap leaves in it is never read and is not modelled. *)
Definition merge_pair (u shifted : list Z) (off sz newdeg : nat) : option (list Z) :=
  let? hi := subz u (off + sz) (newdeg + 1) in
  let? r := remove_binary_content hi in
  let t := rescale_2exp (pmul shifted (snd r)) (fst r) in
  let? lo := subz u off sz in
  let? tlo := subz t 0 sz in
  let? thi := subz t sz (newdeg + 1) in
  let? u' := blit u off (padd lo tlo) in
  blit u' (off + sz) thi.
(** [for (count = 1; count <= nblocks; count++)], [cnt] iterations left. *)
Fixpoint merge_loop (cnt count nblocks sz fdeg : nat) (shifted u : list Z) : option (list Z) :=
  match cnt with
  | O => Some u
  | S c => let? u' := merge_pair u shifted (2 * (count - 1) * sz) sz
                        (if (count =? nblocks)%nat then fdeg else (sz - 1)%nat) in
           merge_loop c (S count) nblocks sz fdeg shifted u'
  end.
(** [for (i = 0; i < npowers - 1; i++)], [cnt] iterations left. *)
Fixpoint level_loop (cnt i nblocks sz deg : nat) (tbl : list (list Z)) (u : list Z) : option (nat * list Z) :=
  match cnt with
  | O => Some (sz, u)
  | S c => let? shifted := nth_error tbl i in
           let fdeg := if (1 <? nblocks)%nat then (deg - (nblocks - 1) * sz)%nat else (deg - sz)%nat in
           let nb := (nblocks / 2)%nat in
           let? u' := merge_loop nb 1 nb sz fdeg shifted u in
           level_loop c (S i) nb (2 * sz) deg tbl u'
  end.
Definition nblocks_of (deg sz : nat) : nat :=
  if (deg <=? sz)%nat then 0%nat else (2 ^ Nat.log2 (deg / sz))%nat.
Definition taylorshift1_dac (u : list Z) (deg : nat) (tbl : list (list Z)) (sz : nat) : option (list Z) :=
  let nblocks := nblocks_of deg sz in
  if (nblocks <=? 1)%nat then taylorshift1_naive u deg
  else
    let fdeg := (deg - (nblocks - 1) * sz)%nat in
    let? u := block_loop nblocks 0 nblocks sz fdeg u in
    let npowers := Nat.log2 nblocks in
    let? r := level_loop (npowers - 1) 0 nblocks sz deg tbl u in
    let? shifted := nth_error tbl (npowers - 1) in
    merge_pair (snd r) shifted 0 (fst r) (deg - fst r).

(** ** usolve.c l.115-127 and l.213-231, compute_shift_pwx and allocate_shift_pwx: the table of the powers. *)
Fixpoint squares (cnt : nat) (p : list Z) : list (list Z) :=
  match cnt with O => [] | S c => p :: squares c (pmul p p) end.
Definition compute_shift_pwx (npwr pwx : nat) : option (list (list Z)) :=
  match npwr with
  | O => Some []
  | _ => let? p := taylorshift1_naive (repeat 0 pwx ++ [1]) pwx in Some (squares npwr p)
  end.
(** usolve.c l.129-136, compute_degpower: [while (pwr-1 >= 256) pwr = pwr / 2]; does not end for 0. *)
Fixpoint degpower_loop (fuel pwr : nat) : option nat :=
  match fuel with
  | O => None
  | S f => match pwr with
           | O => None
           | S p => if (256 <=? p)%nat then degpower_loop f (pwr / 2) else Some pwr
           end
  end.
Definition compute_degpower (deg : nat) : option nat := degpower_loop (S deg) deg.
