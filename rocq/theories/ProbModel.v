(** Model of the probabilistic linear algebra over prime fields (option -l 44). Sources:
    /repo/src/neogb/la_ff_8.c l.867-1069, la_ff_16.c l.719-921, la_ff_32.c l.2299-2499. *)
From Coq Require Import ZArith Arith List Bool Lia.
From Verif Require Import ModInvModel LaModel.
Import ListNotations.
Open Scope Z_scope.

(** Conversion to int32_t. *)
Definition to_i32 (x : Z) : Z := let y := x mod 2 ^ 32 in if y <? 2 ^ 31 then y else y - 2 ^ 32.

(** la_ff_32.c l.2345-2347: number of blocks and rows per block. [floor(sqrt(nrl/3))] is the integer square root: the
    argument is an integer below 2^32, exact as a double, and the square root is correctly rounded. *)
Definition nblocks (nrl : Z) : Z := Z.sqrt (nrl / 3) + 1.
Definition rpb (nrl : Z) : Z := nrl / nblocks nrl + (if nrl mod nblocks nrl =? 0 then 0 else 1).
(** l.2364-2365: [nbl] and [nrbl] of block i; products in uint32_t, results converted to int32_t. *)
Definition blk_start (nrl i : Z) : Z := (i * rpb nrl) mod 2 ^ 32.
Definition blk_end (nrl i : Z) : Z :=
  let e := ((i + 1) * rpb nrl) mod 2 ^ 32 in to_i32 (if e <? nrl then e else nrl).
Definition blk_len (nrl i : Z) : Z := to_i32 (blk_end nrl i mod 2 ^ 32 - blk_start nrl i).

(** l.2377, la_ff_8.c l.924, la_ff_16.c l.776: a multiplier made from the value of rand(). *)
Definition kdraw (k : kern) (p x : Z) : Z :=
  match k with K8 | K16 => Z.rem x p | _ => Z.land x (2 ^ 15 - 1) end.
(** l.2376-2378: nrbl multipliers (the comparison [j < nrbl] is unsigned) written into an array of rpb entries. *)
Definition draw (k : kern) (p nrl i : Z) (rand : nat -> Z) : option (list Z) :=
  let n := blk_len nrl i mod 2 ^ 32 in
  if n <=? rpb nrl then Some (map (fun j => kdraw k p (rand j)) (seq 0 (Z.to_nat n))) else None.

(** l.2383-2404: one row of the block. mod2 = fc * fc, which for fc < 2^31 is not reduced by the loop l.2340-2342. The
    subtraction and the correction are those of the 31 bit kernel, one entry after the other, in blocks of UNROLL after
    the first [os] ones. *)
Definition csub (mod2 m : Z) (t : nat * Z) (dr : list Z) : option (list Z) :=
  let? x := add_at K31 m t dr in fix_at K31 mod2 t x.
Fixpoint csub_blocks (mod2 m : Z) (r : srow) (dr : list Z) : option (list Z) :=
  match r with
  | [] => Some dr
  | a :: b :: c :: d :: r' => let? dr' := each (csub mod2 m) [a; b; c; d] dr in csub_blocks mod2 m r' dr'
  | _ => None
  end.
Definition csub_row (mod2 m : Z) (r : srow) (dr : list Z) : option (list Z) :=
  let os := preloop r in
  let? dr' := each (csub mod2 m) (firstn os r) dr in csub_blocks mod2 m (skipn os r) dr'.
(** l.2383: [for (k = 0, m = i*rpb; m < nbl; ++k, ++m)], the comparison unsigned. *)
Fixpoint csub_rows (mod2 : Z) (tr : list srow) (cnt m : nat) (mul : list Z) (dr : list Z) : option (list Z) :=
  match cnt with
  | O => Some dr
  | S cnt' => let? r := nth_error tr m in
              match mul with
              | [] => None
              | x :: mul' => let? dr' := csub_row mod2 x r dr in csub_rows mod2 tr cnt' (S m) mul' dr'
              end
  end.
Definition combined (p : Z) (ncols : nat) (tr : list srow) (i : Z) (mul : list Z) : option (list Z) :=
  let nrl := Z.of_nat (length tr) in
  let? mod2 := chk 64 (p * p) in
  csub_rows mod2 tr (Z.to_nat (blk_end nrl i mod 2 ^ 32 - blk_start nrl i)) (Z.to_nat (blk_start nrl i)) mul (repeat 0 ncols).

(** State of a block: at the head of the loop [while (bctr < nrbl)]; working on a drawn row; finished. The last draw
    is remembered in the finished state when the reduction gave zero (no counterpart in the code). [sc] is 0 for a new
    row: [sc = sc < ds[0] ? sc : ds[0]] starting at 0. *)
Inductive bstate :=
| Bidle (b : Z)
| Bwork (b : Z) (mul : list Z) (s : rstate)
| Bend (last : option (list Z)).
Definition blk_step (k : kern) (p : Z) (ncl ncols : nat) (tr : list srow) (i : Z) (rand : nat -> Z) (pivs : nat -> option srow) (s : bstate)
  : option ((nat -> option srow) * bstate) :=
  let nrl := Z.of_nat (length tr) in
  match s with
  | Bidle b => if b <? blk_len nrl i mod 2 ^ 32
               then let? mul := draw k p nrl i rand in
                    let? dr := combined p ncols tr i mul in
                    Some (pivs, Bwork b mul (Red 0 dr 0))
               else Some (pivs, Bend None)
  | Bwork b mul DoneZero => Some (pivs, Bend (Some mul))                        (* bctr = nrbl; break; l.2418-2421 *)
  | Bwork b mul (DonePiv _) => Some (pivs, Bidle (b + 1))                       (* bctr++, l.2435 *)
  | Bwork b mul s' => let? q := row_step k p ncl ncols pivs s' in Some (fst q, Bwork b mul (snd q))
  | Bend l => Some (pivs, Bend l)
  end.
(** All blocks: an event names the block that advances and supplies the values of rand() should it draw. Every number
    of threads and every assignment of blocks to threads is covered. *)
Record pshared := { ps_pivs : nat -> option srow; ps_blks : list bstate }.
Definition psys_step (k : kern) (p : Z) (ncl ncols : nat) (tr : list srow) (e : nat * (nat -> Z)) (s : pshared) : option pshared :=
  match nth_error (ps_blks s) (fst e) with
  | None => Some s
  | Some b => let? q := blk_step k p ncl ncols tr (Z.of_nat (fst e)) (snd e) (ps_pivs s) b in
              Some {| ps_pivs := fst q; ps_blks := lset (ps_blks s) (fst e) (snd q) |}
  end.
Fixpoint psys_run (k : kern) (p : Z) (ncl ncols : nat) (tr : list srow) (evs : list (nat * (nat -> Z))) (s : pshared) : option pshared :=
  match evs with [] => Some s | e :: es => let? s' := psys_step k p ncl ncols tr e s in psys_run k p ncl ncols tr es s' end.
Definition bfinished (s : bstate) : bool := match s with Bend _ => true | _ => false end.
Definition init_pshared (rr : nat -> option srow) (tr : list srow) : pshared :=
  {| ps_pivs := rr; ps_blks := repeat (Bidle 0) (Z.to_nat (nblocks (Z.of_nat (length tr)))) |}.
(** Whole function; the inter-reduction l.2447-2494 is that of the exact variant. The coefficient arrays are kept with the
    rows; their slots [cfp = bctr + i*rpb] in mat->cf_32 are [slot] below. *)
Definition prob_echelon (k : kern) (p : Z) (ncl ncols : nat) (rr : nat -> option srow) (tr : list srow) (evs : list (nat * (nat -> Z))) : option (list srow) :=
  let? s := psys_run k p ncl ncols tr evs (init_pshared rr tr) in
  if forallb bfinished (ps_blks s) then interreduce k p ncl ncols (ncols - ncl) (drop_old ncl (ps_pivs s)) else None.
(** l.2371 *)
Definition slot (nrl i b : Z) : Z := (b + i * rpb nrl) mod 2 ^ 32.
