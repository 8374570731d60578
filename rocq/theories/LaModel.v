(** Model of the sparse linear algebra over prime fields. Sources: /repo/src/neogb/la_ff_8.c, la_ff_16.c, la_ff_32.c,
    basis.c. *)
From Coq Require Import ZArith Arith List Bool Lia.
From Verif Require Import ModInvModel.
Import ListNotations.
Open Scope Z_scope.

(** A sparse row: hm_t array with columns at OFFSET.. and the coefficient array reached through COEFFS, as a list of
    (column, coefficient). LENGTH is the length of the list and PRELOOP = LENGTH mod UNROLL (set so by every producer of
    rows, e.g. la_ff_32.c l.1235-1236). The fields DEG, BINDEX, MULT carry trace information only and are left out. *)
Notation srow := (list (nat * Z)) (only parsing).
Definition UNROLL : nat := 4.
Definition preloop (r : srow) : nat := Nat.modulo (length r) UNROLL.

(** dense row dr: array of int64_t *)
Definition drd (dr : list Z) (i : nat) : option Z := nth_error dr i.
Fixpoint dwr (dr : list Z) (i : nat) (x : Z) : option (list Z) :=
  match dr, i with
  | [], _ => None
  | _ :: t, O => Some (x :: t)
  | y :: t, S i => let? t' := dwr t i x in Some (y :: t')
  end.

(** Kernels: la_ff_8.c l.96-560, la_ff_16.c l.96-412, la_ff_32.c l.305-577 (17 bit) and l.964-1241 (31 bit). *)
Inductive kern := K8 | K16 | K17 | K31.
Definition cfbits (k : kern) : Z := match k with K8 => 8 | K16 => 16 | _ => 32 end.

(** Multiplier: 8 and 16 bit [uint32_t mul = fc - dr[i]] (la_ff_8.c l.161, la_ff_16.c l.166); 17 bit [mod - dr[i]];
    31 bit [dr[i]]. *)
Definition kmul (k : kern) (p d : Z) : Z :=
  match k with K8 | K16 => (p - d) mod 2 ^ 32 | K17 => p - d | K31 => d end.

(** One multiply-add [dr[ds[j]] += mul * cfs[j]]. For 8 and 16 bit the product is computed in uint32_t, otherwise in
    int64_t. 31 bit: first line of the pair [-= mul*cfs] here, correction in [kfix]. *)
Definition kadd (k : kern) (mul c d : Z) : option Z :=
  match k with
  | K8 | K16 => chk 64 (d + (mul * c) mod 2 ^ 32)
  | K17 => let? q := chk 64 (mul * c) in chk 64 (d + q)
  | K31 => let? q := chk 64 (mul * c) in chk 64 (d - q)
  end.
(** [dr[ds[j]] += (dr[ds[j]] >> 63) & mod2], l.1131; mod2 = (int64_t)fc * fc, l.983. *)
Definition kfix (k : kern) (mod2 d : Z) : option Z :=
  match k with K31 => chk 64 (d + Z.land (Z.shiftr d 63) mod2) | _ => Some d end.

Definition add_at (k : kern) (mul : Z) (t : nat * Z) (dr : list Z) : option (list Z) :=
  let? d := drd dr (fst t) in let? d' := kadd k mul (snd t) d in dwr dr (fst t) d'.
Definition fix_at (k : kern) (mod2 : Z) (t : nat * Z) (dr : list Z) : option (list Z) :=
  let? d := drd dr (fst t) in let? d' := kfix k mod2 d in dwr dr (fst t) d'.
Fixpoint each {A} (f : A -> list Z -> option (list Z)) (l : list A) (dr : list Z) : option (list Z) :=
  match l with [] => Some dr | t :: l' => let? dr' := f t dr in each f l' dr' end.

(** Unrolled part: blocks of UNROLL; the four additions, then the four corrections (l.1200-1209). A block that is
    not complete would read past the end of the row. *)
Fixpoint blocks (k : kern) (mod2 mul : Z) (r : srow) (dr : list Z) : option (list Z) :=
  match r with
  | [] => Some dr
  | a :: b :: c :: d :: r' =>
      let? dr1 := each (add_at k mul) [a; b; c; d] dr in
      let? dr2 := each (fix_at k mod2) [a; b; c; d] dr1 in
      blocks k mod2 mul r' dr2
  | _ => None
  end.
(** la_ff_32.c l.1193-1210 (scalar branch) *)
Definition apply_row (k : kern) (p d : Z) (r : srow) (dr : list Z) : option (list Z) :=
  let mul := kmul k p d in
  let? mod2 := chk 64 (p * p) in
  let os := preloop r in
  let? dr1 := each (fun t dr => let? x := add_at k mul t dr in fix_at k mod2 t x) (firstn os r) dr in
  blocks k mod2 mul (skipn os r) dr1.

(** The vectorised branches (l.1021-1191 and the corresponding parts of the other kernels): the first len mod w terms one
    by one, then blocks of w terms; in each block groups of lanes are gathered from dr, updated and scattered back. [groups]
    lists, for one block, the positions of the lanes of each group in order: AVX2 31 bit is w = 8,
    [[1;3;5;7];[0;2;4;6]]; AVX512 31 bit is w = 16, [[1;3;..;15];[0;2;..;14]]; NEON 31 bit is w = 8,
    [[0;1];[2;3];[4;5];[6;7]]; 16 bit AVX2 is w = 16, [[1;5;9;13];[3;7;11;15];[0;4;8;12];[2;6;10;14]];
    8 bit AVX2 is w = 32 with groups of step 8 starting at 0,2,4,6,1,3,5,7. Lane arithmetic is the scalar arithmetic: the
    product of a multiplier and a coefficient, both unsigned of the width of the coefficients, is exact in the lane. *)
Definition gather1 (dr : list Z) (blk : srow) (j : nat) : option (nat * Z * Z) :=
  let? t := nth_error blk j in let? d := drd dr (fst t) in Some (fst t, snd t, d).
Fixpoint gather_group (dr : list Z) (blk : srow) (g : list nat) : option (list (nat * Z * Z)) :=
  match g with
  | [] => Some []
  | j :: g' => let? x := gather1 dr blk j in let? xs := gather_group dr blk g' in Some (x :: xs)
  end.
Definition lane (k : kern) (mod2 mul : Z) (x : nat * Z * Z) : option (nat * Z) :=
  let? d1 := kadd k mul (snd (fst x)) (snd x) in let? d2 := kfix k mod2 d1 in Some (fst (fst x), d2).
Fixpoint lanes (k : kern) (mod2 mul : Z) (l : list (nat * Z * Z)) : option (list (nat * Z)) :=
  match l with [] => Some [] | x :: l' => let? y := lane k mod2 mul x in let? ys := lanes k mod2 mul l' in Some (y :: ys) end.
Definition simd_group (k : kern) (mod2 mul : Z) (blk : srow) (g : list nat) (dr : list Z) : option (list Z) :=
  let? xs := gather_group dr blk g in
  let? ys := lanes k mod2 mul xs in
  each (fun y dr => dwr dr (fst y) (snd y)) ys dr.
Fixpoint simd_blocks (fuel : nat) (w : nat) (groups : list (list nat)) (k : kern) (mod2 mul : Z) (r : srow) (dr : list Z) : option (list Z) :=
  match r with
  | [] => Some dr
  | _ => match fuel with
         | O => None
         | S f => let? dr' := each (simd_group k mod2 mul (firstn w r)) groups dr in
                  simd_blocks f w groups k mod2 mul (skipn w r) dr'
         end
  end.
Definition apply_row_simd (w : nat) (groups : list (list nat)) (k : kern) (p d : Z) (r : srow) (dr : list Z) : option (list Z) :=
  let mul := kmul k p d in
  let? mod2 := chk 64 (p * p) in
  let os := Nat.modulo (length r) w in
  let? dr1 := each (fun t dr => let? x := add_at k mul t dr in fix_at k mod2 t x) (firstn os r) dr in
  simd_blocks (length r) w groups k mod2 mul (skipn os r) dr1.

(** Body of the main loop for column i, given the value read from pivs[i] (l.1008-1019, 1211). The Boolean tells whether
    the column is kept (k++). [%] is the C remainder. *)
Definition col_step (k : kern) (p : Z) (pv : option srow) (i : nat) (dr : list Z) : option (list Z * bool) :=
  let? d0 := drd dr i in
  let d := if d0 =? 0 then d0 else Z.rem d0 p in
  let? dr0 := dwr dr i d in
  if d =? 0 then Some (dr0, false) else
  match pv with
  | None => Some (dr0, true)
  | Some r => let? dr1 := apply_row k p d r dr0 in let? dr2 := dwr dr1 i 0 in Some (dr2, false)
  end.

(** The loop [for (i = dpiv; i < ncols; ++i)]; [n] is k. *)
Fixpoint red_loop (k : kern) (p : Z) (pivs : nat -> option srow) (cnt i : nat) (dr : list Z) (n : nat) : option (list Z * nat) :=
  match cnt with
  | O => Some (dr, n)
  | S c => let? s := col_step k p (pivs i) i dr in
           red_loop k p pivs c (S i) (fst s) (if snd s then S n else n)
  end.

(** l.1222-1231: collect the nonzero entries from column ncl on, converted to the coefficient type, into arrays of
    n entries; writing more than n entries is a heap overflow. *)
Fixpoint collect (k : kern) (i : nat) (dr : list Z) : srow :=
  match dr with [] => [] | d :: t => if d =? 0 then collect k (S i) t else (i, d mod 2 ^ cfbits k) :: collect k (S i) t end.
Definition gather_row (k : kern) (ncl n : nat) (dr : list Z) : option srow :=
  let r := collect k ncl (skipn ncl dr) in
  if (length r <=? n)%nat then Some r else None.

(** reduce_dense_row_by_known_pivots_sparse_*: [Some (dr, None)] is the NULL result. *)
Definition reduce_known (k : kern) (p : Z) (pivs : nat -> option srow) (ncl ncols dpiv : nat) (dr : list Z) : option (list Z * option srow) :=
  let? s := red_loop k p pivs (ncols - dpiv) dpiv dr 0 in
  match snd s with
  | O => Some (fst s, None)
  | n => let? r := gather_row k ncl n (fst s) in Some (fst s, Some r)
  end.

(** normalize_sparse_matrix_row_ff_{8,16,32} (la_ff_8.c l.69-94, la_ff_16.c l.69-94, la_ff_32.c l.230-254): multiply by
    the inverse of the first coefficient, os terms and then blocks of UNROLL, finally row[0] = 1. The 8-bit product is
    an int (uint16_t promoted), the 16-bit one uint32_t, the 32-bit one uint64_t: exact in all cases. *)
Definition kinv (k : kern) : Z -> Z -> option Z :=
  match k with K8 => mod_p_inverse_8 | K16 => mod_p_inverse_16 | _ => mod_p_inverse_32 end.
Definition scale1 (k : kern) (p inv : Z) (t : nat * Z) : nat * Z := (fst t, (snd t * inv) mod p).
Fixpoint scale_blocks (k : kern) (p inv : Z) (r : srow) : option srow :=
  match r with
  | [] => Some []
  | a :: b :: c :: d :: r' => let? s := scale_blocks k p inv r' in
      Some (scale1 k p inv a :: scale1 k p inv b :: scale1 k p inv c :: scale1 k p inv d :: s)
  | _ => None
  end.
Definition scale_row (k : kern) (p inv : Z) (r : srow) : option srow :=
  let os := preloop r in
  let? s := scale_blocks k p inv (skipn os r) in Some (map (scale1 k p inv) (firstn os r) ++ s).
Definition normalize_row (k : kern) (p : Z) (r : srow) : option srow :=
  match r with
  | [] => None
  | (c0, x0) :: _ =>
      let? inv := kinv k x0 p in
      let? s := scale_row k p inv r in
      match s with [] => None | (c, _) :: t => Some ((c, 1) :: t) end
  end.
(** normalize_initial_basis_ff_{8,16,32}, basis.c l.249-374: as above without the last assignment. *)
Definition normalize_initial (k : kern) (p : Z) (r : srow) : option srow :=
  match r with [] => None | (_, x0) :: _ => let? inv := kinv k x0 p in scale_row k p inv r end.

(** l.2635-2647: [memset] and scatter of a row into a dense row. *)
Definition scatter (ncols : nat) (r : srow) : option (list Z) :=
  each (fun t dr => dwr dr (fst t) (snd t)) r (repeat 0 ncols).

(** exact_sparse_reduced_echelon_form_ff_{8,16,32} (la_ff_32.c l.2588-2763; la_ff_8.c l.1318, la_ff_16.c l.1045), the case
    st->nf = 0. Row states of the parallel loop l.2627-2683: waiting; in the column loop (next column, dense row,
    k); holding a new normalised row before the compare-and-swap; finished with zero; finished with a pivot.
    Trace data (rba, BINDEX, MULT), statistics and the bad_prime flag are left out. *)
Inductive rstate :=
| Todo (r : srow)
| Red (i : nat) (dr : list Z) (n : nat)
| Cas (dr : list Z) (r : srow)
| DoneZero
| DonePiv (c : nat).

Record shared := { sh_pivs : nat -> option srow; sh_rows : list rstate }.
Definition pset (pivs : nat -> option srow) (c : nat) (r : srow) : nat -> option srow :=
  fun j => if (j =? c)%nat then Some r else pivs j.

(** One atomic step of the thread working on a row. *)
Definition row_step (k : kern) (p : Z) (ncl ncols : nat) (pivs : nat -> option srow) (s : rstate) : option ((nat -> option srow) * rstate) :=
  match s with
  | Todo r => match r with
              | [] => None
              | t :: _ => let? dr := scatter ncols r in Some (pivs, Red (fst t) dr 0)
              end
  | Red i dr n =>
      if (i <? ncols)%nat then
        let? s := col_step k p (pivs i) i dr in Some (pivs, Red (S i) (fst s) (if snd s then S n else n))
      else match n with
           | O => Some (pivs, DoneZero)
           | _ => let? r := gather_row k ncl n dr in
                  match r with
                  | [] => None
                  | (_, x0) :: _ => if x0 =? 1 then Some (pivs, Cas dr r)
                                    else let? r' := normalize_row k p r in Some (pivs, Cas dr r')
                  end
           end
  | Cas dr r => match r with
                | [] => None
                | t :: _ => match pivs (fst t) with
                            | None => Some (pset pivs (fst t) r, DonePiv (fst t))
                            | Some _ => Some (pivs, Red (fst t) dr 0)
                            end
                end
  | DoneZero => Some (pivs, DoneZero)
  | DonePiv c => Some (pivs, DonePiv c)
  end.
Fixpoint lset {A} (l : list A) (i : nat) (x : A) : list A :=
  match l, i with [], _ => [] | _ :: t, O => x :: t | y :: t, S i => y :: lset t i x end.
Definition sys_step (k : kern) (p : Z) (ncl ncols : nat) (t : nat) (s : shared) : option shared :=
  match nth_error (sh_rows s) t with
  | None => Some s
  | Some rs => let? q := row_step k p ncl ncols (sh_pivs s) rs in
               Some {| sh_pivs := fst q; sh_rows := lset (sh_rows s) t (snd q) |}
  end.
(** A schedule is any sequence of row numbers: at each point any row may advance. This covers every number of
    threads and every assignment of rows to threads. *)
Fixpoint sys_run (k : kern) (p : Z) (ncl ncols : nat) (sched : list nat) (s : shared) : option shared :=
  match sched with [] => Some s | t :: ts => let? s' := sys_step k p ncl ncols t s in sys_run k p ncl ncols ts s' end.
Definition finished (s : rstate) : bool := match s with DoneZero | DonePiv _ => true | _ => false end.

(** Inter-reduction of the new pivots, l.2706-2752: old pivots dropped, columns from right to left. The result lists
    the new rows in the order in which they are stored in mat->tr. *)
Fixpoint interreduce (k : kern) (p : Z) (ncl ncols : nat) (cnt : nat) (pivs : nat -> option srow) : option (list srow) :=
  match cnt with
  | O => Some []
  | S cnt' =>
      let c := (ncl + cnt')%nat in
      match pivs c with
      | None => interreduce k p ncl ncols cnt' pivs
      | Some r =>
          match r with
          | [] => None
          | t :: _ =>
              let? dr := scatter ncols r in
              let? s := reduce_known k p (fun j => if (j =? c)%nat then None else pivs j) ncl ncols (fst t) dr in
              match snd s with
              | None => None
              | Some r' => let? l := interreduce k p ncl ncols cnt' (pset pivs c r') in Some (r' :: l)
              end
          end
      end
  end.
Definition drop_old (ncl : nat) (pivs : nat -> option srow) : nat -> option srow :=
  fun j => if (j <? ncl)%nat then None else pivs j.
Definition init_shared (rr : nat -> option srow) (tr : list srow) : shared := {| sh_pivs := rr; sh_rows := map Todo tr |}.
(** Whole function under a given schedule; None when a row is unfinished or something undefined happens. *)
Definition echelon (k : kern) (p : Z) (ncl ncols : nat) (rr : nat -> option srow) (tr : list srow) (sched : list nat) : option (list srow) :=
  let? s := sys_run k p ncl ncols sched (init_shared rr tr) in
  if forallb finished (sh_rows s) then interreduce k p ncl ncols (ncols - ncl) (drop_old ncl (sh_pivs s)) else None.
