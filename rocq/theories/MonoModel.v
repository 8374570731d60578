(** Model of exponent vectors, monomial comparison, divisor masks, lcm and coprimality.
    Sources: /repo/src/neogb/{io.c,hash.c,order.c,data.h}. *)
From Coq Require Import ZArith NArith Arith List Bool Lia.
From Verif Require Import ModInvModel.
Import ListNotations.
Open Scope N_scope.

(** Array accesses: [None] is an access outside the array. *)
Definition rd {A} (l : list A) (i : nat) : option A := nth_error l i.
Fixpoint wr {A} (l : list A) (i : nat) (x : A) : option (list A) :=
  match l, i with
  | [], _ => None
  | _ :: l', O => Some (x :: l')
  | y :: l', S i' => match wr l' i' x with Some r => Some (y :: r) | None => None end
  end.

(** [(exp_t)x] for an int32_t [x]; exp_t is uint16_t (data.h l.86). *)
Definition exp16 (x : Z) : N := Z.to_N (x mod 2 ^ 16).
Definition add16 (x y : N) : N := (x + y) mod 2 ^ 16.

(** Lengths of exponent vectors, hash.c l.66-73: nev = 0: evl = nv + 1, ebl = 0; otherwise evl = nv + 2 and
    ebl = nev + 1. *)
Definition ht_evl (nv nev : nat) : nat := if (nev =? 0)%nat then nv + 1 else nv + 2.
Definition ht_ebl (nev : nat) : nat := if (nev =? 0)%nat then 0 else nev + 1.

(** io.c l.42-52, the two loops: [ev[i+off] = (exp_t)iev[i]; ev[dpos] += ev[i+off];] for cnt values of i. *)
Fixpoint sev_loop (cnt i off dpos : nat) (iev : list Z) (ev : list N) : option (list N) :=
  match cnt with
  | O => Some ev
  | S cnt' =>
      let? x := rd iev i in
      let? ev := wr ev (i + off) (exp16 x) in
      let? v := rd ev (i + off) in
      let? d := rd ev dpos in
      let? ev := wr ev dpos (add16 d v) in
      sev_loop cnt' (S i) off dpos iev ev
  end.

(** io.c l.24-53 set_exponent_vector. [iev] is the slice of the input starting at nv*idx; [ev] is the previous
    content of the entry. *)
Definition set_exponent_vector (nv nev : nat) (iev : list Z) (ev : list N) : option (list N) :=
  let ebl := ht_ebl nev in
  let off := (ebl + 1 - nev)%nat in
  let? ev := wr ev 0 0 in
  let? ev := wr ev ebl 0 in
  let? ev := sev_loop nev 0 1 0 iev ev in
  sev_loop (nv - nev) nev off ebl iev ev.

(** io.c l.580-587: exponents written for one term by export_data ((int32_t) of a 16-bit value). *)
Fixpoint read_range (cnt i : nat) (ev : list N) : option (list N) :=
  match cnt with
  | O => Some []
  | S c => let? x := rd ev i in let? r := read_range c (S i) ev in Some (x :: r)
  end.
Definition export_exponents (nv nev : nat) (ev : list N) : option (list N) :=
  let ebl := ht_ebl nev in
  let evl := ht_evl nv nev in
  let? l1 := read_range (ebl - 1) 1 ev in
  let? l2 := read_range (evl - (ebl + 1)) (ebl + 1) ev in
  Some (l1 ++ l2).

(** io.c l.543-545: number of exponents written for a zero polynomial (for k = 1; k < evl). *)
Definition export_zero_count (nv nev : nat) : nat := ht_evl nv nev - 1.

(** ** Comparisons, order.c. Values are uint16, promoted to int: differences are exact. *)

(** [while (i < evl-1 && ea[i] == eb[i]) ++i;], [cnt = evl-1-i]. *)
Fixpoint scan_up (cnt i : nat) (ea eb : list N) : option nat :=
  match cnt with
  | O => Some i
  | S c => let? x := rd ea i in let? y := rd eb i in
           if x =? y then scan_up c (S i) ea eb else Some i
  end.

(** [while (i > lo && ea[i] == eb[i]) --i;] *)
Fixpoint scan_down (lo i : nat) (ea eb : list N) : option nat :=
  match i with
  | O => Some O
  | S i' => if (lo <? i)%nat then
              let? x := rd ea i in let? y := rd eb i in
              if x =? y then scan_down lo i' ea eb else Some i
            else Some i
  end.

(** [ea[i] - eb[i]] *)
Definition dif (ea eb : list N) (i : nat) : option Z :=
  let? x := rd ea i in let? y := rd eb i in Some (Z.of_N x - Z.of_N y)%Z.

(** order.c l.308-325 monomial_cmp_lex; l.219-242 initial_input_cmp_lex and l.244-267 initial_gens_cmp_lex have
    the same body. *)
Definition cmp_lex (evl : nat) (ea eb : list N) : option Z :=
  let? i := scan_up (evl - 1 - 1) 1 ea eb in dif ea eb i.
Definition initial_input_cmp_lex := cmp_lex.
Definition initial_gens_cmp_lex := cmp_lex.
(** order.c l.269-306, after the idx test. *)
Definition cmp_pivots_lex (evl : nat) (ea eb : list N) : option Z :=
  let? i := scan_up (evl - 1 - 1) 1 ea eb in dif eb ea i.

(** order.c l.495-523 monomial_cmp_drl, after the test a == b. *)
Definition cmp_drl (evl : nat) (ea eb : list N) : option Z :=
  let? x := rd ea 0 in let? y := rd eb 0 in
  if y <? x then Some 1%Z else if negb (x =? y) then Some (-1)%Z else
  let? i := scan_down 1 (evl - 1) ea eb in dif eb ea i.
(** order.c l.394-423 *)
Definition initial_input_cmp_drl (evl : nat) (ea eb : list N) : option Z :=
  let? x := rd ea 0 in let? y := rd eb 0 in
  if x <? y then Some (-1)%Z else if negb (x =? y) then Some 1%Z else
  let? i := scan_down 1 (evl - 1) ea eb in dif eb ea i.
(** order.c l.425-453 *)
Definition initial_gens_cmp_drl (evl : nat) (ea eb : list N) : option Z :=
  let? x := rd ea 0 in let? y := rd eb 0 in
  if x <? y then Some 1%Z else if negb (x =? y) then Some (-1)%Z else
  let? i := scan_down 1 (evl - 1) ea eb in dif ea eb i.
(** order.c l.455-493, after the idx test. *)
Definition cmp_pivots_drl (evl : nat) (ea eb : list N) : option Z :=
  let? x := rd ea 0 in let? y := rd eb 0 in
  if y <? x then Some (-1)%Z else if negb (x =? y) then Some 1%Z else
  let? i := scan_down 1 (evl - 1) ea eb in dif ea eb i.

(** order.c l.761-804 monomial_cmp_be, after the test a == b. *)
Definition cmp_be (evl ebl : nat) (ea eb : list N) : option Z :=
  let? x := rd ea 0 in let? y := rd eb 0 in
  if y <? x then Some 1%Z else if negb (x =? y) then Some (-1)%Z else
  let? i := scan_down 1 (ebl - 1) ea eb in
  let? d := dif eb ea i in
  if negb (d =? 0)%Z then Some d else
  let? x := rd ea ebl in let? y := rd eb ebl in
  if y <? x then Some 1%Z else if negb (x =? y) then Some (-1)%Z else
  let? i := scan_down ebl (evl - 1) ea eb in dif eb ea i.
(** order.c l.610-654 *)
Definition initial_input_cmp_be (evl ebl : nat) (ea eb : list N) : option Z :=
  let? x := rd ea 0 in let? y := rd eb 0 in
  if x <? y then Some (-1)%Z else if negb (x =? y) then Some 1%Z else
  let? i := scan_down 1 (ebl - 1) ea eb in
  let? d := dif eb ea i in
  if negb (d =? 0)%Z then Some d else
  let? x := rd ea ebl in let? y := rd eb ebl in
  if x <? y then Some (-1)%Z else if negb (x =? y) then Some 1%Z else
  let? i := scan_down ebl (evl - 1) ea eb in dif eb ea i.
(** order.c l.656-700 *)
Definition initial_gens_cmp_be (evl ebl : nat) (ea eb : list N) : option Z :=
  let? x := rd ea 0 in let? y := rd eb 0 in
  if x <? y then Some 1%Z else if negb (x =? y) then Some (-1)%Z else
  let? i := scan_down 1 (ebl - 1) ea eb in
  let? d := dif ea eb i in
  if negb (d =? 0)%Z then Some d else
  let? x := rd ea ebl in let? y := rd eb ebl in
  if x <? y then Some 1%Z else if negb (x =? y) then Some (-1)%Z else
  let? i := scan_down ebl (evl - 1) ea eb in dif ea eb i.
(** order.c l.702-759, after the idx test. *)
Definition cmp_pivots_be (evl ebl : nat) (ea eb : list N) : option Z :=
  let? x := rd ea 0 in let? y := rd eb 0 in
  if y <? x then Some (-1)%Z else if negb (x =? y) then Some 1%Z else
  let? i := scan_down 1 (ebl - 1) ea eb in
  let? d := dif ea eb i in
  if negb (d =? 0)%Z then Some d else
  let? x := rd ea ebl in let? y := rd eb ebl in
  if y <? x then Some (-1)%Z else if negb (x =? y) then Some 1%Z else
  let? i := scan_down ebl (evl - 1) ea eb in dif ea eb i.

(** The choice of the comparison functions, io.c l.885-917 set_function_pointers (mo = 1: lexicographic; any
    other value: DRL; a non-zero block length wins). *)
Record ordering := { o_nv : nat; o_nev : nat; o_mo : nat }.
Definition o_evl o := ht_evl (o_nv o) (o_nev o).
Definition o_ebl o := ht_ebl (o_nev o).
Definition sel {A} (o : ordering) (be drl lex : A) : A :=
  if (0 <? o_nev o)%nat then be else if (o_mo o =? 1)%nat then lex else drl.
Definition monomial_cmp_ev (o : ordering) : list N -> list N -> option Z :=
  sel o (cmp_be (o_evl o) (o_ebl o)) (cmp_drl (o_evl o)) (cmp_lex (o_evl o)).
Definition initial_input_cmp (o : ordering) : list N -> list N -> option Z :=
  sel o (initial_input_cmp_be (o_evl o) (o_ebl o)) (initial_input_cmp_drl (o_evl o)) (initial_input_cmp_lex (o_evl o)).
Definition initial_gens_cmp (o : ordering) : list N -> list N -> option Z :=
  sel o (initial_gens_cmp_be (o_evl o) (o_ebl o)) (initial_gens_cmp_drl (o_evl o)) (initial_gens_cmp_lex (o_evl o)).
Definition cmp_pivots_ev (o : ordering) : list N -> list N -> option Z :=
  sel o (cmp_pivots_be (o_evl o) (o_ebl o)) (cmp_pivots_drl (o_evl o)) (cmp_pivots_lex (o_evl o)).

(** Hash table part seen by the comparisons: exponents and the [idx] field of each entry. *)
Record htab := { t_ev : list (list N); t_idx : list N }.

(** monomial_cmp on hash table indices. The DRL and block versions test a == b first (order.c l.503, l.769);
    the lexicographic version does not, with the same result. *)
Definition monomial_cmp (o : ordering) (t : htab) (a b : nat) : option Z :=
  let? ea := rd (t_ev t) a in let? eb := rd (t_ev t) b in
  if (a =? b)%nat && negb ((o_nev o =? 0)%nat && (o_mo o =? 1)%nat) then Some 0%Z else
  monomial_cmp_ev o ea eb.

(** hcm_cmp (column order), order.c l.327-338, 525-541, 806-818 with ORDER_COLUMNS = 1 (data.h l.44). *)
Definition hcm_cmp (o : ordering) (t : htab) (a b : nat) : option Z :=
  let? ia := rd (t_idx t) a in let? ib := rd (t_idx t) b in
  if negb (ia =? ib) then Some (if N.ltb ia ib then 1 else -1)%Z else
  let? ea := rd (t_ev t) a in let? eb := rd (t_ev t) b in cmp_pivots_ev o ea eb.

(** S-pairs, data.h l.149-156. *)
Record spair := { sp_lcm : nat; sp_gen1 : N; sp_gen2 : N; sp_deg : Z }.

(** order.c l.543-564 *)
Definition spair_cmp_update (o : ordering) (t : htab) (a b : spair) : option Z :=
  if negb (sp_lcm a =? sp_lcm b)%nat then monomial_cmp o t (sp_lcm a) (sp_lcm b) else
  if negb (sp_deg a =? sp_deg b)%Z then Some (if (sp_deg a <? sp_deg b)%Z then -1 else 1)%Z else
  if negb (sp_gen1 a =? sp_gen1 b) then Some (if N.ltb (sp_gen1 a) (sp_gen1 b) then -1 else 1)%Z else Some 0%Z.
(** order.c l.566-600 *)
Definition spair_cmp_drl (o : ordering) (t : htab) (a b : spair) : option Z :=
  let? mc := monomial_cmp o t (sp_lcm a) (sp_lcm b) in
  Some (if negb (mc =? 0)%Z then (if (mc <? 0)%Z then -1 else 1) else 0)%Z.
(** order.c l.341-358 *)
Definition spair_cmp_deglex (o : ordering) (t : htab) (a b : spair) : option Z :=
  let? ea := rd (t_ev t) (sp_lcm a) in let? eb := rd (t_ev t) (sp_lcm b) in
  let? x := rd ea 0 in let? y := rd eb 0 in
  if negb (x =? y) then Some (if N.ltb x y then -1 else 1)%Z else monomial_cmp o t (sp_lcm a) (sp_lcm b).
(** conversion of an unsigned 32-bit value to int *)
Definition to_int32 (x : Z) : Z := ((x + 2 ^ 31) mod 2 ^ 32 - 2 ^ 31)%Z.
(** order.c l.820-848: the degrees are read into unsigned variables, their wrapped difference is returned as int. *)
Definition spair_cmp_be (o : ordering) (t : htab) (a b : spair) : option Z :=
  let d := ((sp_deg a - sp_deg b) mod 2 ^ 32)%Z in
  if negb (d =? 0)%Z then Some (to_int32 d) else
  let? mc := monomial_cmp o t (sp_lcm a) (sp_lcm b) in
  Some (if negb (mc =? 0)%Z then (if (mc <? 0)%Z then -1 else 1) else 0)%Z.
Definition spair_cmp (o : ordering) := sel o (spair_cmp_be o) (spair_cmp_drl o) (spair_cmp_deglex o).

(** Rows: header fields DEG 0, BINDEX 1, MULT 2, COEFFS 3, PRELOOP 4, LENGTH 5, first column at OFFSET 6. *)
Definition cmp2 (up : bool) (x y : N) (k : option Z) : option Z :=
  if y <? x then Some (if up then 1 else -1)%Z else if x <? y then Some (if up then -1 else 1)%Z else k.
(** order.c l.29-54 *)
Definition matrix_row_cmp_decreasing (a b : list N) : option Z :=
  let? va := rd a 6 in let? vb := rd b 6 in
  let? la := rd a 5 in let? lb := rd b 5 in
  cmp2 true va vb (cmp2 true la lb (Some 0%Z)).
(** order.c l.56-81 *)
Definition matrix_row_cmp_increasing (a b : list N) : option Z :=
  let? va := rd a 6 in let? vb := rd b 6 in
  let? la := rd a 5 in let? lb := rd b 5 in
  cmp2 false va vb (cmp2 false la lb (Some 0%Z)).
(** order.c l.83-117 *)
Definition matrix_row_mult_cmp_increasing (a b : list N) : option Z :=
  let? va := rd a 6 in let? vb := rd b 6 in
  let? ma := rd a 2 in let? mb := rd b 2 in
  let? la := rd a 5 in let? lb := rd b 5 in
  cmp2 false va vb (cmp2 false ma mb (cmp2 false la lb (Some 0%Z))).
(** order.c l.166-177 gens_cmp and l.180-189 pbm_cmp: unsigned difference returned as int. *)
Definition gens_cmp (a b : N) : option Z := Some (to_int32 ((Z.of_N a - Z.of_N b) mod 2 ^ 32)).

(** ** Divisor masks and divisibility *)

(** hash.c l.57-63 *)
Definition ht_bpv (nv : nat) : nat := if (32 / nv =? 0)%nat then 1 else 32 / nv.
Definition ht_ndv (nv : nat) : nat := Nat.min nv 32.
(** hash.c l.66-90: the positions watched by the mask. *)
Definition ht_dv (nv nev : nat) : list nat :=
  if (nev =? 0)%nat then seq 1 (ht_ndv nv)
  else if (ht_ndv nv <=? nev)%nat then seq 1 (ht_ndv nv)
  else seq 1 nev ++ seq (ht_ebl nev + 1) (ht_ndv nv + 2 - (ht_ebl nev + 1)).

(** hash.c l.394-416 generate_short_divmask; [dm] any list of thresholds. Bit 31 is set by [1 << 31] on int,
    modelled as the two's complement result. *)
Fixpoint sdm_bits (bpv : nat) (x : N) (ctr : nat) (dm : list N) (res : N) : option (nat * N) :=
  match bpv with
  | O => Some (ctr, res)
  | S b => let? t := rd dm ctr in
           sdm_bits b x (S ctr) dm (if t <=? x then N.lor res (N.shiftl 1 (N.of_nat ctr)) else res)
  end.
Fixpoint sdm_vars (dv : list nat) (bpv : nat) (a : list N) (ctr : nat) (dm : list N) (res : N) : option N :=
  match dv with
  | [] => Some res
  | v :: dv' => let? x := rd a v in
                match sdm_bits bpv x ctr dm res with
                | Some (ctr', res') => sdm_vars dv' bpv a ctr' dm res'
                | None => None
                end
  end.
Definition generate_short_divmask (nv nev : nat) (dm : list N) (a : list N) : option N :=
  sdm_vars (ht_dv nv nev) (ht_bpv nv) a 0 dm 0.

(** hash.c l.433-467: the thresholds. One variable: maximum and minimum over the entries (with the [continue] of
    l.451, which only skips a test that would fail), then bpv consecutive values from max(1, (max-min)/bpv). *)
Fixpoint minmax (p : nat) (es : list (list N)) (mx mn : N) : option (N * N) :=
  match es with
  | [] => Some (mx, mn)
  | e :: es' => let? x := rd e p in
      if mx <? x then minmax p es' x mn else if x <? mn then minmax p es' mx x else minmax p es' mx mn
  end.
Fixpoint thresholds (bpv : nat) (steps : N) : list N :=
  match bpv with O => [] | S b => steps :: thresholds b (steps + 1) end.
Fixpoint divmask_vars (dv : list nat) (bpv : nat) (es : list (list N)) : option (list N) :=
  match dv with
  | [] => Some []
  | p :: dv' =>
      let? e1 := rd es 0 in let? x := rd e1 p in
      let? mm := minmax p (tl es) x x in
      let s := (fst mm - snd mm) / N.of_nat bpv in
      let? r := divmask_vars dv' bpv es in
      Some (thresholds bpv (if s =? 0 then 1 else s) ++ r)
  end.
(** [es]: the exponent vectors 1..eld-1 of the table, at least one. *)
Definition calculate_divmask (nv nev : nat) (es : list (list N)) : option (list N) :=
  divmask_vars (ht_dv nv nev) (ht_bpv nv) es.

(** hash.c l.495-504 (and l.536-543): pairwise exponent test. [cnt] iterations of the loop with step 2. *)
Fixpoint ge_pairs (cnt i : nat) (ea eb : list N) : option bool :=
  match cnt with
  | O => Some true
  | S c => let? a0 := rd ea i in let? b0 := rd eb i in
           if a0 <? b0 then Some false else
           let? a1 := rd ea (i + 1) in let? b1 := rd eb (i + 1) in
           if a1 <? b1 then Some false else ge_pairs c (i + 2) ea eb
  end.
Definition exponents_ge (evl : nat) (ea eb : list N) : option bool :=
  let? r := ge_pairs (evl / 2) 0 ea eb in   (* number of i = 0, 2, .. with i < evl-1 *)
  if r then let? x := rd ea (evl - 1) in let? y := rd eb (evl - 1) in Some (negb (x <? y))
  else Some false.
(** hash.c l.477-505 check_monomial_division: true when eb divides ea. *)
Definition check_monomial_division (evl : nat) (sa sb : N) (ea eb : list N) : option bool :=
  if negb (N.ldiff sb sa =? 0) then Some false else exponents_ge evl ea eb.

(** ** lcm and coprimality *)
(** hash.c l.1324-1336: [etmp] is a fresh array of evl entries, the entries 1.. are set first. *)
Fixpoint lcm_loop (cnt i : nat) (ea eb etmp : list N) : option (list N) :=
  match cnt with
  | O => Some etmp
  | S c => let? x := rd ea i in let? y := rd eb i in
           let? e := wr etmp i (if x <? y then y else x) in lcm_loop c (S i) ea eb e
  end.
Fixpoint sum_loop (cnt i dpos : nat) (etmp : list N) : option (list N) :=
  match cnt with
  | O => Some etmp
  | S c => let? d := rd etmp dpos in let? x := rd etmp i in
           let? e := wr etmp dpos (add16 d x) in sum_loop c (S i) dpos e
  end.
Definition lcm_ev (nv nev : nat) (ea eb etmp : list N) : option (list N) :=
  let evl := ht_evl nv nev in let ebl := ht_ebl nev in
  let? e := lcm_loop (evl - 1) 1 ea eb etmp in
  let? e := wr e 0 0 in
  let? e := wr e ebl 0 in
  let? e := sum_loop (ebl - 1) 1 0 e in
  sum_loop (evl - (ebl + 1)) (ebl + 1) ebl e.

(** hash.c l.932-957 *)
Fixpoint no_common (cnt i : nat) (ea eb : list N) : option bool :=
  match cnt with
  | O => Some true
  | S c => let? x := rd ea i in let? y := rd eb i in
           if negb (x =? 0) && negb (y =? 0) then Some false else no_common c (S i) ea eb
  end.
Definition prime_monomials (nv nev : nat) (ea eb : list N) : option bool :=
  let evl := ht_evl nv nev in let ebl := ht_ebl nev in
  let? r := no_common (ebl - 1) 1 ea eb in
  if r then no_common (evl - (ebl + 1)) (ebl + 1) ea eb else Some false.

(** Product of two exponent vectors as computed by insert_multiplied_poly_in_hash_table, hash.c l.1138-1140:
    [n[j] = (exp_t)(ea[j] + eb[j])] for every entry, degrees included. *)
Fixpoint mul_ev (ea eb : list N) : list N :=
  match ea, eb with
  | x :: a, y :: b => add16 x y :: mul_ev a b
  | _, _ => []
  end.
