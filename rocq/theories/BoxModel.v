(** Model of the computation of the output boxes, msolve/msolve.c l.2654-3138: interval of a root of the eliminating
    polynomial to intervals for all coordinates. [None] is exit(1), a division by zero, an access out of a table, a shift
    by a negative amount, or the end of the fuel. long and int64_t are unbounded integers. *)
From Coq Require Import ZArith List Arith Bool.
From Verif Require Import ModInvModel TaylorModel DescModel IsolModel EvalModel RefineModel.
Import ListNotations.
Local Open Scope bool_scope.
Open Scope Z_scope.

(** mpz_param_t: eliminating polynomial, denominator, and for each coordinate but the last its numerator and its
    coefficient (coords, cfs). nsols is the degree of the eliminating polynomial. *)
Record param := { elim : list Z; denom : list Z; coords : list (list Z * Z) }.
Definition nsols (p : param) : Z := Z.of_nat (length (elim p)) - 1.
(** coord_t *)
Record box := { val_do : Z; k_do : Z; val_up : Z; k_up : Z; bexact : bool }.

Definition fdiv (a b : Z) : option Z := if b =? 0 then None else Some (a / b).
Definition cdiv (a b : Z) : option Z := if b =? 0 then None else Some (- (- a / b)).
Definition cdiv_2exp (a k : Z) : Z := - (- a / 2 ^ k).

(** ** l.2654-2698, single_exact_real_root_param *)
Definition exact_coord (p : param) (rt : interval) (den prec : Z) (vc : list Z * Z) : option box :=
  let val := - eval_2exp (fst vc) (numer rt) (ik rt) in
  let exp := ik rt * (Z.of_nat (length (denom p)) - Z.of_nat (length (fst vc))) in
  if exp + prec <? 0 then None
  else let? up := cdiv (val * 2 ^ (exp + prec)) (den * snd vc) in
       let? dn := fdiv (val * 2 ^ (exp + prec)) (den * snd vc) in
       Some {| val_do := dn; k_do := prec; val_up := up; k_up := prec; bexact := true |}.
Fixpoint opt_map {A B} (f : A -> option B) (l : list A) : option (list B) :=
  match l with [] => Some [] | a :: l' => let? b := f a in let? r := opt_map f l' in Some (b :: r) end.
Definition single_exact (p : param) (rt : interval) (prec : Z) : option (list box) :=
  let den := eval_2exp (denom p) (numer rt) (ik rt) in
  let? l := opt_map (exact_coord p rt den prec) (coords p) in
  Some (l ++ [{| val_do := numer rt; k_do := ik rt; val_up := numer rt; k_up := ik rt; bexact := true |}]).

(** ** l.2759-2798, generate_table_values_full: bounds of the powers. First the exact powers, from index [i] on (the pair is
    the entry of index i - 1), then the scaling. *)
Fixpoint powers (cnt : nat) (i n c xdo xup : Z) : list (Z * Z) :=
  match cnt with
  | O => []
  | S cnt' =>
    let r := if 0 <=? n then (xdo * n, xup * c)
             else if Z.odd i then (xup * n, xdo * c) else (xup * c, xdo * n) in
    r :: powers cnt' (i + 1) n c (fst r) (snd r)
  end.
Fixpoint scale_powers (l : list (Z * Z)) (i k corr : Z) : list (Z * Z) :=
  match l with
  | [] => []
  | r :: l' => (fst r * 2 ^ corr / 2 ^ (k * i), cdiv_2exp (snd r * 2 ^ corr) (k * i)) :: scale_powers l' (i + 1) k corr
  end.
Definition table_full (rt : interval) (ns corr : Z) : list (Z * Z) :=
  let n := numer rt in
  (2 ^ corr, 2 ^ corr) :: scale_powers (powers (Z.to_nat ns - 1) 1 n (n + 1) 1 1) 1 (ik rt) corr.

(** ** l.2911-2930, newvalue_denom: bounds of the denominator, and whether the interval has to be refined. *)
Definition newvalue_denom (d : list Z) (r k corr : Z) : option (Z * Z * bool) :=
  let? e := eval_interval d k r (r + 1) in
  let '(dn, up, boo) := e in
  if up <? dn then None
  else let deg := Z.of_nat (length d) - 1 in
       let dn' := dn * 2 ^ corr / 2 ^ (k * deg) in
       let up' := cdiv_2exp (up * 2 ^ corr) (k * deg) in
       Some (dn', up', boo || (Z.sgn dn' =? 0) || (Z.sgn up' =? 0)).

(** ** l.2932-3102, lazy_single_real_root_param. One refinement of the interval (l.2962-3001): *)
Definition lazy_refine (fuel : nat) (p : param) (rt : interval) : option interval :=
  if 0 <=? numer rt then
    let v := values_at_bounds (elim p) rt in
    let? s := qir_loop fuel {| rpol := elim p; rint := rt; rva := fst v; rvb := snd v |} (2 * ik rt) 2 in
    Some (rint s)
  else
    let pos := {| numer := - (numer rt + 1); ik := ik rt; isexact := isexact rt |} in
    let u := negate_odd false (elim p) in
    let v := values_at_bounds u pos in
    let? s := qir_loop fuel {| rpol := u; rint := pos; rva := fst v; rvb := snd v |} (2 * ik rt + nsols p) 2 in
    let r := rint s in
    Some {| numer := if isexact r then - numer r else - (numer r + 1); ik := ik r; isexact := isexact r |}.
(** The loop of l.2957-3019: final interval, precision of the tables and bounds of the denominator (of no use when the
    interval has become exact). *)
Fixpoint lazy_loop (fuel fuel2 : nat) (p : param) (rt : interval) (corr : Z) : option (interval * Z * (Z * Z)) :=
  match fuel with
  | O => None
  | S f =>
    if isexact rt then Some (rt, corr, (0, 0))
    else
      let? d := newvalue_denom (denom p) (numer rt) (ik rt) corr in
      let '(dn, up, boo) := d in
      if negb boo then Some (rt, corr, (dn, up))
      else let? rt' := lazy_refine fuel2 p rt in
           lazy_loop f fuel2 p rt' (if isexact rt' then (Z.of_nat (length (denom p)) - 1) * ik rt' else 2 * corr)
  end.
(** Quotient of the two intervals (l.3038-3081). *)
Definition box_quot (den_do den_up vdo vup cf : Z) : option (Z * Z) :=
  if (0 <=? den_do) && (0 <=? den_up) then
    if (vdo <=? 0) && (vup <=? 0) then
      let? v1 := fdiv vdo (den_do * cf) in let? v2 := cdiv vup (den_up * cf) in Some (v1, v2)
    else if (vdo <=? 0) && (0 <=? vup) then
      let? v1 := fdiv vdo (den_do * cf) in let? v2 := cdiv vup (den_do * cf) in Some (v1, v2)
    else let? v1 := fdiv vdo (den_up * cf) in let? v2 := cdiv vup (den_do * cf) in Some (v1, v2)
  else
    if (vdo <=? 0) && (vup <=? 0) then
      let? v1 := fdiv vup (den_do * cf) in let? v2 := cdiv vdo (den_up * cf) in Some (v1, v2)
    else if (vdo <=? 0) && (0 <=? vup) then
      let? v1 := fdiv vup (den_up * cf) in let? v2 := cdiv vdo (den_up * cf) in Some (v1, v2)
    else let? v1 := fdiv vup (den_up * cf) in let? v2 := cdiv vdo (den_do * cf) in Some (v1, v2).
Definition lazy_coord (tab : list (Z * Z)) (corr den_do den_up prec : Z) (vc : list Z * Z) : option box :=
  let? sp := scalar_product_interval (fst vc) (map fst tab) (map snd tab) corr in
  let '(dn, up, _) := sp in
  let vdo := - up in let vup := - dn in
  let nbits := sizeb vup - sizeb den_up - sizeb (snd vc) in
  let dec := if nbits <=? 0 then prec - nbits else prec in
  let vup := vup * 2 ^ dec in let vdo := vdo * 2 ^ dec in
  if vup <? vdo then None
  else let? q := box_quot den_do den_up vdo vup (snd vc) in
       Some {| val_do := fst q; k_do := dec; val_up := snd q; k_up := dec; bexact := false |}.
Definition lazy_root (fuel fuel2 : nat) (p : param) (rt : interval) (prec : Z) : option (list box) :=
  if isexact rt then single_exact p rt (Z.max (ik rt) prec)
  else
    let? r := lazy_loop fuel fuel2 p rt (2 * (nsols p + ik rt)) in
    let '(rt', corr, (dn, up)) := r in
    if isexact rt' then single_exact p rt' (Z.max prec (ik rt'))
    else
      let? l := opt_map (lazy_coord (table_full rt' (nsols p) corr) corr dn up prec) (coords p) in
      Some (l ++ [{| val_do := numer rt'; k_do := ik rt'; val_up := numer rt' + 1; k_up := ik rt'; bexact := false |}]).

(** ** l.3104-3138, normalize_points. [twos fuel v b] is the first while loop. *)
Fixpoint twos (fuel : nat) (v b : Z) : option Z :=
  match fuel with
  | O => None
  | S f => if negb (v =? 0) && (v mod 2 ^ (b + 1) =? 0) then twos f v (b + 1) else Some b
  end.
Definition normalize_val (v k : Z) : option (Z * Z) :=
  let? b := twos (S (Z.to_nat (sizeb v))) v 0 in
  let b := Z.min b k in
  if b =? 0 then Some (v, k)
  else if b <? 0 then None
  else Some (Z.quot v (2 ^ b), k - b).
Definition normalize_box (x : box) : option box :=
  let? u := normalize_val (val_up x) (k_up x) in
  let? d := normalize_val (val_do x) (k_do x) in
  Some {| val_do := fst d; k_do := snd d; val_up := fst u; k_up := snd u; bexact := bexact x |}.
(** extract_real_roots_param, l.3140-3210 *)
Definition extract_roots (fuel fuel2 : nat) (p : param) (roots : list interval) (prec : Z) : option (list (list box)) :=
  let? pts := opt_map (fun rt => lazy_root fuel fuel2 p rt prec) roots in
  opt_map (opt_map normalize_box) pts.
