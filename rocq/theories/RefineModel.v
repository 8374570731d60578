(** Model of the refinement of isolating intervals, usolve/refine.c, and of the calls made by real_roots (usolve.c
    l.1266-1355). [None] is exit(1), division by zero, an access out of bounds or the end of the fuel given to the main
    loop. Exponents and precisions are unbounded integers (int and int64_t in the C code). *)
From Coq Require Import ZArith List Arith Bool.
From Verif Require Import ModInvModel TaylorModel DescModel IsolModel EvalModel.
Import ListNotations.
Local Open Scope bool_scope.
Open Scope Z_scope.

(** ** utils.c l.107-131, USOLVEnumer_quotient: division by (x - c/2^k). mpz_div_2exp rounds down. *)
Fixpoint quo_ck (l : list Z) (prev c k : Z) : list Z :=
  match l with
  | [] => []
  | a :: l' => let b := a + prev / 2 ^ k * c in b :: quo_ck l' b c k
  end.
Definition quotient (u : list Z) (c k : Z) : option (list Z) :=
  let s := 2 ^ ((Z.of_nat (length u) - 2) * k) in
  match rev (map (fun a => a * s) (tl u)) with
  | [] => None
  | lead :: rest => let q := rev (lead :: quo_ck rest lead c k) in
                    let? r := remove_binary_content q in Some (snd r)
  end.

(** Polynomial, interval, and the values at its two ends (tab[0], tab[1]; only their signs and the interpolation
    depend on them, and the two may be scaled differently). *)
Record rstate := { rpol : list Z; rint : interval; rva : Z; rvb : Z }.

(** ** refine.c l.28-39, make_exact_root *)
Definition make_exact (u : list Z) (x newk va vb : Z) : option rstate :=
  let? q := quotient u x (if 0 <=? newk then newk else 0) in
  Some {| rpol := q; rint := {| numer := x; ik := newk; isexact := true |}; rva := va; rvb := vb |}.
Definition make_sub (u : list Z) (x newk va vb : Z) : option rstate :=
  Some {| rpol := u; rint := {| numer := x; ik := newk; isexact := false |}; rva := va; rvb := vb |}.

(** ** l.41-60, index_linearinterp: the index returned (-1: use the second component, -2: too large) and the quotient.
    mpz_tdiv_q truncates, mpz_get_ui forgets the sign. *)
Definition index_linearinterp (va vb N : Z) : option (Z * Z) :=
  if va - vb =? 0 then None
  else let q := Z.quot (va * 2 ^ N) (va - vb) in
       let size := sizeb q in
       Some (if 64 <=? size then (if N <? size then -2 else -1) else Z.abs q, q).

(** ** l.128-154 and l.180-216, right_interval_2exp and right_interval inside their loops; l.156-178 and l.218-259,
    left_interval_2exp and left_interval. The points are x, x+unit, ... over 2^e. In the C code the loop of l.366-372
    has the extra condition index <= maxindex; leaving the loop by it is an error here (None), as is the end of
    the fuel. *)
Fixpoint right_loop (fuel : nat) (u : list Z) (x b va vb unit e newk : Z) : option rstate :=
  match fuel with
  | O => None
  | S f => let x1 := b in let va1 := vb in
           let b1 := x1 + unit in let vb1 := eval_2exp u b1 e in
           if Z.sgn vb1 =? 0 then make_exact u b1 newk va1 vb1
           else if negb (Z.sgn va1 =? Z.sgn vb1) then make_sub u x1 newk va1 vb1
           else right_loop f u x1 b1 va1 vb1 unit e newk
  end.
Fixpoint left_loop (fuel : nat) (u : list Z) (x b va vb unit e newk : Z) : option rstate :=
  match fuel with
  | O => None
  | S f => let x1 := x - unit in let va1 := eval_2exp u x1 e in
           let vb1 := va in
           if Z.sgn va1 =? 0 then make_exact u x1 newk va1 vb1
           else if negb (Z.sgn va1 =? Z.sgn vb1) then make_sub u x1 newk va1 vb1
           else left_loop f u x1 x va1 vb1 unit e newk
  end.

(** ** l.261-407, refine_root_by_N_positive_k, and l.409-574, refine_root_by_N_negative_k. Both compute with the points
    (base + j unit) / 2^e: base = 2^N numer, unit = 1, e = k + N in the first one; base = numer, unit = 2^(-k-N),
    e = 0 or base = 2^(k+N) numer, unit = 1, e = k + N in the second one (with k negative). The second component of the
    result is the success flag. After the right loop the C code reaches the test sgna != sgnx, which is false
    there. *)
Definition refine_core (u : list Z) (rt : interval) (va vb N base unit e newk : Z) : option (rstate * bool) :=
  let keep := {| rpol := u; rint := rt; rva := va; rvb := vb |} in
  let? r := index_linearinterp va vb N in
  let '(index, gmp) := r in
  let bad := (index =? -2) || (index =? 0) || ((N <? Z.log2 index) && (0 <? index)) in
  if bad && negb (N =? 2) then Some (keep, false)
  else
    let index := if bad then 2 else index in
    let x := if 0 <=? index then base + index * unit else base + gmp * unit in
    let vx := eval_2exp u x e in
    if Z.sgn vx =? 0 then let? s := make_exact u x newk vx vb in Some (s, true)
    else if Z.sgn va =? Z.sgn vx then
      if (index =? 3) && (N =? 2) then let? s := make_sub u x newk vx vb in Some (s, true)
      else
        let b1 := x + unit in
        let vb1 := eval_2exp u b1 e in
        if Z.sgn vb1 =? 0 then let? s := make_exact u b1 newk vx vb1 in Some (s, true)
        else if negb (Z.sgn vx =? Z.sgn vb1) then let? s := make_sub u x newk vx vb1 in Some (s, true)
        else if negb (N =? 2) then Some (keep, false)
        else let? s := right_loop 6 u x b1 vx vb1 unit e newk in Some (s, false)
    else
      if index =? 1 then let? s := make_sub u base newk va vx in Some (s, true)
      else
        let x1 := x - unit in
        let vx1 := eval_2exp u x1 e in
        if Z.sgn vx1 =? 0 then let? s := make_exact u x1 newk vx1 vx in Some (s, true)
        else if negb (Z.sgn vx1 =? Z.sgn vx) then let? s := make_sub u x1 newk vx1 vx in Some (s, true)
        else if negb (N =? 2) then Some (keep, false)
        else let? s := left_loop 6 u x1 x vx1 vx unit e newk in Some (s, false).

(** l.598-623, refine_positive_root_by_N *)
Definition refine_by_N (s : rstate) (N : Z) : option (rstate * bool) :=
  let rt := rint s in
  let k := ik rt in
  if isexact rt then Some (s, true)
  else if k <? 0 then
    if 0 <=? - k - N then refine_core (rpol s) rt (rva s) (rvb s) N (numer rt) (2 ^ (- k - N)) 0 (k + N)
    else refine_core (rpol s) rt (rva s) (rvb s) N (numer rt * 2 ^ (k + N)) 1 (k + N) (k + N)
  else refine_core (rpol s) rt (rva s) (rvb s) N (numer rt * 2 ^ N) 1 (k + N) (k + N).

(** l.625-652, refine_QIR_positive_root; [N] starts at 2. *)
Fixpoint qir_loop (fuel : nat) (s : rstate) (prec N : Z) : option rstate :=
  match fuel with
  | O => None
  | S f =>
    if isexact (rint s) || (prec <=? ik (rint s)) then Some s
    else
      let? r := refine_by_N s N in
      let '(s', success) := r in
      if isexact (rint s') then Some s'
      else if Z.sgn (rva s') =? Z.sgn (rvb s') then None
      else
        let N' := if success then (if N <? prec - ik (rint s') then 2 * N else N)
                  else (if 2 <? N then N / 2 else N) in
        qir_loop f s' prec N'
  end.

(** l.655-670, get_values_at_bounds *)
Definition values_at_bounds (u : list Z) (rt : interval) : Z * Z :=
  if 0 <? ik rt then (eval_2exp u (numer rt) (ik rt), eval_2exp u (numer rt + 1) (ik rt))
  else (eval_point u (numer rt), eval_point u (2 ^ (- ik rt) + numer rt)).

(** l.707-720, remove_exact_roots_by_division *)
Fixpoint remove_exact_roots (u : list Z) (l : list interval) : option (list Z) :=
  match l with
  | [] => Some u
  | rt :: l' => if isexact rt then
                  let? q := quotient u (numer rt) (if ik rt <? 0 then 0 else ik rt) in remove_exact_roots q l'
                else remove_exact_roots u l'
  end.

(** ** l.881-1059, refine_QIR_roots_adaptative *)
Definition refine_pos_root (fuel : nat) (u : list Z) (rt : interval) (prec : Z) : option rstate :=
  let v := values_at_bounds u rt in
  if (Z.sgn (fst v) =? 0) || (Z.sgn (snd v) =? 0) then None
  else
    let? s := qir_loop fuel {| rpol := u; rint := rt; rva := fst v; rvb := snd v |} prec 2 in
    if Z.sgn (rva s) =? Z.sgn (rvb s) then None else Some s.
Definition clear_k (rt : interval) : interval :=
  if isexact rt && (ik rt <? 0) then {| numer := numer rt; ik := 0; isexact := true |} else rt.
(** Mirror image of a record that is not exact (first half of the loop body, l.916-940). *)
Definition mirror (rt : interval) : interval :=
  {| numer := if 0 <? ik rt then - (numer rt + 1) else - (numer rt + 2 ^ (- ik rt)); ik := ik rt; isexact := isexact rt |}.
(** Back to a negative root (l.962-981); "we assume precision >= 0". *)
Definition mirror_back (rt : interval) : interval :=
  if isexact rt then {| numer := - numer rt; ik := ik rt; isexact := true |}
  else {| numer := - (numer rt + 1); ik := ik rt; isexact := false |}.
Definition extra (u : list Z) (d : Z) : Z := ((Z.of_nat (length u) - 1 - 1) * Z.max 0 d) / 32.
Fixpoint refine_negs (fuel : nat) (u : list Z) (l : list interval) (prec : Z) : option (list Z * list interval) :=
  match l with
  | [] => Some (u, [])
  | rt :: l' =>
    let? r := if isexact rt then Some (u, clear_k rt)
              else let pos := mirror rt in
                   let d := 1 + sizeb (numer pos) - ik rt in
                   let? s := refine_pos_root fuel u pos (prec + extra u d) in
                   Some (rpol s, mirror_back (clear_k (rint s))) in
    let? t := refine_negs fuel (fst r) l' prec in
    Some (fst t, snd r :: snd t)
  end.
Fixpoint refine_poss (fuel : nat) (u : list Z) (l : list interval) (prec : Z) : option (list Z * list interval) :=
  match l with
  | [] => Some (u, [])
  | rt :: l' =>
    let? r := if isexact rt then Some (u, rt)
              else let d := 1 + sizeb (numer rt) - ik rt in
                   let? s := refine_pos_root fuel u rt (prec + extra u (1 + d)) in
                   Some (rpol s, clear_k (rint s)) in
    let? t := refine_poss fuel (fst r) l' prec in
    Some (fst t, snd r :: snd t)
  end.
Definition refine_adaptative (fuel : nat) (u : list Z) (neg pos : list interval) (prec : Z) : option (list interval) :=
  let? u1 := remove_exact_roots u (neg ++ pos) in
  let? rn := refine_negs fuel (negate_odd false u1) neg prec in
  let? rp := refine_poss fuel (negate_odd false (fst rn)) pos prec in
  Some (snd rn ++ snd rp).

(** ** usolve.c l.1266-1355, real_roots. The isolation with the negative records apart (nb_neg_roots): *)
Definition isolate_parts (fuel : nat) (u0 : list Z) : option (list interval * list interval) :=
  let? a0 := getz u0 0 in
  let? z := if a0 =? 0 then (let? a1 := getz u0 1 in
                             if a1 =? 0 then None else Some (tl u0, [{| numer := 0; ik := 0; isexact := true |}]))
            else Some (u0, []) in
  let '(u, zero) := z in
  let? pos := isolate_side fuel false u in
  let? neg := isolate_side fuel true (negate_odd false u) in
  Some (rev neg, zero ++ pos).
Definition real_roots (fuel : nat) (u : list Z) (prec : Z) : option (list interval) :=
  let? r := isolate_parts fuel u in
  let neg := map clear_k (fst r) in
  let pos := map clear_k (snd r) in
  let? l := if negb (length (neg ++ pos) =? 0)%nat && (0 <=? prec) then refine_adaptative fuel u neg pos prec
            else Some (neg ++ pos) in
  Some (map clear_k l).
