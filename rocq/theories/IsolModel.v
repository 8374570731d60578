(** Model of the real root isolation, usolve/usolve.c (with usolve/utils.c and usolve/descartes.c).
    Conventions as in TaylorModel and DescModel. The flags are those [real_roots] sets: classical_algo = 0,
    hasrealroots = 0, search = 0. [None] is an access out of bounds, a loop that does not end, exit(1), or the end of
    the fuel given to the recursion. Printing, timing and statistics are left out. *)
From Coq Require Import ZArith List Arith Bool.
From Verif Require Import ModInvModel TaylorModel DescModel.
Import ListNotations.
Local Open Scope bool_scope.
Open Scope Z_scope.

(** ** usolve.c l.77-113, bound_roots *)
Definition bound_pow2 (a l : Z) (d : Z) : Z :=
  let pow := sizeb a - l in
  let pow2 := if 0 <? pow then pow / d else - ((- pow) / d) in
  if pow2 * d =? pow then pow2 else pow2 + 1.
(** [for (i = 0; i < deg; i++)]: [u] is the rest of the coefficients, the leading one excluded, [d] = deg - i. *)
Fixpoint bound_loop (u : list Z) (d : Z) (lead l M : Z) (b : bool) : bool * Z :=
  match u with
  | [] => (b, M)
  | a :: u' => if Z.sgn lead =? Z.sgn a then bound_loop u' (d - 1) lead l M b
               else let p := bound_pow2 a l d in
                    bound_loop u' (d - 1) lead l (if M <? p then p else M) false
  end.
Definition bound_roots (u : list Z) (deg : nat) : option Z :=
  let? lead := getz u deg in
  let l := sizeb lead - 1 in
  let r := bound_loop (firstn deg u) (Z.of_nat deg) lead l (- l) true in
  Some (if fst r then -1 else snd r + 1).

(** ** utils.c l.156-179, USOLVEmpz_poly_rescale_normalize_2exp_th *)
(** Coefficient [i] times 2^(i b), resp. 2^((deg-i)(-b)). *)
Fixpoint scale_up (u : list Z) (i b : Z) : list Z :=
  match u with [] => [] | a :: u' => a * 2 ^ (i * b) :: scale_up u' (i + 1) b end.
Fixpoint scale_down (u : list Z) (j b : Z) : list Z :=
  match u with [] => [] | a :: u' => a * 2 ^ (j * (- b)) :: scale_down u' (j - 1) b end.
Definition rescale_normalize (u : list Z) (b : Z) : option (list Z) :=
  let v := if 0 <? b then scale_up u 0 b else scale_down u (Z.of_nat (length u) - 1) b in
  let? r := remove_binary_content v in Some (snd r).

(** ** The tables kept in the flags: block size and powers of X+1 (l.405-438, 969-998) *)
Record flags := { pwx : nat; tbl : list (list Z) }.
(** initialize_heap_flags, l.965-998: tables for degree [deg]. *)
Definition make_tables (deg : nat) (p : nat) : option flags :=
  let npwr := if (deg <=? p)%nat then 0%nat else Nat.log2 (2 ^ Nat.log2 (deg / p)) in
  let? t := compute_shift_pwx npwr p in Some {| pwx := p; tbl := t |}.
Definition init_flags (deg : nat) : option flags :=
  let? p := compute_degpower deg in make_tables deg p.
(** l.403-438: new tables only if the block size changes. *)
Definition update_flags (deg : nat) (f : flags) : option flags :=
  let? p := compute_degpower deg in
  if (p =? pwx f)%nat then Some f else make_tables deg p.

(** ** Roots: c / 2^k exactly, or one root in (c / 2^k, (c+1) / 2^k) *)
Record entry := { ec : Z; ek : Z; exact : bool }.

(** l.349-364, sgn_mpz_upoly_eval_onehalf: 2^deg u(1/2). *)
Fixpoint eval_onehalf (u : list Z) (deg : Z) : Z :=
  match u with [] => 0 | a :: u' => a * 2 ^ deg + eval_onehalf u' (deg - 1) end.
Definition sgn_onehalf (u : list Z) : Z := Z.sgn (eval_onehalf u (Z.of_nat (length u) - 1)).

(** l.366-389, numer_quotient_uint with c = 1, k = 1. [quo_loop l] runs over the coefficients from the leading one
    down to index 1; mpz_div_2exp rounds down. *)
Fixpoint quo_loop (l : list Z) (prev : Z) : list Z :=
  match l with
  | [] => []
  | a :: l' => let b := a + prev / 2 in b :: quo_loop l' b
  end.
Definition numer_quotient (u : list Z) : option (list Z) :=
  let s := 2 ^ (Z.of_nat (length u) - 2) in
  match rev (map (fun a => a * s) (tl u)) with
  | [] => None
  | lead :: rest => let q := rev (lead :: quo_loop rest lead) in
                    let? r := remove_binary_content q in Some (snd r)
  end.

(** l.391-450, manage_root_at_one_half: new polynomial and flags, whether 1/2 was a root, sign at 1/2. *)
Definition manage_half (u : list Z) (f : flags) : option (list Z * flags * bool * Z) :=
  let sh := sgn_onehalf u in
  if sh =? 0 then
    let? u' := numer_quotient u in
    let sh' := sgn_onehalf u' in
    if sh' =? 0 then None
    else let? f' := update_flags (length u' - 1) f in Some (u', f', true, sh')
  else Some (u, f, false, sh).

(** l.282-346, is_zero_root. The degree used for the tables (cur_deg) is not changed here. *)
Definition is_zero_root (u : list Z) (c : Z) (k : nat) : option (list Z * list entry) :=
  let? a := getz u 0 in
  if a =? 0 then
    let? b := getz u 1 in
    if b =? 0 then None
    else Some (tl u, [{| ec := c; ek := Z.of_nat k; exact := true |}])
  else Some (u, []).

(** ** l.775-923, bisection_rec, on (c / 2^k, (c+1) / 2^k).
    Result: polynomial and flags as left in memory, value returned ([None] for -1), roots in the order of insertion. *)
Definition half_entry (c : Z) (k : nat) (b : bool) : list entry :=
  if b then [{| ec := 2 * c + 1; ek := Z.of_nat k + 1; exact := true |}] else [].

(** l.483-591 *)
Definition nb_1_case (c : Z) (k : nat) (half : bool) (bot top sh : Z) : list entry :=
  let k1 := Z.of_nat k + 1 in
  if half then
    if bot * sh <? 0 then [{| ec := 2 * c; ek := k1; exact := false |}; {| ec := 2 * c + 1; ek := k1; exact := true |}]
    else [{| ec := 2 * c + 1; ek := k1; exact := true |};
          if negb (top =? 0) then {| ec := 2 * c + 1; ek := k1; exact := false |}
          else {| ec := 2 * c + 2; ek := k1; exact := true |}]
  else if negb (top =? 0) then [{| ec := c; ek := Z.of_nat k; exact := false |}]
       else [{| ec := c + 1; ek := Z.of_nat k; exact := true |}].
(** l.594-669 *)
Definition nb_2_case (c : Z) (k : nat) (half : bool) (top : Z) : list entry :=
  let k1 := Z.of_nat k + 1 in
  [{| ec := 2 * c; ek := k1; exact := false |}] ++ half_entry c k half ++
  [if negb (top =? 0) then {| ec := 2 * c + 1; ek := k1; exact := false |}
   else {| ec := 2 * c + 2; ek := k1; exact := true |}].

Definition sign_at_one (u : list Z) : Z := Z.sgn (fold_right Z.add 0 u).

Fixpoint bisect (fuel : nat) (u : list Z) (f : flags) (c : Z) (k : nat)
  : option (list Z * flags * option nat * list entry) :=
  match fuel with
  | O => None
  | S fuel' =>
      let? z := is_zero_root u c k in
      let '(u, out0) := z in
      let? m := manage_half u f in
      let '(u, f, half, sh) := m in
      let deg := (length u - 1)%nat in
      let? nz := sgn_variations_is_zero u deg in
      if (nz =? 0)%nat then Some (u, f, None, out0 ++ half_entry c k half)
      else
        let? nb := descartes u deg (tbl f) (pwx f) in
        let? a := getz u 0 in
        let bot := Z.sgn a in
        let top := sign_at_one u in
        if (nb =? 0)%nat then Some (u, f, Some k, out0 ++ half_entry c k half)
        else if (nb =? 1)%nat then Some (u, f, Some k, out0 ++ nb_1_case c k half bot top sh)
        else if (nb =? 2)%nat && ((bot * sh <? 0) && (top * sh <=? 0)) then
          Some (u, f, Some k, out0 ++ nb_2_case c k half top)
        else (* l.672-770, nb_default_case_in_bisection_rec *)
          let? u := rescale_normalize u (-1) in
          let? r := bisect fuel' u f (2 * c) (S k) in
          let '(u, f, oldk, out1) := r in
          let out := out0 ++ out1 ++ half_entry c k half in
          match oldk with
          | None => Some (u, f, None, out)
          | Some ok =>
              let? u := taylorshift1_dac u (length u - 1) (tbl f) (pwx f) in
              let? u := if (S k <? ok)%nat then rescale_normalize u (Z.of_nat ok - Z.of_nat (S k)) else Some u in
              let? r := bisect fuel' u f (2 * c + 1) (S k) in
              let '(u, f, oldk, out2) := r in
              Some (u, f, oldk, out ++ out2)
          end
  end.

(** ** l.154-208, merge_root: interval record from (c, k), the bound and the sign. *)
Record interval := { numer : Z; ik : Z; isexact : bool }.
Definition merge_root (neg : bool) (b : Z) (e : entry) : interval :=
  let n := if neg then (if exact e then - ec e else - ec e - 1) else ec e in
  if ek e <=? b then
    {| numer := n * 2 ^ (b - ek e); ik := if exact e then 0 else ek e - b; isexact := exact e |}
  else {| numer := n; ik := ek e - b; isexact := exact e |}.

(** ** l.1086-1263, bisection_Uspensky *)
Fixpoint negate_odd (odd : bool) (u : list Z) : list Z :=
  match u with [] => [] | a :: u' => (if odd then - a else a) :: negate_odd (negb odd) u' end.
(** One of the two calls: bound, rescaling, recursion from (0, 0). *)
Definition isolate_side (fuel : nat) (neg : bool) (u : list Z) : option (list interval) :=
  let deg := (length u - 1)%nat in
  if (deg =? 0)%nat then Some []
  else
    let? b := bound_roots u deg in
    let? v := rescale_normalize u b in
    let? f := init_flags deg in
    let? r := bisect fuel v f 0 0 in
    let '(_, _, _, out) := r in
    Some (map (merge_root neg b) out).
(** Negative roots in reversed order, then zero, then the positive roots. The signs (assign_sign_left) are not modelled. *)
Definition isolate (fuel : nat) (u0 : list Z) : option (list interval) :=
  let? a0 := getz u0 0 in
  let? z := if a0 =? 0 then (let? a1 := getz u0 1 in
                             if a1 =? 0 then None else Some (tl u0, [{| numer := 0; ik := 0; isexact := true |}]))
            else Some (u0, []) in
  let '(u, zero) := z in
  let? pos := isolate_side fuel false u in
  let? neg := isolate_side fuel true (negate_odd false u) in
  Some (rev neg ++ zero ++ pos).
