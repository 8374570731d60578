(** Model of the evaluation routines of usolve/evaluate.c. A polynomial is its list of coefficients, constant term
    first; the degree argument is the length minus one. Exponents [k] are nonnegative in every call; mpz_mul_2exp by a
    negative amount is not modelled. *)
From Coq Require Import ZArith List Arith Bool.
From Verif Require Import ModInvModel TaylorModel.
Import ListNotations.
Local Open Scope bool_scope.
Open Scope Z_scope.

(** ** evaluate.c l.73-82, basic_mpz_poly_eval_at_point. [l] is the list of coefficients from the leading one down. *)
Fixpoint point_loop (l : list Z) (val c : Z) : Z :=
  match l with
  | [] => val
  | [a0] => val + a0
  | a :: l' => point_loop l' ((val + a) * c) c
  end.
Definition eval_point (u : list Z) (c : Z) : Z := point_loop (rev u) 0 c.

(** ** l.97-125, mpz_poly_eval_2exp_naive (and l.127-155, the same code with other argument types).
    [j] is deg - i. *)
Fixpoint eval2_loop (l : list Z) (j val c k : Z) : Z :=
  match l with
  | [] => val
  | [a0] => val + a0 * 2 ^ (j * k)
  | a :: l' => eval2_loop l' (j + 1) ((val + a * 2 ^ (j * k)) * c) c k
  end.
Definition eval_2exp (u : list Z) (c k : Z) : Z :=
  match rev u with
  | [] => 0
  | [a] => a
  | lead :: rest => eval2_loop rest 1 (lead * c) c k
  end.

(** ** l.157-240, mpz_poly_eval_interval: the bounds, and whether their signs differ. [None] is exit(1). *)
Definition itv_step (a b t dn up : Z) : Z * Z :=
  if 0 <=? a then
    if 0 <=? dn then (dn * a + t, up * b + t) else (dn * b + t, up * a + t)
  else
    if 0 <=? dn then (up * a + t, dn * b + t) else (up * b + t, dn * a + t).
Fixpoint itv_loop (l : list Z) (j a b k dn up : Z) : option (Z * Z) :=
  match l with
  | [] => Some (dn, up)
  | c :: l' => let r := itv_step a b (c * 2 ^ (k * j)) dn up in
               if snd r <? fst r then None else itv_loop l' (j + 1) a b k (fst r) (snd r)
  end.
Definition eval_interval (u : list Z) (k a b : Z) : option (Z * Z * bool) :=
  match rev u with
  | [] => Some (0, 0, false)
  | [c] => Some (c, c, false)
  | lead :: rest =>
    if negb (Z.sgn a =? Z.sgn b) && negb (a =? 0) && negb (b =? 0) then None
    else let? r := itv_loop rest 1 a b k lead lead in
         Some (fst r, snd r, negb (Z.sgn (fst r) =? Z.sgn (snd r)))
  end.

(** ** l.242-287, mpz_scalar_product_interval: bounds, and whether their signs differ. [None] is a read out of a table. *)
Fixpoint scal_loop (u xdo xup : list Z) (dn up : Z) : option (Z * Z) :=
  match u with
  | [] => Some (dn, up)
  | c :: u' =>
    match xdo, xup with
    | d :: xdo', p :: xup' =>
      if 0 <=? c then scal_loop u' xdo' xup' (dn + c * d) (up + c * p)
      else scal_loop u' xdo' xup' (dn + c * p) (up + c * d)
    | _, _ => None
    end
  end.
Definition scalar_product_interval (u xdo xup : list Z) (corr : Z) : option (Z * Z * bool) :=
  match u with
  | [] => Some (0, 0, false)
  | [c] => Some (c * 2 ^ corr, c * 2 ^ corr, false)
  | _ => let? r := scal_loop u xdo xup 0 0 in
         Some (fst r, snd r, negb (Z.sgn (fst r) =? Z.sgn (snd r)))
  end.
