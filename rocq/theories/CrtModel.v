(** Model of the CRT step and of rational reconstruction.
    Sources: /repo/src/crt/mpz_CRT_ui.c, /repo/src/crt/mpq_reconstruct.c,
    /repo/src/crt/ulong_extras.h.
    GMP integers are Z; [mpz_fdiv_q], [mpz_fdiv_ui], [mpz_mod] with a positive divisor are Coq's
    [Z.div]/[Z.modulo]. [None] stands for abort (exit / flint_throw), division by zero or a loop that does
    not end within the fuel. *)
From Coq Require Import ZArith List Bool Lia.
From Verif Require Import ModInvModel.
Open Scope Z_scope.

(** Extended Euclid used to give a concrete meaning to FLINT's [n_gcdinv] (not in the repository:
    ulong_extras.h l.110 includes it from FLINT). Only its documented contract is used in the proofs:
    for gcd(x,y) = 1 the result is in [0,y) and is an inverse of x modulo y. *)
Fixpoint egcd_loop (fuel : nat) (a b c d : Z) : Z :=
  match fuel with
  | O => d
  | S k => if b =? 0 then d else egcd_loop k b (a - a / b * b) (d - a / b * c) c
  end.

(** ulong_extras.h l.112-123 [n_invmod]: aborts when x is not invertible modulo y. *)
Definition n_invmod (x y : Z) : option Z :=
  if Z.gcd x y =? 1
  then Some (egcd_loop (Z.to_nat (2 * Z.log2 y + 3)) y (x mod y) 1 0 mod y)
  else None.

(** ulong_extras.h l.90-97; machine words, written with the wrap at 2^64. *)
Definition n_submod (x y n : Z) : Z :=
  if y >? x then ((x - y) mod 2 ^ 64 + n) mod 2 ^ 64 else x - y.

(** ulong_extras.h l.56-65; [umul_ppmm]+[n_ll_mod_preinv] is the exact remainder of the double-word product. *)
Definition n_mulmod2 (a b n : Z) : Z := (a * b) mod n.

(** mpz_CRT_ui.c l.28-60. *)
Definition mpz_CRT_ui_precomp (r1 m1 r2 m2 m1m2 c : Z) (sign : bool) : Z :=
  let tmp := if r1 <? 0 then r1 + m1 else r1 in
  let r1mod := tmp mod m2 in
  let s := n_submod r2 r1mod m2 in
  let s := n_mulmod2 s c m2 in
  let tmp := tmp + m1 * s in
  if sign then
    let out := tmp - m1m2 in
    if Z.abs tmp <=? Z.abs out then tmp else out
  else tmp.

(** mpz_CRT_ui.c l.69-87. *)
Definition mpz_CRT_ui (r1 m1 r2 m2 m1m2 : Z) (sign : bool) : option Z :=
  if m2 =? 0 then None else
  let c := m1 mod m2 in
  let? c := n_invmod c m2 in
  if c =? 0 then None else
  Some (mpz_CRT_ui_precomp r1 m1 r2 m2 m1m2 c sign).

(** lifting-gb.c l.833-848 [incremental_dlift_crt_full] for one coefficient, l.818-831, lifting.c
    l.406-414 and msolve.c l.974-985 (sign = 0 there): lift by one more prime and multiply the modulus. *)
Definition crt_incr (sign : bool) (st : Z * Z) (cp : Z * Z) : option (Z * Z) :=
  let '(x, m) := st in
  let '(c, p) := cp in
  let prod := m * p in
  let? x' := mpz_CRT_ui x m c p prod sign in
  Some (x', prod).

Fixpoint crt_fold (sign : bool) (st : Z * Z) (l : list (Z * Z)) : option (Z * Z) :=
  match l with
  | nil => Some st
  | cp :: l' => let? st' := crt_incr sign st cp in crt_fold sign st' l'
  end.

(** The Euclidean loop of [ratreconwden] (mpq_reconstruct.c l.223-236), [ratrecon] (l.286-299) and
    [_mpq_reconstruct_mpz_2] (l.80-85). *)
Fixpoint rr_loop (fuel : nat) (N r0 r1 t0 t1 : Z) : option (Z * Z) :=
  match fuel with
  | O => None
  | S k =>
      if r1 >? N then
        if r1 =? 0 then None else
        let q := r0 / r1 in
        rr_loop k N r1 (r0 - q * r1) t1 (t0 - q * t1)
      else Some (r1, t1)
  end.

Definition rr_fuel (m : Z) : nat := Z.to_nat (2 * Z.log2 m + 3).

(** The common tail: sign of d, bound and gcd test; mpq_reconstruct.c l.237-250, l.300-313, l.87-103. *)
Definition rr_final (D r1 t1 : Z) : bool * Z * Z :=
  let n := r1 in let d := t1 in
  let '(n, d) := if d <? 0 then (- n, - d) else (n, d) in
  let g := Z.gcd n d in
  ((d <=? D) && (g =? 1), n, d).

(** [while (u < 0) u += mod], mpq_reconstruct.c l.276-278, l.160-163, l.188-190. *)
Fixpoint add_loop (fuel : nat) (u m : Z) : option Z :=
  match fuel with
  | O => None
  | S k => if u <? 0 then add_loop k (u + m) m else Some u
  end.

(** mpq_reconstruct.c l.271-316. Output: (success, n, d). *)
Definition ratrecon (u m N D : Z) : option (bool * Z * Z) :=
  let? u := add_loop (S (Z.to_nat (- u))) u m in
  let? rt := rr_loop (rr_fuel m) N m u 0 1 in
  let '(r1, t1) := rt in Some (rr_final D r1 t1).

(** mpq_reconstruct.c l.204-253. *)
Definition ratreconwden (u m gden N D : Z) : option (bool * Z * Z) :=
  if m =? 0 then None else
  let u := u mod m in
  let r1 := (u * gden) mod m in
  let? rt := rr_loop (rr_fuel m) N m r1 0 1 in
  let '(r1, t1) := rt in Some (rr_final D r1 t1).

(** mpq_reconstruct.c l.37-111 (the output n, d on failure is not used by callers; it is what the code
    leaves in n, d). *)
Definition mpq_reconstruct_2 (a m N D : Z) : option (bool * Z * Z) :=
  if a <=? N then Some (true, a, 1) else
  let n := a - m in
  if (0 <=? n) && (n <=? N) then Some (true, n, 1) else
  if (n <? 0) && (- n <=? N) then Some (true, n, 1) else
  let? rt := rr_loop (rr_fuel m) N m a 0 1 in
  let '(r1, t1) := rt in Some (rr_final D r1 t1).

(** mpq_reconstruct.c l.122-135 and l.154-171. *)
Definition mpq_reconstruct_mpz (a m : Z) : option (bool * Z * Z) :=
  let? a := add_loop (S (Z.to_nat (- a))) a m in
  let N := Z.sqrt (m / 2) in
  mpq_reconstruct_2 a m N N.
