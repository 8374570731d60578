(** Model of the reconstruction of a whole coefficient vector and of the modular checks of a lifted
    parametrization. Source: /repo/src/msolve/msolve.c l.1008-1134 and l.1405-1490.
    Arrays of mpz_t are functions nat -> Z (all indices used are < len, which is the allocated length). *)
From Coq Require Import ZArith List Bool Lia.
From Verif Require Import ModInvModel CrtModel.
Open Scope Z_scope.

Definition arr := nat -> Z.
Definition upd (a : arr) (i : nat) (v : Z) : arr := fun j => if Nat.eqb j i then v else a j.

(** Outcome of a vector reconstruction: the C return value, the new *maxrec, recons and denominator. *)
Record vres := { v_ok : bool; v_maxrec : nat; v_recons : arr; v_den : Z }.

(** One pass [for (i = start; i < start + n; i++)] calling the scalar reconstruction [f] on each index and storing the
    result, msolve.c l.1020-1030, l.1031-1045, l.1081-1092. Returns the index where it failed, if any. *)
Fixpoint rec_up (f : nat -> option (bool * Z * Z)) (i n : nat) (tn td : arr)
  : option (option nat * arr * arr) :=
  match n with
  | O => Some (None, tn, td)
  | S n' =>
      let? r := f i in
      let '(b, x, y) := r in
      if b then rec_up f (S i) n' (upd tn i x) (upd td i y)
      else Some (Some i, tn, td)
  end.

(** [mpz_set(lcm, td[s]); for (i = s+1; i < s+1+n; i++) mpz_lcm(lcm, lcm, td[i])]. *)
Fixpoint lcm_up (l : Z) (i n : nat) (td : arr) : Z :=
  match n with
  | O => l
  | S n' => lcm_up (Z.lcm l (td i)) (S i) n' td
  end.

(** Final scaling, msolve.c l.1047-1060 and l.1120-1132: recons[i] = num[i] * (lcm / den[i]). *)
Definition finish (maxrec len : nat) (recons0 tn td : arr) : vres :=
  let lcm := lcm_up (td 0%nat) 1 (len - 1) td in
  {| v_ok := true; v_maxrec := maxrec;
     v_recons := fun i => if Nat.ltb i len then tn i * (lcm / td i) else recons0 i;
     v_den := lcm |}.

Definition fail (maxrec : nat) (recons0 : arr) (den0 : Z) : vres :=
  {| v_ok := false; v_maxrec := maxrec; v_recons := recons0; v_den := den0 |}.

(** msolve.c l.1008-1060 [rational_reconstruction_mpz_ptr]. *)
Definition rational_reconstruction (recons0 : arr) (den0 : Z) (pol : arr) (len : nat) (m : Z)
    (maxrec : nat) (tn td : arr) (N D : Z) : option vres :=
  let? r := ratrecon (pol maxrec) m N D in
  let '(b, x, y) := r in
  if negb b then Some (fail maxrec recons0 den0) else
  let tn := upd tn maxrec x in
  let td := upd td maxrec y in
  let f := fun i => ratrecon (pol i) m N D in
  let? r1 := rec_up f (maxrec + 1) (len - (maxrec + 1)) tn td in
  let '(e1, tn, td) := r1 in
  match e1 with
  | Some i => Some (fail (i - 1) recons0 den0)
  | None =>
      let? r2 := rec_up f 0 maxrec tn td in
      let '(e2, tn, td) := r2 in
      match e2 with
      | Some i => Some (fail (Nat.max (i - 1) 0) recons0 den0)
      | None => Some (finish maxrec len recons0 tn td)
      end
  end.

(** The downward loop l.1107-1119: reconstruct coefficient i with the denominator guess [newlcm], then multiply the
    denominator found by newlcm / guessed_den. [i] counts down: the loop body runs on index [i-1]. *)
Fixpoint rec_down (pol : arr) (m gden N D : Z) (i : nat) (newlcm : Z) (tn td : arr)
  : option (option nat * arr * arr) :=
  match i with
  | O => Some (None, tn, td)
  | S j =>
      let? r := ratreconwden (pol j) m newlcm N D in
      let '(b, x, y) := r in
      if b then
        if gden =? 0 then None else
        let rden := newlcm / gden in
        rec_down pol m gden N D j (Z.lcm newlcm rden) (upd tn j x) (upd td j (y * rden))
      else Some (Some j, upd tn j x, upd td j y)
  end.

(** msolve.c l.1062-1134 [rational_reconstruction_mpz_ptr_with_denom]. Also returns the modified bounds
    rdata->N, rdata->D (l.1104-1105). *)
Definition rational_reconstruction_wden (recons0 : arr) (den0 : Z) (pol : arr) (len : nat) (m : Z)
    (maxrec : nat) (tn td : arr) (gden N D : Z) : option (vres * Z * Z) :=
  let? r := ratreconwden (pol maxrec) m gden N D in
  let '(b, x, y) := r in
  if negb b then Some (fail maxrec recons0 den0, N, D) else
  let tn := upd tn maxrec x in
  let td := upd td maxrec y in
  let f := fun i => ratreconwden (pol i) m gden N D in
  let? r1 := rec_up f (maxrec + 1) (len - (maxrec + 1)) tn td in
  let '(e1, tn, td) := r1 in
  match e1 with
  | Some i => Some (fail (Nat.max 0 (i - 1)) recons0 den0, N, D)
  | None =>
      let lcm := lcm_up (td maxrec) (maxrec + 1) (len - (maxrec + 1)) td in
      let newlcm := lcm * gden in
      let D' := D / lcm in
      let N' := N * lcm in
      let? r2 := rec_down pol m gden N' D' maxrec newlcm tn td in
      let '(e2, tn, td) := r2 in
      match e2 with
      | Some i => Some (fail (Nat.max (i + 1) 0) recons0 den0, N', D')
      | None => Some (finish maxrec len recons0 tn td, N', D')
      end
  end.

(** msolve.c l.1405-1422 [check_unit_mpz_nmod_poly]; mpz_fdiv_ui is the non-negative remainder; the
    product of two residues fits 64 bits. Returns 0 or the 1-based index of the first mismatch. *)
Fixpoint check_unit_loop (lcinv : Z) (i n : nat) (pol : arr) (nm : arr) (p : Z) : nat :=
  match n with
  | O => 0%nat
  | S n' =>
      let c := (((pol i) mod p * lcinv) mod 2 ^ 64) mod p in
      if negb (c =? nm i) then S i else check_unit_loop lcinv (S i) n' pol nm p
  end.

Definition check_unit_mpz_nmod_poly (len : nat) (pol nm : arr) (p : Z) : option nat :=
  if p =? 0 then None else
  let lc := (pol (len - 1)%nat) mod p in
  let? lc := mod_p_inverse_32 lc p in
  Some (check_unit_loop lc 0 len pol nm p).

(** msolve.c l.1424-1448 [check_param_nmod_poly]. [inv] is what mpz_invert leaves in binv: when the
    argument is invertible, its inverse in [0,p); otherwise GMP says the value is undefined, so the model takes it
    from [undef]. *)
Fixpoint check_param_loop (inv : Z) (i n : nat) (pol nm : arr) (p : Z) : bool :=
  match n with
  | O => false
  | S n' =>
      if negb ((pol i * inv) mod p =? (nm i) mod p) then true
      else check_param_loop inv (S i) n' pol nm p
  end.

Definition check_param_nmod_poly (undef : Z) (len : nat) (pol : arr) (den lcelim nbsol : Z) (nm : arr) (p : Z)
  : bool :=
  match len with
  | O => false
  | _ =>
      let b := lcelim * den * nbsol in
      let binv := match n_invmod (b mod p) p with Some r => r | None => undef end in
      check_param_loop (binv mod p) 0 len pol nm p
  end.
