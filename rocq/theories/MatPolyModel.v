(** Model of the polynomials with matrix coefficients: lengths, allocation, truncation, copies and shifts.
    Source: /repo/src/upolmat/nmod_mat_poly.h lines 165-245 and 361-415, nmod_mat_poly_mem.c lines 104-171, nmod_mat_poly_shift.c lines 24-68.
    Simplifications, for the whole file: a coefficient (a matrix) is an element of a type with a zero and a test for zero; the array of
    coefficients is a function, of which the first [len] positions are initialised and the first [al] allocated; an access outside the initialised
    positions, or a length above the allocation, is [None]; lengths and shifts are natural numbers (slong in the code). *)
From Coq Require Import Arith List Bool Lia.
From Verif Require Import ModInvModel.

Section M.
Context {A : Type}.
Variable (zero : A) (isz : A -> bool).

Record mpol := { cf : nat -> A; len : nat; al : nat }.

(** nmod_mat_poly.h l.172-182: positions beyond the old length are initialised with zeros. *)
Definition set_length (s : mpol) (l : nat) : option mpol :=
  if al s <? l then None else Some {| cf := fun d => if d <? len s then cf s d else zero; len := l; al := al s |}.

(** nmod_mat_poly.h l.187-195. *)
Fixpoint norm (f : nat -> A) (l : nat) : nat := match l with O => O | S k => if isz (f k) then norm f k else S k end.

(** nmod_mat_poly.h l.375-385. *)
Definition truncate (s : mpol) (o : nat) : mpol := if o <? len s then {| cf := cf s; len := norm (cf s) o; al := al s |} else s.

(** nmod_mat_poly_mem.c l.133-155. *)
Definition realloc (s : mpol) (a : nat) : mpol :=
  if a =? 0 then {| cf := cf s; len := 0; al := 0 |}
  else if al s =? 0 then {| cf := cf s; len := len s; al := a |}
  else let t := truncate s a in {| cf := cf t; len := len t; al := a |}.

(** nmod_mat_poly_mem.c l.157-169. *)
Definition fit (s : mpol) (a : nat) : mpol := if al s <? a then realloc s (if a <? 2 * al s then 2 * al s else a) else s.

(** One assignment; the position must be initialised. *)
Definition store (s : mpol) (i : nat) (v : A) : option mpol :=
  if i <? len s then Some {| cf := fun d => if d =? i then v else cf s d; len := len s; al := al s |} else None.
Definition load (s : mpol) (i : nat) : option A := if i <? len s then Some (cf s i) else None.

(** dst[n + i] := src[i] for i from [i] on, [k] times. *)
Fixpoint copy (n i k : nat) (src dst : mpol) : option mpol :=
  match k with
  | O => Some dst
  | S k' => let? v := load src i in let? d := store dst (n + i) v in copy n (S i) k' src d
  end.

(** nmod_mat_poly_shift.c l.38-39: exchange of the positions n + i and i for i = k-1 down to 0. *)
Fixpoint swaps (n k : nat) (s : mpol) : option mpol :=
  match k with
  | O => Some s
  | S i => let? u := load s (n + i) in let? v := load s i in let? s1 := store s i u in let? s2 := store s1 (n + i) v in swaps n i s2
  end.

(** l.42-43. *)
Fixpoint zeros (i k : nat) (s : mpol) : option mpol :=
  match k with O => Some s | S k' => let? s1 := store s i zero in zeros (S i) k' s1 end.

(** nmod_mat_poly_mem.c l.104-116, two different polynomials. *)
Definition set_from (dst src : mpol) : option mpol :=
  let? d := set_length (fit dst (len src)) (len src) in copy 0 0 (len src) src d.

(** nmod_mat_poly_shift.c l.50-68, two different polynomials.  The number of coefficients copied is length - n (l.67). *)
Definition shift_to (dst src : mpol) (n : nat) : option mpol :=
  if n =? 0 then set_from dst src
  else if len src =? 0 then set_length dst 0
  else let? d := set_length (fit dst (len src + n)) (len src + n) in
       let? d := copy n 0 (len src - n) src d in zeros 0 n d.

(** The same with both arguments the same object: the length read in l.67 is already the new one. *)
Definition shift_in_place (s : mpol) (n : nat) : option mpol :=
  if n =? 0 then Some s
  else if len s =? 0 then set_length s 0
  else let? d := set_length (fit s (len s + n)) (len s + n) in
       let? d := swaps n (len d - n) d in zeros 0 n d.

(** nmod_mat_poly.h l.366-370. *)
Definition is_constant (s : mpol) : bool := len s =? 0.
End M.
Arguments mpol : clear implicits.
