(** Model of the divide and conquer computation of an approximant basis.
    Source: /repo/src/upolmat/nmod_poly_mat_pmbasis.c lines 28-74, nmod_poly_mat_utils.c lines 26-37 (middle product),
    nmod_mat_poly_set_from.c lines 51-74 (truncation), nmod_mat_poly.h lines 187-195 (normalisation), threshold nmod_poly_mat_pmbasis.h line 78.
    Simplifications, for the whole file: as in AppModel.v; a matrix of polynomials (array of polynomials in the code) and a polynomial with matrix
    coefficients are the same function of degree, row and column, with a length; FLINT's product, truncation and shift of matrices of polynomials
    are their definitions.  The recursion is bounded by [fuel]; running out of it is [None]. *)
From Coq Require Import ZArith Arith List Bool Lia.
From Verif Require Import ModInvModel FglmSpec AppModel.
Import ListNotations.
Open Scope Z_scope.

(** nmod_mat_poly.h l.187-195, and nmod_poly_mat_max_length: top coefficients that are zero are dropped. *)
Fixpoint trim (m n : nat) (F : nat -> nat -> nat -> Z) (l : nat) : nat :=
  match l with
  | O => O
  | S k => if forallb (fun i => forallb (fun c => F k i c =? 0) (seq 0 n)) (seq 0 m) then trim m n F k else S k
  end.

(** nmod_mat_poly_set_from.c l.51-74: the length of the truncation. *)
Definition trunc_len (m n flen : nat) (F : nat -> nat -> nat -> Z) (order : nat) : nat :=
  let len := trim m n F flen in
  let o := if (len <? order)%nat then len else order in
  if (o <? len)%nat then trim m n F o else o.

(** nmod_poly_mat_utils.c l.26-37: x^(-d) (A*B mod x^h). *)
Definition middle (p : Z) (m : nat) (A B : nat -> nat -> nat -> Z) (d h : nat) (t i c : nat) : Z :=
  if (d + t <? h)%nat then (sumn (S (d + t)) (fun e => sumn m (fun r => A e i r * B (d + t - e)%nat r c))) mod p else 0.

Definition product (p : Z) (m : nat) (A B : nat -> nat -> nat -> Z) (t i j : nat) : Z :=
  (sumn (S t) (fun e => sumn m (fun r => A e i r * B (t - e)%nat r j))) mod p.

(** l.28-74; [thres] is the macro PMBASIS_THRES, 32 in the sources (see [pmbasis_code]).  The flag says that one of the calls of mbasis got a zero matrix or was left early. *)
Fixpoint pmbasis (thres fuel : nat) (p : Z) (m n : nat) (ker : (nat -> nat -> Z) -> list (list Z) * nat) (flen : nat) (F : nat -> nat -> nat -> Z)
  (order : nat) (shift : nat -> Z) : option (state * bool) :=
  match fuel with
  | O => None
  | S f =>
      if (order <=? thres)%nat then
        let l := trunc_len m n flen F order in
        let? r := mbasis p m n ker l (fun d i c => if (d <? l)%nat then F d i c else 0) order shift in
        Some (fst r, ((l =? 0)%nat || snd r)%bool)
      else
        let order1 := (order / 2)%nat in
        let order2 := (order - order1)%nat in
        let? r1 := pmbasis thres f p m n ker flen F order1 shift in
        let? r2 := pmbasis thres f p m n ker (order - order1) (middle p m (co (fst r1)) F order1 order) order2 (sh (fst r1)) in
        Some ({| ln := (ln (fst r2) + ln (fst r1))%nat; co := product p m (co (fst r2)) (co (fst r1)); sh := sh (fst r2) |}, (snd r1 || snd r2)%bool)
  end.

(** The value of the sources, with enough fuel. *)
Definition pmbasis_code p m n ker flen F (order : nat) shift := pmbasis 32 (S order) p m n ker flen F order shift.
