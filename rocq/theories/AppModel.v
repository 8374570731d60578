(** Model of the iterative computation of an approximant basis.
    Source: /repo/src/upolmat/nmod_mat_poly_mbasis.c lines 31-258, with nmod_mat_poly_arith.c lines 25-62 (one coefficient of a product) and
    nmod_mat_poly.h lines 172-182, 221-231, 420-460 (lengths, zero, identity, permutation of rows).
    Simplifications, for the whole file: matrices and polynomial matrices are functions of the indices, the number of coefficients being kept beside
    them (a coefficient is initialised with zeros when the length grows); shifts are in Z (slong in the code); the kernel of FLINT is an argument
    [ker], giving the matrix Xt of nmod_mat_left_nullspace.c and the nullity; qsort with a total order is an insertion sort; the shift of rows
    is the one for FLINT 3.3 and later (l.232-240); memory management is left out. *)
From Coq Require Import ZArith Arith List Bool Lia.
From Verif Require Import ModInvModel FglmSpec LnullModel.
Import ListNotations.
Open Scope Z_scope.

Record state := { ln : nat; co : nat -> nat -> nat -> Z; sh : nat -> Z }.

(** l.38-56, the comparison of (value, index). *)
Definition pair_le (a b : Z * nat) : bool := if fst a =? fst b then (snd a <=? snd b)%nat else fst a <? fst b.
Fixpoint ins (a : Z * nat) (l : list (Z * nat)) : list (Z * nat) :=
  match l with [] => [a] | b :: r => if pair_le a b then a :: b :: r else b :: ins a r end.
Fixpoint isort (l : list (Z * nat)) : list (Z * nat) := match l with [] => [] | a :: r => ins a (isort r) end.
(** l.68-83. *)
Definition shift_perm (m : nat) (s : nat -> Z) : list nat := map snd (isort (map (fun i => (s i, i)) (seq 0 m))).

(** nmod_mat_poly_arith.c l.25-62: coefficient of degree [k], with lengths [l1] and [l2]. *)
Definition mul_coeff (p : Z) (m l1 l2 : nat) (B F : nat -> nat -> nat -> Z) (k : nat) (i c : nat) : Z :=
  let ub := Nat.min (k + 1) l1 in
  let lb := (k + 1 - l2)%nat in
  (sumn (ub - lb) (fun e => sumn m (fun r => B (lb + e)%nat i r * F (k - (lb + e))%nat r c))) mod p.

(** _perm_inv: the position of [r] in the list. *)
Fixpoint idx (r : nat) (l : list nat) : nat := match l with [] => O | x :: l' => if (x =? r)%nat then O else S (idx r l') end.

(** l.171-246 for 0 < nullity < m: composition of the permutations, shift, rows permuted, constant update, length, multiplication by X, rows
    back in place.  [P] and [Y] are the results of the compact left nullspace. *)
Definition update (p : Z) (m nullity : nat) (perm P : list nat) (Y : list (list Z)) (st : state) : state :=
  let rank := (m - nullity)%nat in
  let piv := map (fun q => nth q perm 0%nat) P in
  let sh' := fun r => if existsb (Nat.eqb r) (firstn rank piv) then sh st r + 1 else sh st r in
  let B1 := fun d i j => co st d (nth i piv 0%nat) j in
  let B2 := fun d i j =>
    if (i <? rank)%nat then B1 d i j
    else if (d <? ln st)%nat then (B1 d i j + sumn rank (fun k => nth k (nth (i - rank) Y []) 0 * B1 d k j)) mod p else B1 d i j in
  let grow := existsb (fun i => existsb (fun j => negb (B2 (ln st - 1)%nat i j =? 0)) (seq 0 m)) (seq 0 rank) in
  let ln' := if grow then S (ln st) else ln st in
  let B3 := fun d i j =>
    if (i <? rank)%nat then (if (d <? ln')%nat then match d with O => 0 | S e => B2 e i j end else 0)
    else B2 d i j in
  {| ln := ln'; co := fun d r j => B3 d (idx r piv) j; sh := sh' |}.

(** l.129-247, [k] iterations left; the flag says that the loop was left by the break of l.160-165. *)
Fixpoint iterate (p : Z) (m n : nat) (ker : (nat -> nat -> Z) -> list (list Z) * nat) (flen : nat) (F : nat -> nat -> nat -> Z)
  (k ord : nat) (st : state) : option (state * bool) :=
  match k with
  | O => Some (st, false)
  | S k' =>
      let res := if (ord =? 0)%nat then F 0%nat else mul_coeff p m (ln st) flen (co st) F ord in
      let perm := shift_perm m (sh st) in
      let kr := ker (fun i c => res (nth i perm 0%nat) c) in
      let nullity := snd kr in
      let? PY := compact (fst kr) m nullity (repeat 0%nat m) in
      if (nullity =? 0)%nat then Some (st, true)
      else if (nullity <? m)%nat then iterate p m n ker flen F k' (S ord) (update p m nullity perm (fst PY) (snd PY) st)
      else iterate p m n ker flen F k' (S ord) st
  end.

Definition one (d i j : nat) : Z := match d with O => if (i =? j)%nat then 1 else 0 | S _ => 0 end.

(** l.85-258.  A zero input (length 0) gives x^order times the identity (l.95-101). *)
Definition mbasis (p : Z) (m n : nat) (ker : (nat -> nat -> Z) -> list (list Z) * nat) (flen : nat) (F : nat -> nat -> nat -> Z)
  (order : nat) (shift : nat -> Z) : option (state * bool) :=
  if (flen =? 0)%nat then
    Some ({| ln := (order + 1)%nat; co := fun d i j => if (d =? order)%nat then (if (i =? j)%nat then 1 else 0) else 0; sh := shift |}, false)
  else iterate p m n ker flen F order 0 {| ln := 1; co := one; sh := shift |}.
