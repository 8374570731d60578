(** Model of the left nullspace of a matrix modulo a prime.
    Source: /repo/src/upolmat/nmod_mat_left_nullspace.c lines 25-112 (contract in nmod_mat_extra.h lines 40-82).
    Simplifications, for the whole file: matrices are lists of rows; indices are [nat] (slong in the code); the transposition and FLINT's
    nmod_mat_nullspace (l.56-64) are not modelled, their result [Xt] is an argument; memory management is left out.  Reading or writing outside a
    matrix or the array [permutation], and the event "we should never arrive at (permutation[j] < 0)" (l.82), are [None]. *)
From Coq Require Import ZArith Arith List Bool Lia.
From Verif Require Import ModInvModel.
Import ListNotations.
Open Scope Z_scope.

(** nmod_mat_entry. *)
Definition entry (M : list (list Z)) (i j : nat) : option Z := let? r := nth_error M i in nth_error r j.

(** a write to an array. *)
Fixpoint put {A} (i : nat) (v : A) (l : list A) : option (list A) :=
  match l with
  | [] => None
  | x :: r => match i with O => Some (v :: r) | S i' => let? r' := put i' v r in Some (x :: r') end
  end.

(** l.79-81: from the last row upwards to the first nonzero entry of column [j]; [k] is the index plus one. *)
Fixpoint last_nz (Xt : list (list Z)) (j k : nat) : option nat :=
  match k with
  | O => None
  | S r => let? x := entry Xt r j in if x =? 0 then last_nz Xt j r else Some r
  end.

(** l.77-83, the loop on j; [i] is j-rank and [cnt] the number of iterations left. *)
Fixpoint piv_loop (Xt : list (list Z)) (nr rank cnt i : nat) (perm : list nat) : option (list nat) :=
  match cnt with
  | O => Some perm
  | S c =>
      let? q := last_nz Xt i nr in
      let? perm' := put (rank + i) q perm in
      piv_loop Xt nr rank c (S i) perm'
  end.

(** l.87-88, 91-92, 94-95: consecutive integers, [n] of them from [lo], written from position [r] on; the state is the array and r. *)
Fixpoint fill (lo n : nat) (st : list nat * nat) : option (list nat * nat) :=
  match n with
  | O => Some st
  | S n' => let? perm' := put (snd st) lo (fst st) in fill (S lo) n' (perm', S (snd st))
  end.

(** l.90-92, the loop on j, reading permutation[j] and permutation[j+1] from the array being written. *)
Fixpoint gap_loop (cnt j : nat) (st : list nat * nat) : option (list nat * nat) :=
  match cnt with
  | O => Some st
  | S c =>
      let? a := nth_error (fst st) j in
      let? b := nth_error (fst st) (S j) in
      let? st' := fill (S a) (b - S a) st in
      gap_loop c (S j) st'
  end.

Fixpoint omap {A} (f : nat -> option A) (l : list nat) : option (list A) :=
  match l with
  | [] => Some []
  | i :: r => let? x := f i in let? xs := omap f r in Some (x :: xs)
  end.

(** l.49-112; [perm0] is the caller's array, with any contents.  The result is the array and the matrix X. *)
Definition compact (Xt : list (list Z)) (nr nullity : nat) (perm0 : list nat) : option (list nat * list (list Z)) :=
  let rank := (nr - nullity)%nat in
  if (nullity =? 0)%nat then Some (seq 0 nr, [])
  else
    let? P := piv_loop Xt nr rank nullity 0 perm0 in
    let? p0 := nth_error P rank in
    let? s1 := fill 0 p0 (P, 0%nat) in
    let? s2 := gap_loop (nr - 1 - rank) rank s1 in
    let? q := nth_error (fst s2) (nr - 1) in
    let? s3 := fill (S q) (nr - S q) s2 in
    let? X := omap (fun i => omap (fun j => let? t := nth_error (fst s3) j in entry Xt t i) (seq 0 rank)) (seq 0 nullity) in
    Some (fst s3, X).

(** l.40-42 for one row: X[permutation[j]] = Y[j] for all j. *)
Fixpoint scatter (perm : list nat) (Y : list Z) (j cnt : nat) (row : list Z) : option (list Z) :=
  match cnt with
  | O => Some row
  | S c =>
      let? t := nth_error perm j in
      let? y := nth_error Y j in
      let? row' := put t y row in
      scatter perm Y (S j) c row'
  end.

(** l.25-47.  The two loops on i (l.38-42) act on different rows for different i and are taken together; X starts with zeros. *)
Definition left_nullspace (Xt : list (list Z)) (nr nullity : nat) (perm0 : list nat) : option (list (list Z)) :=
  let? PY := compact Xt nr nullity perm0 in
  let rank := (nr - nullity)%nat in
  omap (fun i =>
    let? t := nth_error (fst PY) (rank + i) in
    let? row := put t 1 (repeat 0 nr) in
    let? Y := nth_error (snd PY) i in
    scatter (fst PY) Y 0 rank row) (seq 0 nullity).
