(** Specification side of the left nullspace (C85): vectors, rows and modular sums only, no reference to the code. *)
From Coq Require Import ZArith Arith List Sorted Lia.
From Verif Require Import LinSpec FglmSpec.
Import ListNotations.
Open Scope Z_scope.

(** [v * A = 0] modulo [p], for a matrix [A] of [nr] rows and [nc] columns. *)
Definition leftnull (p : Z) (nr nc : nat) (A : nat -> nat -> Z) (v : nat -> Z) : Prop :=
  forall c, (c < nc)%nat -> eqp p (sumn nr (fun r => v r * A r c)) 0.

(** [v = w] modulo [p] on the first [n] entries. *)
Definition cong (p : Z) (n : nat) (v w : nat -> Z) : Prop := forall r, (r < n)%nat -> eqp p (v r) (w r).

(** What FLINT documents of nmod_mat_nullspace, for the transpose of [A]: the columns of [K] generate the kernel and [K] is in reduced column
    echelon form, the pivot of column [i] being its last nonzero entry, at row [nth i N]. *)
Record kernel (p : Z) (nr nc : nat) (A K : nat -> nat -> Z) (N : list nat) : Prop := {
  k_asc : StronglySorted lt N;
  k_lt : forall n, In n N -> (n < nr)%nat;
  k_one : forall i k, (i < length N)%nat -> (k < length N)%nat -> K (nth k N 0%nat) i = if (i =? k)%nat then 1 else 0;
  k_low : forall i r, (i < length N)%nat -> (nth i N 0 < r < nr)%nat -> K r i = 0;
  k_null : forall i, (i < length N)%nat -> leftnull p nr nc A (fun r => K r i);
  k_gen : forall v, leftnull p nr nc A v -> exists c, cong p nr v (fun r => sumn (length N) (fun i => c i * K r i)) }.
