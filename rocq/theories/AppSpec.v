(** Specification side of the approximant bases (C86): sums of products only, no reference to the code.
    A matrix of polynomials is a function of the degree, the row and the column, a vector a function of the degree and the entry. *)
From Coq Require Import ZArith Arith List Lia.
From Verif Require Import LinSpec FglmSpec.
Open Scope Z_scope.

(** The product of a row vector of [m] polynomials and a matrix: coefficient of degree [t], column [j]. *)
Definition mulc (m : nat) (a : nat -> nat -> Z) (B : nat -> nat -> nat -> Z) (t j : nat) : Z :=
  sumn (S t) (fun d => sumn m (fun r => a d r * B (t - d)%nat r j)).

(** [q F = 0] modulo [x^s] and [p]. *)
Definition approximant (p : Z) (m n : nat) (F : nat -> nat -> nat -> Z) (s : nat) (q : nat -> nat -> Z) : Prop :=
  forall t c, (t < s)%nat -> (c < n)%nat -> eqp p (mulc m q F t c) 0.

(** The entries are polynomials: zero from some degree on. *)
Definition polyv (p : Z) (m : nat) (q : nat -> nat -> Z) : Prop :=
  exists D, forall d r, (D <= d)%nat -> (r < m)%nat -> eqp p (q d r) 0.

(** The rows of [B] are a basis of the module of approximants of order [s]. *)
Record basis_of (p : Z) (m n : nat) (F : nat -> nat -> nat -> Z) (s : nat) (B : nat -> nat -> nat -> Z) : Prop := {
  b_in : forall r, (r < m)%nat -> approximant p m n F s (fun d j => B d r j);
  b_gen : forall q, polyv p m q -> approximant p m n F s q ->
    exists a, polyv p m a /\ forall t j, (j < m)%nat -> eqp p (q t j) (mulc m a B t j);
  b_free : forall a, (forall t j, (j < m)%nat -> eqp p (mulc m a B t j) 0) -> forall d r, (r < m)%nat -> eqp p (a d r) 0 }.
