(** Univariate polynomials over the integers modulo p: lists of coefficients, constant term first. *)
From Coq Require Import ZArith Arith List Bool.
From Verif Require Import LinSpec.
Import ListNotations.
Open Scope Z_scope.

Definition pc (a : list Z) (i : nat) : Z := nth i a 0.
(** equality modulo p *)
Definition peq (p : Z) (a b : list Z) : Prop := forall i, eqp p (pc a i) (pc b i).
Fixpoint padd (a b : list Z) : list Z :=
  match a, b with [], _ => b | _, [] => a | x :: a', y :: b' => (x + y) :: padd a' b' end.
Definition pscal (c : Z) (a : list Z) : list Z := map (Z.mul c) a.
Definition popp (a : list Z) : list Z := map Z.opp a.
Definition psub (a b : list Z) : list Z := padd a (popp b).
Fixpoint pmul (a b : list Z) : list Z := match a with [] => [] | x :: a' => padd (pscal x b) (0 :: pmul a' b) end.
(** a * x^n *)
Definition pshift (n : nat) (a : list Z) : list Z := repeat 0 n ++ a.
(** x^n *)
Definition pX (n : nat) : list Z := pshift n [1].
(** degree below n; degree equal to n *)
Definition dlt (p : Z) (a : list Z) (n : nat) : Prop := forall i, (n <= i)%nat -> eqp p (pc a i) 0.
Definition hdeg (p : Z) (a : list Z) (n : nat) : Prop := dlt p a (S n) /\ ~ eqp p (pc a n) 0.
(** divisibility *)
Definition pdvd (p : Z) (a b : list Z) : Prop := exists c, peq p b (pmul c a).
(** no square of a polynomial of positive degree divides f *)
Definition squarefree (p : Z) (f : list Z) : Prop := forall g, pdvd p (pmul g g) f -> hdeg p g 0.

(** The polynomial q annihilates the sequence s: sum over j of q_j s_(i+j) is 0 for all i. *)
Fixpoint apply_at (q : list Z) (s : nat -> Z) (i : nat) : Z :=
  match q with [] => 0 | c :: q' => c * s i + apply_at q' s (S i) end.
Definition annihilates (p : Z) (q : list Z) (s : nat -> Z) : Prop := forall i, eqp p (apply_at q s i) 0.
