(** What the computation modulo one prime may answer about the ideal of the input: no reference to the code. *)
From Coq Require Import ZArith NArith Arith List Bool.
From Verif Require Import LinSpec MonoSpec GbSpec FpSpec FglmSpec.
Import ListNotations.
Open Scope Z_scope.

(** no solution over any field: the ideal contains 1 *)
Definition unit_ideal (nv : nat) (p : Z) (G : pf -> Prop) : Prop := ideal nv p G (cf [(1, mone nv)]).
(** infinitely many solutions: for some variable, the ideal contains no polynomial in this variable alone, except zero *)
Definition free_variable (nv : nat) (p : Z) (G : pf -> Prop) (k : nat) : Prop :=
  (k < nv)%nat /\ forall Q, ideal nv p G (uni_at nv k Q) -> forall i, eqp p (nth i Q 0) 0.
(** the monomials are a basis of the quotient by the ideal *)
Definition quotient_basis (nv : nat) (p : Z) (G : pf -> Prop) (l : list mono) : Prop :=
  Forall (fun m => length m = nv) l /\ independent nv p G (length l) (fun i => cf [(1, nth i l [])]) /\
  forall m, length m = nv -> exists c, ideal nv p G (fun u => cf [(1, m)] u - sumn (length l) (fun j => c j * cf [(1, nth j l [])] u)).
(** elim generates the polynomials of the ideal in the last variable alone *)
Definition generates_last (nv : nat) (p : Z) (G : pf -> Prop) (elim : list Z) : Prop :=
  forall Q, ideal nv p G (uni_at nv (nv - 1) Q) <-> pdvd p elim Q.
(** the generators elim(x_n) and x_k + c_k(x_n) given by a parametrisation: their zeroes are x_n = t, x_k = - c_k(t) for the roots t of
    elim *)
Definition param_gens (nv : nat) (elim : list Z) (cs : list (list Z)) (f : pf) : Prop :=
  f = uni_at nv (nv - 1) elim \/ exists k, (k < nv - 1)%nat /\ f = coord_poly nv k (nv - 1) (nth k cs []).
