(** Specification vocabulary for isolated real roots. *)
From Coq Require Import ZArith List Reals.
From Verif Require Import PolySpec.
Import ListNotations.
Open Scope R_scope.

(** 2^k for an integer k. *)
Definition p2 (k : Z) : R := powerRZ 2 k.

(** The set of reals described by an output record of numerator [n] and exponent [k]: the single point n / 2^k, or the
    open interval from n / 2^k of width 2^(-k) (width 1/2^k, that is (n / 2^k, (n+1) / 2^k), when k >= 0, and
    (n, n + 2^(-k)) when k < 0). *)
Definition in_record (n k : Z) (exact : bool) (x : R) : Prop :=
  if exact then x = IZR n * p2 (- k)
  else if Z.leb 0 k then IZR n * p2 (- k) < x < (IZR n + 1) * p2 (- k)
  else IZR n < x < IZR n + p2 (- k).

(** The sets listed from left to right, pairwise disjoint. *)
Definition left_of (A B : R -> Prop) : Prop := forall x y, A x -> B y -> x < y.

(** [l] isolates the real zeros of [f]: sets in increasing order, each with exactly one zero, no zero missed. *)
Definition isolates (f : R -> R) (l : list (R -> Prop)) : Prop :=
  ForallOrdPairs left_of l /\
  Forall (fun A => exists x, A x /\ f x = 0 /\ forall y, A y -> f y = 0 -> y = x) l /\
  (forall x, f x = 0 -> exists A, In A l /\ A x).
