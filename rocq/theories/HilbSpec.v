(** Specification side of the staircase properties: no reference to the code. *)
From Coq Require Import NArith Arith List Sorted.
From Verif Require Import MonoSpec.
Import ListNotations.
Open Scope N_scope.

(** [m] is a monomial in [nv] variables divisible by none of [lms]. *)
Definition standard (nv : nat) (lms : list mono) (m : mono) : Prop :=
  length m = nv /\ forall l, In l lms -> ~ mdvd l m.

Definition finitely_many (P : mono -> Prop) : Prop := exists L, forall m, P m -> In m L.

(** [L] lists the set [P] without repetition. *)
Definition lists (P : mono -> Prop) (L : list mono) : Prop := NoDup L /\ forall m, In m L <-> P m.

(** No monomial of the set divides another one, and there is no repetition. *)
Definition minimal_set (lms : list mono) : Prop :=
  NoDup lms /\ forall a b, In a lms -> In b lms -> mdvd a b -> a = b.
