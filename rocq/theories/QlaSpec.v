(** Specification vocabulary for the linear algebra over the rationals done with integer rows. Independent of the code. *)
From Coq Require Import ZArith Arith List Lia Sorted.
From Verif Require Import LinSpec LaSpec.
Import ListNotations.
Open Scope Z_scope.

(** v is a combination of S with rational coefficients: some nonzero integer multiple of it is an integer combination *)
Definition qspan (S : vec -> Prop) (v : vec) : Prop := exists x, x <> 0 /\ span 0 S (fun j => x * v j).
Definition same_qspan (S T : vec -> Prop) : Prop := forall v, qspan S v <-> qspan T v.
(** rows as vectors *)
Definition rset (l : list row) : vec -> Prop := fun v => exists r, In r l /\ v = rv r.
(** rows to be reduced: distinct columns below n, the smallest first *)
Definition zinput (n : nat) (r : row) : Prop :=
  NoDup (map fst r) /\ (forall t, In t r -> (fst t < n)%nat) /\ exists t0 r', r = t0 :: r' /\ forall t, In t r -> (fst t0 <= fst t)%nat.
(** reducers: the first column is the smallest and has a nonzero coefficient *)
Definition zpivot (n c : nat) (r : row) : Prop :=
  NoDup (map fst r) /\ (forall t, In t r -> (fst t < n)%nat) /\ exists x r', r = (c, x) :: r' /\ x <> 0 /\ forall t, In t r' -> (c < fst t)%nat.
Definition zpivots (n : nat) (P : nat -> option row) : Prop := forall c r, P c = Some r -> zpivot n c r.
(** increasing columns and nonzero coefficients: the unique representation of a vector *)
Definition zcanon (r : row) : Prop := StronglySorted lt (map fst r) /\ forall t, In t r -> snd t <> 0.
(** no common divisor of the coefficients, first coefficient positive: the unique representative of a line *)
Definition zprim (r : row) : Prop :=
  (forall q, (forall t, In t r -> (q | snd t)) -> q = 1 \/ q = -1) /\ exists c x r', r = (c, x) :: r' /\ 0 < x.
(** matrices as built by symbolic preprocessing *)
Definition qmatrix (ncl n : nat) (rr : nat -> option row) (tr : list row) : Prop :=
  (ncl <= n)%nat /\ (forall c, (c < ncl)%nat <-> rr c <> None) /\ zpivots n rr /\ (forall r, In r tr -> zinput n r).
(** reduced echelon form over the rationals with primitive integer rows, indexed by leading column *)
Definition qreduced (n : nat) (P : nat -> option row) : Prop :=
  zpivots n P /\ forall c r, P c = Some r -> zcanon r /\ zprim r /\ forall c', c' <> c -> P c' <> None -> rv r c' = 0.
