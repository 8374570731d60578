(** Specification vocabulary for the linear algebra: rows as vectors modulo p, echelon families. Independent of the kernels. *)
From Coq Require Import ZArith Arith List Lia Sorted.
From Verif Require Import LinSpec.
Import ListNotations.
Open Scope Z_scope.
Notation row := (list (nat * Z)) (only parsing).

(** dense row as a vector *)
Definition dv (dr : list Z) : vec := fun j => nth j dr 0.
(** sparse row as a vector *)
Fixpoint rv (r : row) : vec := fun j => match r with [] => 0 | t :: r' => (if (fst t =? j)%nat then snd t else 0) + rv r' j end.
(** coefficients are residues *)
Definition cfs_ok (p : Z) (r : row) : Prop := forall t, In t r -> 0 <= snd t < p.
(** a monic row whose smallest column is c, its first entry *)
Definition pivot_row (p : Z) (ncols c : nat) (r : row) : Prop :=
  NoDup (map fst r) /\ cfs_ok p r /\ (forall t, In t r -> (fst t < ncols)%nat) /\
  exists r', r = (c, 1) :: r' /\ forall t, In t r' -> (c < fst t)%nat.
(** an array of pivot rows indexed by leading column *)
Definition pivots_ok (p : Z) (ncols : nat) (pivs : nat -> option row) : Prop :=
  forall c r, pivs c = Some r -> pivot_row p ncols c r.
(** the rows of such an array as vectors *)
Definition pset_of (pivs : nat -> option row) : vec -> Prop := fun v => exists c r, pivs c = Some r /\ v = rv r.
(** a row with increasing columns and nonzero residues as coefficients: the unique representation of its vector *)
Definition canon (p : Z) (r : row) : Prop := StronglySorted lt (map fst r) /\ forall t, In t r -> 0 < snd t < p.
(** rows to be reduced: distinct columns, the smallest one first, coefficients any residues *)
Definition input_row (p : Z) (ncols : nat) (r : row) : Prop :=
  NoDup (map fst r) /\ cfs_ok p r /\ (forall t, In t r -> (fst t < ncols)%nat) /\
  exists t0 r', r = t0 :: r' /\ forall t, In t r -> (fst t0 <= fst t)%nat.
(** all rows of the matrix: reducers rr and rows tr to be reduced *)
Definition gens (rr : nat -> option row) (tr : list row) : vec -> Prop :=
  fun v => pset_of rr v \/ exists r, In r tr /\ v = rv r.
(** matrices as built by symbolic preprocessing: exactly the first ncl columns have a reducer *)
Definition matrix_ok (p : Z) (ncl ncols : nat) (rr : nat -> option row) (tr : list row) : Prop :=
  (ncl <= ncols)%nat /\ (forall c, (c < ncl)%nat <-> rr c <> None) /\ pivots_ok p ncols rr /\ (forall r, In r tr -> input_row p ncols r).
(** reduced echelon form: monic rows in unique representation, each zero in the leading columns of the others *)
Definition reduced_family (p : Z) (n : nat) (P : nat -> option row) : Prop :=
  pivots_ok p n P /\ (forall c r, P c = Some r -> canon p r /\ forall c', c' <> c -> P c' <> None -> rv r c' = 0).
