(** Specification vocabulary for the probabilistic linear algebra: combinations of rows and sets of multipliers.
    Independent of the code. *)
From Coq Require Import ZArith Arith List Lia.
From Verif Require Import LinSpec LaSpec.
Import ListNotations.
Open Scope Z_scope.

(** the combination of a list of rows with given multipliers *)
Fixpoint combine_rows (rows : list (list (nat * Z))) (mul : list Z) : vec := fun j =>
  match rows, mul with r :: rows', m :: mul' => m * rv r j + combine_rows rows' mul' j | _, _ => 0 end.
(** all multipliers drawn from 0 .. N-1, one for each of n rows *)
Definition multipliers (N : Z) (n : nat) (mul : list Z) : Prop := length mul = n /\ forall m, In m mul -> 0 <= m < N.
(** every row is already a combination of the vectors in S *)
Definition all_in (p : Z) (S : vec -> Prop) (rows : list (list (nat * Z))) : Prop := forall r, In r rows -> span p S (rv r).
(** a draw that hides something: the drawn combination lies in the span of S although not all rows do *)
Definition hides (p : Z) (S : vec -> Prop) (rows : list (list (nat * Z))) (mul : list Z) : Prop :=
  span p S (combine_rows rows mul) /\ ~ all_in p S rows.
