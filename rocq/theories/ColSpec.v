(** The vector of a polynomial in a list of monomials; independent of the code. *)
From Coq Require Import ZArith Arith List Bool Lia.
Import ListNotations.
Open Scope Z_scope.

Definition mono := list Z.
Definition deg (m : mono) : Z := fold_right Z.add 0 m.
(** the degree reverse lexicographical order: smaller degree, or same degree and a larger exponent at the last difference *)
Definition drl_lt (a b : mono) : Prop :=
  deg a < deg b \/ (deg a = deg b /\ exists i, nth i b 0 < nth i a 0 /\ forall j, (i < j)%nat -> nth j a 0 = nth j b 0).
(** ascending lists *)
Fixpoint asc (l : list mono) : Prop := match l with [] => True | m :: r => (forall x, In x r -> drl_lt m x) /\ asc r end.
Definition poly := list (mono * Z).
Definition monos (P : poly) : list mono := map fst P.
(** [entries B P v]: the vector [v] has the coefficient of each monomial of [B] in [P], zero when it does not occur *)
Definition entry (P : poly) (m : mono) (c : Z) : Prop := In (m, c) P \/ (~ In m (monos P) /\ c = 0).
Definition entries (B : list mono) (P : poly) (v : list Z) : Prop := Forall2 (entry P) B v.
(** no two monomials differ only in the first two variables *)
Definition apart (B : list mono) (T : list mono) : Prop := forall a b, In a B -> In b T -> deg a = deg b -> skipn 2 a = skipn 2 b -> a = b.
