(** Specification side: monomials as exponent lists, divisibility, lcm and the three monomial orders,
    defined without reference to the code. *)
From Coq Require Import ZArith NArith Arith List Bool Lia Wf_nat Relations.
Import ListNotations.
Open Scope N_scope.

Definition mono := list N.
Definition ex (m : mono) (i : nat) : N := nth i m 0.

Definition mdeg (m : mono) : N := fold_right N.add 0 m.

Fixpoint map2 (f : N -> N -> N) (a b : mono) : mono :=
  match a, b with
  | x :: a', y :: b' => f x y :: map2 f a' b'
  | _, _ => []
  end.

Definition mmul := map2 N.add.
Definition mlcm := map2 N.max.
Definition mquo := map2 N.sub.
Definition mone (n : nat) : mono := repeat 0 n.

Definition mdvd (a b : mono) : Prop := forall i, ex a i <= ex b i.

(** Lexicographic: the first difference decides. *)
Definition lex_lt (a b : mono) : Prop :=
  exists i, ex a i < ex b i /\ forall j, (j < i)%nat -> ex a j = ex b j.

(** Degree reverse lexicographic: degree first, then the last difference decides the other way. *)
Definition drl_lt (a b : mono) : Prop :=
  mdeg a < mdeg b \/
  (mdeg a = mdeg b /\ exists i, ex b i < ex a i /\ forall j, (i < j)%nat -> ex a j = ex b j).

(** Block order: degree reverse lexicographic on the first k variables, ties broken by degree reverse
    lexicographic on the others. *)
Definition blk_lt (k : nat) (a b : mono) : Prop :=
  drl_lt (firstn k a) (firstn k b) \/
  (firstn k a = firstn k b /\ drl_lt (skipn k a) (skipn k b)).

(** What the engine needs of a monomial order on n variables. *)
Record mono_order (n : nat) (lt : mono -> mono -> Prop) : Prop := {
  mo_irrefl : forall a, ~ lt a a;
  mo_trans : forall a b c, length a = n -> length b = n -> length c = n -> lt a b -> lt b c -> lt a c;
  mo_total : forall a b, length a = n -> length b = n -> lt a b \/ a = b \/ lt b a;
  mo_mul : forall a b c, length a = n -> length b = n -> length c = n -> lt a b -> lt (mmul c a) (mmul c b);
  mo_one : forall a, length a = n -> a <> mone n -> lt (mone n) a;
  mo_wf : forall a, length a = n -> Acc (fun x y => length x = n /\ length y = n /\ lt x y) a }.

(** ** Specification of a three-way comparison *)
Definition cmp_spec {A} (lt : A -> A -> Prop) (a b : A) (c : Z) : Prop :=
  ((c < 0)%Z <-> lt a b) /\ (c = 0%Z <-> a = b) /\ ((0 < c)%Z <-> lt b a).

(** ** What a sorting routine needs of a comparator *)
Record consistent {A} (D : A -> Prop) (cmp : A -> A -> option Z) : Prop := {
  cs_total : forall a b, D a -> D b -> exists c, cmp a b = Some c;
  cs_anti : forall a b c c', D a -> D b -> cmp a b = Some c -> cmp b a = Some c' -> Z.sgn c' = (- Z.sgn c)%Z;
  cs_trans : forall a b d c c' c'', D a -> D b -> D d -> cmp a b = Some c -> cmp b d = Some c' -> cmp a d = Some c'' ->
    (c <= 0)%Z -> (c' <= 0)%Z -> (c'' <= 0)%Z }.

(** Exponents given by the user as non-negative integers. *)
Definition umono (iev : list Z) : mono := map Z.to_N iev.
Definition user_ok (nv : nat) (iev : list Z) : Prop :=
  length iev = nv /\ Forall (fun x => (0 <= x)%Z) iev /\ mdeg (umono iev) < 2 ^ 16.
