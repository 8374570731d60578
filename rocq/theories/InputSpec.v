(** Specification for the genericity handling of the solver (C39, C40, C56): polynomial systems with their solutions in an
    arbitrary commutative ring, transposition of two positions of a list, the appended linear form. *)
From Coq Require Import ZArith String List Arith Bool Ring_theory.
Import ListNotations.
Open Scope Z_scope.

(** A coefficient is a pair numerator, denominator; a term a coefficient and the exponents of all variables. *)
Definition coef := (Z * Z)%type.
Definition iterm := (coef * list Z)%type.
Definition ipoly := list iterm.
Definition isys := list ipoly.

Section Solutions.
  Context {K : Type}.
  Variables (k0 k1 : K) (kadd kmul : K -> K -> K) (phi : coef -> K).
  Fixpoint kpow (x : K) (n : nat) : K := match n with O => k1 | S n' => kmul x (kpow x n') end.
  Fixpoint mono_val (x : list K) (e : list Z) : K :=
    match x, e with a :: x', m :: e' => kmul (kpow a (Z.to_nat m)) (mono_val x' e') | _, _ => k1 end.
  Fixpoint poly_val (p : ipoly) (x : list K) : K :=
    match p with [] => k0 | t :: p' => kadd (kmul (phi (fst t)) (mono_val x (snd t))) (poly_val p' x) end.
  Definition solves (s : isys) (x : list K) : Prop := forall p, In p s -> poly_val p x = k0.
End Solutions.

(** [l'] is [l] with the entries at positions [a] and [b] exchanged. *)
Definition transposed {A} (a b : nat) (l l' : list A) : Prop :=
  length l' = length l /\ nth_error l' a = nth_error l b /\ nth_error l' b = nth_error l a /\
  forall i, i <> a -> i <> b -> nth_error l' i = nth_error l i.
(** The same exchange of variables in all terms of a system; coefficients and shape stay. *)
Definition sys_transposed (a b : nat) (s s' : isys) : Prop :=
  Forall2 (Forall2 (fun t t' => fst t' = fst t /\ transposed a b (snd t) (snd t'))) s s'.

(** A new last variable that does not occur. *)
Definition ext_term (t : iterm) : iterm := (fst t, snd t ++ [0]).
Definition ext_sys (s : isys) : isys := map (map ext_term) s.
(** The linear form with the given coefficients in [length cs] variables. *)
Definition unit_exp (n i : nat) : list Z := map (fun j => if Nat.eqb j i then 1 else 0) (seq 0 n).
Definition linear_form (cs : list coef) : ipoly := combine cs (map (unit_exp (length cs)) (seq 0 (length cs))).
(** All exponent vectors have length [n]. *)
Definition sys_wf (n : nat) (s : isys) : Prop := forall p, In p s -> forall t, In t p -> length (snd t) = n.
