(** What the parametrisation found for an elimination polynomial with multiple factors is about: no reference to the code. *)
From Coq Require Import ZArith NArith Arith List Bool.
From Verif Require Import LinSpec MonoSpec GbSpec FpSpec FglmSpec BmProps.
Import ListNotations.
Open Scope Z_scope.

(** Q(x_n) times the polynomial f *)
Definition qmul (nv : nat) (Q : list Z) (f : pf) : pf := fun m => sumn (length Q) (fun i => pc Q i * GbSpec.pmul (xpow nv (nv - 1) i) f m).
(** the polynomials f with Q(x_n) f in the ideal of G *)
Definition colon (nv : nat) (p : Z) (G : pf -> Prop) (Q : list Z) (f : pf) : Prop := ideal nv p G (qmul nv Q f).
Fixpoint ppow (a : list Z) (e : nat) : list Z := match e with O => [1] | S e' => FpSpec.pmul a (ppow a e') end.
(** E is the squarefree part of V: V = Q E, E is squarefree, and V divides a power of E *)
Definition squarefree_part (p : Z) (V Q E : list Z) : Prop :=
  FpSpec.peq p V (FpSpec.pmul Q E) /\ squarefree p E /\ exists e, pdvd p V (ppow E e).
(** FLINT's contracts: the product of the factors of the squarefree factorisation, each taken once; the extended gcd of a non-zero polynomial
    and another one; nmod_poly_fit_length(., n) leaves room for n coefficients at least *)
Definition part_contract (p : Z) (sqpart : list Z -> list Z) : Prop :=
  forall V k, monic_of_degree p V (S k) -> exists Q j, monic_of_degree p (sqpart V) (S j) /\ squarefree_part p V Q (sqpart V).
Definition xgcd_contract (p : Z) (xg : list Z -> list Z -> list Z * list Z * list Z) : Prop :=
  forall a b n, monic_of_degree p a n -> (forall c, In c b -> 0 <= c < p) -> last b 1 <> 0 ->
    let '(g, s, t) := xg a b in (exists k, monic_of_degree p g k) /\ (forall c, In c t -> 0 <= c < p) /\ last t 1 <> 0 /\
      FpSpec.peq p g (padd (FpSpec.pmul s a) (FpSpec.pmul t b)) /\ pdvd p g a /\ pdvd p g b.
(** every variable that is not leading in a linear form is a polynomial in the last one, modulo the ideal *)
Definition coords_exist (nv : nat) (p : Z) (G : pf -> Prop) (lin : nat -> bool) : Prop :=
  forall q, (q < nv - 1)%nat -> lin q = false -> exists c, ideal nv p G (coord_poly nv q (nv - 1) c).
