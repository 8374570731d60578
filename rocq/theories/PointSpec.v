(** Values of polynomials at the points of a commutative ring; independent of the code. *)
From Coq Require Import ZArith NArith List Ring_theory InitialRing.
From Verif Require Import MonoSpec.
Import ListNotations.

Section Points.
Variables (K : Type) (k0 k1 : K) (add mul sub : K -> K -> K) (opp : K -> K).
(** the image of an integer *)
Definition kz : Z -> K := gen_phiZ k0 k1 add mul opp.
Fixpoint kpow (x : K) (n : nat) : K := match n with O => k1 | S n' => mul x (kpow x n') end.
(** value of a monomial at the point (a 0, a 1, ...) *)
Fixpoint mval (a : nat -> K) (m : mono) : K :=
  match m with [] => k1 | e :: m' => mul (kpow (a 0%nat) (N.to_nat e)) (mval (fun i => a (S i)) m') end.
(** value of a polynomial given by its terms, of a polynomial in one variable given by its coefficients *)
Fixpoint pval (a : nat -> K) (f : list (Z * mono)) : K :=
  match f with [] => k0 | t :: f' => add (mul (kz (fst t)) (mval a (snd t))) (pval a f') end.
Fixpoint uval (x : K) (c : list Z) : K := match c with [] => k0 | z :: c' => add (kz z) (mul x (uval x c')) end.
(** a commutative ring with p = 0 *)
Definition ring_mod (p : Z) : Prop := ring_theory k0 k1 add mul sub opp eq /\ kz p = k0.
Definition zero_of (F : list (list (Z * mono))) (a : nat -> K) : Prop := forall f, In f F -> pval a f = k0.
(** the points x_n = t, x_k = - c_k(t) for the roots t of elim *)
Definition point_of (nv : nat) (elim : list Z) (cs : list (list Z)) (a : nat -> K) : Prop :=
  uval (a (nv - 1)%nat) elim = k0 /\ forall k, (k < nv - 1)%nat -> a k = opp (uval (a (nv - 1)%nat) (nth k cs [])).
End Points.
