(** Parametrisations of the solutions over the rationals, with integer coefficients: no reference to the code. *)
From Coq Require Import ZArith NArith Arith List Bool Ring_theory.
From Verif Require Import LinSpec MonoSpec GbSpec FpSpec FglmSpec PointSpec QgbSpec.
Import ListNotations.
Open Scope Z_scope.

Definition pderiv (e : list Z) : list Z := map (fun i => Z.of_nat i * nth i e 0) (seq 1 (length e - 1)).
(** without common root: a combination of the polynomial and its derivative is a nonzero constant *)
Definition separable (E : list Z) : Prop := exists u v s, s <> 0 /\ FpSpec.peq 0 (padd (FpSpec.pmul u E) (FpSpec.pmul v (pderiv E))) [s].
(** coordinate number k of a parametrisation: a polynomial and a denominator *)
Definition rc (cs : list (list Z * Z)) (k : nat) : list Z := fst (nth k cs ([], 1)).
Definition rd (cs : list (list Z * Z)) (k : nat) : Z := snd (nth k cs ([], 1)).
(** the polynomials E(x_n) and e_k x_k + c_k(x_n) *)
Definition rgens (nv : nat) (E : list Z) (cs : list (list Z * Z)) (f : pf) : Prop :=
  f = uni_at nv (nv - 1) E \/ exists k, (k < nv - 1)%nat /\ f = (fun m => rd cs k * cf [(1, xpow nv k 1)] m + uni_at nv (nv - 1) (rc cs k) m).
(** They generate the ideal of F over the rationals; E has degree d > 0 and no multiple root. *)
Definition rational_param (nv : nat) (F : list (list (Z * mono))) (d : nat) (E : list Z) (cs : list (list Z * Z)) : Prop :=
  (0 < d)%nat /\ length E = S d /\ nth d E 0 <> 0 /\ separable E /\ length cs = (nv - 1)%nat /\
  (forall c e, In (c, e) cs -> e <> 0 /\ (length c <= d)%nat) /\ forall f, qideal nv (pfs F) f <-> qideal nv (rgens nv E cs) f.
(** Its image modulo p: monic eliminating polynomial, coordinates x_k + c_k(x_n); residues, no leading zeroes. *)
Definition param_image (p : Z) (d : nat) (E : list Z) (cs : list (list Z * Z)) (el : list Z) (cp : list (list Z)) : Prop :=
  length el = S d /\ nth d el 0 = 1 /\ (forall c, In c el -> 0 <= c < p) /\ (forall i, eqp p (nth d E 0 * nth i el 0) (nth i E 0)) /\ length cp = length cs /\
  forall k, (k < length cs)%nat -> (forall c, In c (nth k cp []) -> 0 <= c < p) /\ last (nth k cp []) 1 <> 0 /\ forall i, eqp p (rd cs k * nth i (nth k cp []) 0) (nth i (rc cs k) 0).
(** Primes that do not divide the leading coefficient of E, the denominators, the number that shows that E has no multiple root, and the denominators of the coefficients that
    write the input with the parametrisation and conversely. *)
Definition good_prime (nv : nat) (F : list (list (Z * mono))) (d : nat) (E : list Z) (cs : list (list Z * Z)) (p : Z) : Prop :=
  ~ (p | nth d E 0) /\ (forall c e, In (c, e) cs -> ~ (p | e)) /\
  (exists u v s, ~ (p | s) /\ FpSpec.peq 0 (padd (FpSpec.pmul u E) (FpSpec.pmul v (pderiv E))) [s]) /\
  (forall f, In f F -> exists x, ~ (p | x) /\ ideal nv 0 (rgens nv E cs) (fun m => x * cf f m)) /\
  (forall g, rgens nv E cs g -> exists x, ~ (p | x) /\ ideal nv 0 (pfs F) (fun m => x * g m)).
(** R / B is the remainder of a E' / (e lc(E) d) by E: what is lifted for the coordinate (a, e). *)
Definition normal_coord (d : nat) (E : list Z) (a : list Z) (e : Z) (B : Z) (R : list Z) : Prop :=
  B <> 0 /\ (length R <= d)%nat /\ last R 1 <> 0 /\ exists M q, M <> 0 /\ B = M * e * nth d E 0 * Z.of_nat d /\ forall i, M * pc (FpSpec.pmul a (pderiv E)) i = pc (FpSpec.pmul q E) i + pc R i.
(** A commutative ring where nonzero integers do not divide zero: the fields of characteristic zero. *)
Definition char_zero (K : Type) (k0 k1 : K) (add mul sub : K -> K -> K) (opp : K -> K) : Prop :=
  ring_theory k0 k1 add mul sub opp eq /\ forall n x, n <> 0 -> mul (kz K k0 k1 add mul opp n) x = k0 -> x = k0.
(** The points of a parametrisation: the roots t of E with x_n = t, e_k x_k = - c_k(t). *)
Definition rational_point (K : Type) (k0 k1 : K) (add mul : K -> K -> K) (opp : K -> K) (nv : nat) (E : list Z) (cs : list (list Z * Z)) (a : nat -> K) : Prop :=
  let v := uval K k0 k1 add mul opp (a (nv - 1)%nat) in v E = k0 /\ forall k, (k < nv - 1)%nat -> add (mul (kz K k0 k1 add mul opp (rd cs k)) (a k)) (v (rc cs k)) = k0.
(** The points x_n = t, x_k = - A_k(t) / (f_k S'(t)) for the roots t of S, denominators cleared. *)
Definition lifted_point (K : Type) (k0 k1 : K) (add mul : K -> K -> K) (opp : K -> K) (nv : nat) (S : list Z) (AF : list (list Z * Z)) (a : nat -> K) : Prop :=
  let v := uval K k0 k1 add mul opp (a (nv - 1)%nat) in let z := kz K k0 k1 add mul opp in
  v S = k0 /\ forall k, (k < nv - 1)%nat -> add (mul (mul (z (rd AF k)) (v (pderiv S))) (a k)) (v (rc AF k)) = k0.
(** S with the coordinates AF parametrises the zeroes of F in every ring of characteristic zero. *)
Definition represents (nv : nat) (F : list (list (Z * mono))) (d : nat) (S : list Z) (AF : list (list Z * Z)) : Prop :=
  (0 < d)%nat /\ length S = Datatypes.S d /\ nth d S 0 <> 0 /\ separable S /\ length AF = (nv - 1)%nat /\ (forall A f, In (A, f) AF -> 0 < f /\ length A = d) /\
  forall K k0 k1 add mul sub opp, char_zero K k0 k1 add mul sub opp -> forall a, zero_of K k0 k1 add mul opp F a <-> lifted_point K k0 k1 add mul opp nv S AF a.
