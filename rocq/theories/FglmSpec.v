(** Matrices over the integers modulo p as functions, and what a parametrisation of the zeroes of an ideal is. *)
From Coq Require Import ZArith NArith Arith List Bool.
From Verif Require Import LinSpec FpSpec MonoSpec GbSpec.
Import ListNotations.
Open Scope Z_scope.

(** f 0 + ... + f (n-1) *)
Fixpoint sumn (n : nat) (f : nat -> Z) : Z := match n with O => 0 | S k => sumn k f + f k end.
(** a D x D matrix; its product with a vector; the i-th power applied to a vector *)
Definition mat := nat -> nat -> Z.
Definition mvec (D : nat) (M : mat) (v : nat -> Z) : nat -> Z := fun i => sumn D (fun j => M i j * v j).
Fixpoint mpow (D : nat) (M : mat) (v : nat -> Z) (i : nat) : nat -> Z :=
  match i with O => v | S k => mvec D M (mpow D M v k) end.
(** a list of D numbers in [0, p) holding the vector v modulo p *)
Definition holds_vec (p : Z) (D : nat) (l : list Z) (v : nat -> Z) : Prop :=
  length l = D /\ forall i, (i < D)%nat -> nth i l 0 = v i mod p.

(** Polynomials in nv variables, from GbSpec. The n-th power of a variable, a constant, and a univariate
    polynomial evaluated at a variable. *)
Definition xpow (nv k n : nat) : mono := map (fun i => if (i =? k)%nat then N.of_nat n else 0%N) (seq 0 nv).
Definition uni_at (nv k : nat) (f : list Z) : pf := cf (map (fun j => (nth j f 0, xpow nv k j)) (seq 0 (length f))).
(** the polynomial x_k + f(x_n) *)
Definition coord_poly (nv k n : nat) (f : list Z) : pf := fun m => cf [(1, xpow nv k 1)] m + uni_at nv n f m.
(** M is the matrix of the multiplication by the last variable modulo the ideal of G: b_0, ..., b_(D-1) are polynomials,
    b_0 = 1, and x_n b_i = sum_j M_ij b_j modulo the ideal. *)
Definition mult_matrix (nv : nat) (p : Z) (G : pf -> Prop) (D : nat) (b : nat -> pf) (M : mat) : Prop :=
  (forall m, b 0%nat m = cf [(1, mone nv)] m) /\
  forall i, (i < D)%nat -> ideal nv p G (fun m => GbSpec.pmul (xpow nv (nv - 1) 1) (b i) m - sumn D (fun j => M i j * b j m)).
(** no combination of b_0, ..., b_(D-1) is in the ideal, except the trivial one *)
Definition independent (nv : nat) (p : Z) (G : pf -> Prop) (D : nat) (b : nat -> pf) : Prop :=
  forall c, ideal nv p G (fun m => sumn D (fun j => c j * b j m)) -> forall j, (j < D)%nat -> eqp p (c j) 0.
(** the linear form sum_k eq_k x_k + eq_nv *)
Definition linear_form (nv : nat) (eq : list Z) : pf :=
  fun m => sumn nv (fun k => nth k eq 0 * cf [(1, xpow nv k 1)] m) + nth nv eq 0 * cf [(1, mone nv)] m.
(** The variables that are not leading in a linear form have a place in the basis: the last but one gets index 2, and so on downwards. *)
Definition var_place (nv : nat) (lin : nat -> bool) (q : nat) : nat :=
  (2 + length (filter (fun k => negb (lin k)) (seq (S q) (nv - 2 - q))))%nat.
Definition var_basis (nv : nat) (lin : nat -> bool) (b : nat -> pf) : Prop :=
  forall q m, (q < nv - 1)%nat -> lin q = false -> b (var_place nv lin q) m = cf [(1, xpow nv q 1)] m.
(** A row of the table of linear forms, for the leading variable ind: x_ind + ... in the ideal, reduced modulo p. *)
Definition linear_row (nv : nat) (p : Z) (G : pf -> Prop) (ind : nat) (eq : list Z) : Prop :=
  length eq = S nv /\ (forall c, In c eq -> 0 <= c < p) /\ (forall k, (k < ind)%nat -> nth k eq 0 = 0) /\
  nth ind eq 0 = 1 /\ ideal nv p G (linear_form nv eq).
(** A parametrisation: a monic polynomial elim of degree D with elim(x_n) in the ideal, and for every other variable x_k a
    polynomial c_k of degree below D with x_k + c_k(x_n) in the ideal; all coefficients in [0, p), no leading zeroes. *)
Definition parametrises (nv : nat) (p : Z) (G : pf -> Prop) (D : nat) (elim : list Z) (cs : list (list Z)) : Prop :=
  length elim = S D /\ nth D elim 0 = 1 /\ (forall c, In c elim -> 0 <= c < p) /\ ideal nv p G (uni_at nv (nv - 1) elim) /\
  length cs = (nv - 1)%nat /\
  forall k, (k < nv - 1)%nat -> (length (nth k cs []) <= D)%nat /\ (forall c, In c (nth k cs []) -> 0 <= c < p) /\
    last (nth k cs []) 1 <> 0 /\ ideal nv p G (coord_poly nv k (nv - 1) (nth k cs [])).
