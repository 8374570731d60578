(** Specification: polynomials modulo p in nv variables as coefficient functions on monomials, ideals, leading
    monomials, Gröbner bases and reduced Gröbner bases. Nothing here refers to the code. *)
From Coq Require Import ZArith NArith Arith List Bool Lia.
From Verif Require Import LinSpec MonoSpec.
Import ListNotations.
Open Scope Z_scope.

(** A polynomial is a function from monomials (exponent lists of length nv) to integers read modulo p. *)
Definition pf := mono -> Z.
Definition peq (nv : nat) (p : Z) (f g : pf) : Prop := forall m, length m = nv -> eqp p (f m) (g m).
Definition pzero : pf := fun _ => 0.

(** Polynomials with finitely many terms, as lists of terms. *)
Definition mono_dec : forall a b : mono, {a = b} + {a <> b} := list_eq_dec N.eq_dec.
Fixpoint cf (f : list (Z * mono)) : pf := fun m =>
  match f with [] => 0 | t :: f' => if mono_dec (snd t) m then fst t + cf f' m else cf f' m end.

(** Multiplication by the monomial u. *)
Fixpoint mdvdb (a b : mono) : bool :=
  match a, b with
  | [], _ => true
  | x :: a', y :: b' => N.leb x y && mdvdb a' b'
  | _, [] => false
  end.
Definition pmul (u : mono) (f : pf) : pf := fun m => if mdvdb u m then f (mquo m u) else 0.

(** Linear combinations with coefficients modulo p. *)
Inductive lspan (nv : nat) (p : Z) (S : pf -> Prop) : pf -> Prop :=
| ls_in f : S f -> lspan nv p S f
| ls_zero : lspan nv p S pzero
| ls_lin a f g : lspan nv p S f -> lspan nv p S g -> lspan nv p S (fun m => a * f m + g m)
| ls_eq f g : lspan nv p S f -> peq nv p f g -> lspan nv p S g.

(** The ideal generated by a set of polynomials: combinations of products of a monomial and a generator. *)
Definition multiple (nv : nat) (G : pf -> Prop) (h : pf) : Prop := exists u g, length u = nv /\ G g /\ h = pmul u g.
Definition ideal (nv : nat) (p : Z) (G : pf -> Prop) : pf -> Prop := lspan nv p (multiple nv G).
Definition same_ideal (nv : nat) (p : Z) (F G : pf -> Prop) : Prop := forall f, ideal nv p F f <-> ideal nv p G f.

(** m is the leading monomial of f. *)
Definition is_lead (nv : nat) (lt : mono -> mono -> Prop) (p : Z) (f : pf) (m : mono) : Prop :=
  length m = nv /\ ~ eqp p (f m) 0 /\ forall m', length m' = nv -> lt m m' -> eqp p (f m') 0.

(** Gröbner basis: the leading monomial of every element of the ideal is divisible by the leading monomial of a
    generator. *)
Definition groebner (nv : nat) (lt : mono -> mono -> Prop) (p : Z) (G : pf -> Prop) : Prop :=
  forall f m, ideal nv p G f -> is_lead nv lt p f m -> exists g l, G g /\ is_lead nv lt p g l /\ mdvd l m.

(** Minimal: no leading monomial divides another one. Reduced: monic, and no monomial of an element is divisible by the
    leading monomial of another element. *)
Definition pfs (G : list (list (Z * mono))) : pf -> Prop := fun h => exists f, In f G /\ h = cf f.
Definition minimal_basis (nv : nat) (lt : mono -> mono -> Prop) (p : Z) (G : list (list (Z * mono))) : Prop :=
  forall i j f g l m, nth_error G i = Some f -> nth_error G j = Some g -> i <> j ->
  is_lead nv lt p (cf f) l -> is_lead nv lt p (cf g) m -> ~ mdvd l m.
Definition reduced_basis (nv : nat) (lt : mono -> mono -> Prop) (p : Z) (G : list (list (Z * mono))) : Prop :=
  (forall f, In f G -> exists l, is_lead nv lt p (cf f) l /\ eqp p (cf f l) 1) /\
  forall i j f g l m, nth_error G i = Some f -> nth_error G j = Some g -> i <> j ->
  is_lead nv lt p (cf f) l -> length m = nv -> ~ eqp p (cf g m) 0 -> ~ mdvd l m.

(** Standard form of a polynomial stored by the program: strictly decreasing monomials, nonzero residues. *)
Definition sorted_poly (nv : nat) (lt : mono -> mono -> Prop) (p : Z) (f : list (Z * mono)) : Prop :=
  f <> [] /\ (forall t, In t f -> 0 < fst t < p /\ length (snd t) = nv) /\
  forall i j s t, nth_error f i = Some s -> nth_error f j = Some t -> (i < j)%nat -> lt (snd t) (snd s).

(** S-polynomial at a common multiple t of the leading monomials a of f and b of g; standard representation below t:
    a combination of multiples of elements of G whose leading monomials are smaller than t. *)
Definition spoly (t : mono) (f : pf) (a : mono) (g : pf) (b : mono) : pf := fun m => pmul (mquo t a) f m - pmul (mquo t b) g m.
Definition std_rep (nv : nat) (lt : mono -> mono -> Prop) (p : Z) (G : pf -> Prop) (t : mono) : pf -> Prop :=
  lspan nv p (fun h => exists u g l, length u = nv /\ G g /\ is_lead nv lt p g l /\ lt (mmul u l) t /\ h = pmul u g).
