(** Normal form of a polynomial modulo an ideal given by generators, independent of how it is computed. *)
From Coq Require Import ZArith List.
From Verif Require Import LinSpec MonoSpec GbSpec.
Import ListNotations.
Open Scope Z_scope.

(** h is a normal form of f: congruent to f, no monomial of h is divisible by the leading monomial of a generator, terms strictly
    decreasing with nonzero residues as coefficients. The zero polynomial is the empty list. *)
Definition normal_form_of (nv : nat) (lt : mono -> mono -> Prop) (p : Z) (G : pf -> Prop) (f h : list (Z * mono)) : Prop :=
  ideal nv p G (fun u => cf f u - cf h u) /\
  (forall t g l, In t h -> G g -> is_lead nv lt p g l -> ~ mdvd l (snd t)) /\
  (h = [] \/ sorted_poly nv lt p h).
