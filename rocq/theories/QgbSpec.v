(** Groebner bases over the rationals, with integer coefficients, and their images modulo primes. Nothing here refers to the code. *)
From Coq Require Import ZArith NArith Arith List Bool Znumtheory.
From Verif Require Import LinSpec MonoSpec GbSpec.
Import ListNotations.
Open Scope Z_scope.

(** [eqp 0] is equality, so that [ideal nv 0 G] are the combinations of multiples of the generators with integer coefficients. A polynomial with
    integer coefficients is in the ideal over the rationals iff a nonzero integer multiple of it is such a combination. *)
Definition qideal (nv : nat) (G : pf -> Prop) (f : pf) : Prop := exists d, d <> 0 /\ ideal nv 0 G (fun m => d * f m).
Definition lead (g : list (Z * mono)) : mono := match g with t :: _ => snd t | [] => [] end.
Definition lcoef (g : list (Z * mono)) : Z := match g with t :: _ => fst t | [] => 0 end.
(** Standard form: strictly decreasing monomials, nonzero integers. *)
Definition zsorted (nv : nat) (lt : mono -> mono -> Prop) (f : list (Z * mono)) : Prop :=
  f <> [] /\ (forall t, In t f -> fst t <> 0 /\ length (snd t) = nv) /\ forall i j s t, nth_error f i = Some s -> nth_error f j = Some t -> (i < j)%nat -> lt (snd t) (snd s).
(** Groebner basis over the rationals: the leading monomials of the ideal are divisible by those of the basis. *)
Definition qgroebner (nv : nat) (lt : mono -> mono -> Prop) (G : list (list (Z * mono))) : Prop :=
  forall f m, qideal nv (pfs G) f -> is_lead nv lt 0 f m -> exists g, In g G /\ mdvd (lead g) m.
(** G is the reduced Groebner basis over the rationals of the ideal of F, each element up to a nonzero factor, in increasing order. *)
Definition qbasis (nv : nat) (lt : mono -> mono -> Prop) (F G : list (list (Z * mono))) : Prop :=
  Forall (zsorted nv lt) G /\ (forall f, qideal nv (pfs F) f <-> qideal nv (pfs G) f) /\ qgroebner nv lt G /\
  (forall i j f g t, nth_error G i = Some f -> nth_error G j = Some g -> i <> j -> In t g -> ~ mdvd (lead f) (snd t)) /\
  ForallOrdPairs (fun f g => lt (lead f) (lead g)) G.
(** f is the image of g modulo p, in standard form; with [monic_image], of g divided by its leading coefficient. *)
Definition image (nv : nat) (lt : mono -> mono -> Prop) (p : Z) (g f : list (Z * mono)) : Prop := sorted_poly nv lt p f /\ peq nv p (cf g) (cf f).
Definition monic_image (nv : nat) (lt : mono -> mono -> Prop) (p : Z) (g f : list (Z * mono)) : Prop :=
  sorted_poly nv lt p f /\ (exists r, f = (1, lead g) :: r) /\ forall m, length m = nv -> eqp p (lcoef g * cf f m) (cf g m).
