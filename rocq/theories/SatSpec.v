(** Specification side of the saturation: products with a polynomial given by its terms, saturation of an ideal. *)
From Coq Require Import ZArith NArith Arith List Bool.
From Verif Require Import LinSpec MonoSpec GbSpec.
Import ListNotations.
Open Scope Z_scope.

(** the product of the polynomial with terms [phi] and the polynomial f *)
Definition pprod (phi : list (Z * mono)) (f : pf) : pf := fun m => fold_right (fun t a => fst t * pmul (snd t) f m + a) 0 phi.
(** phi^k * f *)
Fixpoint pprods (phi : list (Z * mono)) (k : nat) (f : pf) : pf := match k with O => f | S k' => pprod phi (pprods phi k' f) end.
(** f lies in the saturation of the ideal of F by phi: some power of phi takes it into the ideal *)
Definition in_sat (nv : nat) (p : Z) (F : list (list (Z * mono))) (phi : list (Z * mono)) (f : pf) : Prop :=
  exists k, ideal nv p (pfs F) (pprods phi k f).
(** polynomials in nv variables, given by terms *)
Definition in_vars (nv : nat) (f : list (Z * mono)) : Prop := forall t, In t f -> length (snd t) = nv.
(** G generates an ideal between that of F and its saturation / generates the saturation *)
Definition between (nv : nat) (p : Z) (F : list (list (Z * mono))) (phi : list (Z * mono)) (G : list (list (Z * mono))) : Prop :=
  (forall f, ideal nv p (pfs F) f -> ideal nv p (pfs G) f) /\ (forall f, ideal nv p (pfs G) f -> in_sat nv p F phi f).
Definition is_saturation (nv : nat) (p : Z) (F : list (list (Z * mono))) (phi : list (Z * mono)) (G : list (list (Z * mono))) : Prop :=
  forall f, in_vars nv f -> ideal nv p (pfs G) (cf f) <-> in_sat nv p F phi (cf f).
