(** Elimination ideals: polynomials in the last variables, seen as polynomials in all variables. Nothing here refers to the code. *)
From Coq Require Import ZArith NArith Arith List Bool.
From Verif Require Import LinSpec MonoSpec GbSpec.
Import ListNotations.
Open Scope Z_scope.

(** m contains none of the first k variables. *)
Definition free (k : nat) (m : mono) : Prop := firstn k m = mone k.
(** A polynomial in the variables behind the first k ones, as a polynomial in all variables. *)
Definition ext (k : nat) (f : pf) : pf := fun m => if mono_dec (firstn k m) (mone k) then f (skipn k m) else 0.
(** The elimination ideal: the polynomials in the last nv - k variables that the ideal contains. *)
Definition elimination (nv k : nat) (p : Z) (G : pf -> Prop) (f : pf) : Prop := ideal nv p G (ext k f).
(** The terms of a polynomial with the first k exponents left out. *)
Definition dropv (k : nat) (g : list (Z * mono)) : list (Z * mono) := map (fun t => (fst t, skipn k (snd t))) g.
