(** Specification of the arrays exchanged with a program that calls the library: lengths, exponents and coefficients of a list of polynomials, one after the
    other. Nothing here refers to the code. *)
From Coq Require Import ZArith NArith List.
From Verif Require Import MonoSpec GbSpec.
Import ListNotations.
Open Scope Z_scope.

(** A polynomial as the caller sees it: coefficients and exponents are 32-bit integers. *)
Definition lterm := (Z * list Z)%type.
Definition lpoly := list lterm.
(** The three arrays that denote a list of polynomials. *)
Record arrays := { a_lens : list Z; a_exps : list Z; a_cfs : list Z }.
Definition denotes (a : arrays) (s : list lpoly) : Prop :=
  a_lens a = map (fun f => Z.of_nat (length f)) s /\ a_exps a = concat (map snd (concat s)) /\ a_cfs a = map fst (concat s).
(** The polynomial with natural exponents that is meant. *)
Definition meant (f : lpoly) : list (Z * mono) := map (fun t => (fst t, map Z.to_N (snd t))) f.
(** Conversely the way a polynomial is handed out; zero is one term with coefficient 0 and exponents 0. *)
Definition handed (nv : nat) (f : list (Z * mono)) : lpoly :=
  match f with [] => [(0, repeat 0 nv)] | _ => map (fun t => (fst t, map Z.of_N (snd t))) f end.
(** What the caller may give modulo p in n variables: coefficients that fit in 32 bits, are not smaller than -p and not 0 modulo p; exponents that fit in 16 bits;
    no monomial twice in a polynomial. *)
Definition given_poly (p : Z) (n : nat) (f : lpoly) : Prop :=
  f <> [] /\ NoDup (map snd f) /\
  forall t, In t f -> - 2 ^ 31 <= fst t < 2 ^ 31 /\ - p <= fst t /\ ~ (p | fst t) /\ length (snd t) = n /\ Forall (fun x => 0 <= x < 2 ^ 16) (snd t).
