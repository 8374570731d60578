(** Images of a basis modulo primes and what it means that rational coefficients agree with them; independent of the code. *)
From Coq Require Import ZArith Znumtheory List.
Import ListNotations.
Open Scope Z_scope.

(** A prime and, for each polynomial of the monic basis modulo that prime, its coefficients other than the leading one *)
Definition image := (Z * list (list Z))%type.
(** coefficient c of polynomial k *)
Definition cf (k c : nat) (im : image) : Z := nth c (nth k (snd im) []) 0.
(** same number of polynomials with the same numbers of coefficients; residues modulo the prime *)
Definition shaped (cs0 cs : list (list Z)) : Prop := length cs = length cs0 /\ forall k, length (nth k cs []) = length (nth k cs0 []).
Definition in_range (im : image) : Prop := forall c, In c (snd im) -> forall x, In x c -> 0 <= x < fst im.
(** word-size primes, all different *)
Definition good_primes (L : list Z) : Prop := NoDup L /\ forall p, In p L -> prime p /\ p < 2 ^ 31.
(** the residue of n / l modulo the prime of the image is the coefficient of the image *)
Definition agrees (l n : Z) (k c : nat) (im : image) : Prop := (fst im | l * cf k c im - n).
Definition product (U : list image) : Z := fold_right Z.mul 1 (map fst U).
