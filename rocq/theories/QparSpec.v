(** Images of a parametrisation modulo primes and agreement of an integer parametrisation with them; independent of the code. *)
From Coq Require Import ZArith Znumtheory List.
Import ListNotations.
Open Scope Z_scope.

(** A prime, the monic eliminating polynomial and the coordinates: the number of coefficients that count and an array *)
Record image := { im_p : Z; im_elim : list Z; im_coords : list (nat * list Z) }.
Definition co (l : list Z) (i : nat) : Z := nth i l 0.
Definition im_len (i : nat) (im : image) : nat := fst (nth i (im_coords im) (0%nat, [])).
Definition im_co (i j : nat) (im : image) : Z := co (snd (nth i (im_coords im) (0%nat, []))) j.

(** elim, of degree d, is a multiple of the eliminating polynomial of the image *)
Definition elim_agrees (d : nat) (elim : list Z) (im : image) : Prop := forall i, (i <= d)%nat -> (im_p im | co elim i - co elim d * co (im_elim im) i).
(** A / (cf * lc(elim) * d) is coordinate k of the image up to degree n *)
Definition coord_agrees (d : nat) (elim : list Z) (cf : Z) (A : list Z) (k n : nat) (im : image) : Prop :=
  forall j, (j < n)%nat -> (im_p im | co A j - cf * (co elim d * Z.of_nat d) * im_co k j im).

(** an image of degree d with nc coordinates: residues, leading coefficient one *)
Definition image_ok (d nc : nat) (im : image) : Prop :=
  (prime (im_p im) /\ Z.of_nat d < im_p im < 2 ^ 31) /\ length (im_elim im) = S d /\ co (im_elim im) d = 1 /\ (forall x, In x (im_elim im) -> 0 <= x < im_p im) /\
  length (im_coords im) = nc /\ forall a, In a (im_coords im) -> (fst a <= d)%nat /\ length (snd a) = d /\ forall x, In x (snd a) -> 0 <= x < im_p im.
