(** Vectors of normal forms and rows of basis elements for the column variant of FGLM (option -C).
    Source: /repo/src/msolve/hilbert.c is_larger_exponent l.584-608, is_larger_exponent_bs l.614-641, copy_poly_in_matrixcol_no_zero l.846-882,
    copy_extrapoly_in_vector_no_zero l.925-954, copy_extrapoly_in_matrixcol_no_zero l.998-1029, the loops over the normal forms in
    build_matrixn_colon_no_zero l.2077-2087, l.2340-2350.
    Simplifications: a polynomial is the list of its terms from the smallest to the largest, as they are read (position len-1-k); the
    hash table and the array of exponents are replaced by the exponents; degrees do not overflow; a vector is the list of its entries,
    which are zero before. Reading outside of the terms: None. The unused arguments are left out. *)
From Coq Require Import ZArith Arith List Bool Lia.
From Verif Require Import ModInvModel ColSpec.
Import ListNotations.
Open Scope Z_scope.

(** l.597-606: from the last variable down to the third one *)
Fixpoint down (a b : list Z) : Z :=
  match a, b with
  | x :: a', y :: b' => if x <? y then 1 else if y <? x then -1 else down a' b'
  | _, _ => 0
  end.
Definition is_larger (a b : mono) : Z :=
  if deg a <? deg b then -1 else if deg b <? deg a then 1 else down (rev (skipn 2 a)) (rev (skipn 2 b)).

(** the inner loop, l.943-946: [rs] are the terms from position k on *)
Fixpoint advance (bound : Z) (k : Z) (rs : poly) (m : mono) : option (Z * poly) :=
  match rs with
  | [] => None
  | t :: rs' => if (is_larger (fst t) m <? 0) && (k <? bound) then advance bound (k + 1) rs' m else Some (k, rs)
  end.
(** the outer loop, l.940-952 *)
Fixpoint columns (bound : Z) (len : Z) (k : Z) (rs : poly) (B : list mono) : option (list Z) :=
  match B with
  | [] => Some []
  | m :: B' =>
      if k <? len then
        match advance bound k rs m with
        | None | Some (_, []) => None
        | Some (k1, t :: rs2) =>
            if is_larger (fst t) m =? 0 then let? v := columns bound len (k1 + 1) rs2 B' in Some (snd t :: v)
            else let? v := columns bound len k1 (t :: rs2) B' in Some (0 :: v)
        end
      else let? v := columns bound len k rs B' in Some (0 :: v)
  end.
Definition zlen (P : poly) : Z := Z.of_nat (List.length P).
(** len is unsigned: len - 2 is taken modulo 2^32 *)
Definition copy_extrapoly (B : list mono) (P : poly) : option (list Z) := columns ((zlen P - 2) mod 2 ^ 32) (zlen P) 0 P B.
(** l.851: the counter runs to start + pos, not to pos: behind the terms of the polynomial follow those of the elements before it.
    [before] are the elements before, from the first; signed arithmetic *)
Definition copy_poly (fc : Z) (B : list mono) (before : list poly) (P : poly) : option (list Z) :=
  let ts := map (fun t => (fst t, fc - snd t)) (P ++ concat (rev before)) in columns (zlen ts - 2) (zlen ts) 0 ts B.

(** l.2082-2086: the five smallest terms are looked up in the basis *)
Definition same_mono (a b : mono) : bool := if list_eq_dec Z.eq_dec a b then true else false.
Fixpoint seek (B : list mono) (m : mono) : option (list mono) :=
  match B with [] => None | b :: B' => if same_mono m b then Some B else seek B' m end.
Fixpoint check (n : nat) (B : list mono) (P : poly) : option unit :=
  match n with
  | O => Some tt
  | S n' => match P with [] => None | t :: P' => let? B' := seek B (fst t) in check n' B' P' end
  end.
(** the beginning of build_matrixn_colon_no_zero: the loop over the normal forms (the first one is left out), then the vector of the second *)
Definition left_vector (B : list mono) (nfs : list poly) : option (list Z) :=
  if forallb (fun P => match check 5 B P with Some _ => true | None => false end) (tl nfs) then
    match tl nfs with [] => None | P :: _ => copy_extrapoly B P end
  else None.
