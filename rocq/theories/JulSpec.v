(** Specification of the arrays by which a parametrisation and real solutions are given to a program that calls the library. Nothing here refers to the code. *)
From Coq Require Import ZArith List Ascii.
Import ListNotations.
Open Scope Z_scope.

(** A parametrisation: eliminating polynomial, denominator, for each other variable the numerator and its factor. *)
Record rparam := { r_elim : list Z; r_denom : list Z; r_coords : list (list Z * Z) }.
(** The arrays that denote it: one length per polynomial, all coefficients one after the other; the factor of a numerator stands behind its coefficients. *)
Definition param_arrays (r : rparam) (lens cfs : list Z) : Prop :=
  lens = Z.of_nat (length (r_elim r)) :: Z.of_nat (length (r_denom r)) :: map (fun c => Z.of_nat (length (fst c)) + 1) (r_coords r) /\
  cfs = r_elim r ++ r_denom r ++ concat (map (fun c => fst c ++ [snd c]) (r_coords r)).
(** Boxes: for each coordinate the ends v / 2^k, lower and upper. *)
Definition end2 := (Z * Z)%type.
Definition ends (pts : list (list (end2 * end2))) : list end2 := concat (map (fun b => [fst b; snd b]) (concat pts)).
Definition point_arrays (pts : list (list (end2 * end2))) (num den : list Z) : Prop := num = map fst (ends pts) /\ den = map snd (ends pts).
(** A string as C knows it: the bytes before the first zero byte of a block; no string if there is none. *)
Fixpoint c_string (b : list ascii) : option (list ascii) :=
  match b with
  | [] => None
  | c :: b' => if ascii_dec c "000"%char then Some [] else match c_string b' with Some s => Some (c :: s) | None => None end
  end.
