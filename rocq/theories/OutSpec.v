(** Specification of the text of the solutions: nested lists in brackets of numbers, of quotients n/d or n/d^e, and of quoted names. Blanks
    and newlines do not matter. *)
From Coq Require Import ZArith List Bool Ascii.
From Verif Require Import ParseSpec.
Import ListNotations.
Open Scope Z_scope.

(** The values: the quotient n/d, a name, a list. *)
Inductive tree := Val (n d : Z) | Name (x : str) | Lst (l : list tree).
Definition int_text (n : Z) (s : str) : Prop := (number s /\ dval s = n) \/ exists d, s = "-"%char :: d /\ number d /\ - dval d = n.
Definition quote : ascii := "'"%char.
Inductive spells : tree -> str -> Prop :=
| sp_int n s : int_text n s -> spells (Val n 1) s
| sp_quo n s d : int_text n s -> number d -> spells (Val n (dval d)) (s ++ "/"%char :: d)
| sp_pow n s d e : int_text n s -> number d -> number e -> spells (Val n (dval d ^ dval e)) (s ++ "/"%char :: d ++ "^"%char :: e)
| sp_name x : ~ In quote x -> spells (Name x) (quote :: x ++ [quote])
| sp_list ts ss : Forall2 spells ts ss -> spells (Lst ts) ("["%char :: join "," ss ++ ["]"%char]).
(** The text of an output: a value and a colon, blanks aside. *)
Definition output_means (text : str) (t : tree) : Prop := exists s, unblank text = s ++ [":"%char] /\ spells t s.

(** ** What the output has to say *)
Definition int (n : Z) : tree := Val n 1.
(** a polynomial: its degree (-1 for zero) and its coefficients, the constant one first *)
Definition poly_tree (c : list Z) : tree :=
  match c with [] => Lst [int (-1); Lst [int 0]] | _ => Lst [int (Z.of_nat (length c) - 1); Lst (map int c)] end.
(** the number v/2^k *)
Definition dyadic_tree (vk : Z * Z) (t : tree) : Prop := exists n d, t = Val n d /\ 0 < d /\ n * 2 ^ snd vk = fst vk * d.
(** a box: for each coordinate the lower and the upper end *)
Definition box_tree (b : (Z * Z) * (Z * Z)) (t : tree) : Prop := exists lo up, t = Lst [lo; up] /\ dyadic_tree (fst b) lo /\ dyadic_tree (snd b) up.
Definition point_tree (pt : list ((Z * Z) * (Z * Z))) (t : tree) : Prop := exists l, t = Lst l /\ Forall2 box_tree pt l.
Definition points_tree (pts : list (list ((Z * Z) * (Z * Z)))) (t : tree) : Prop := exists l, t = Lst [int 1; Lst l] /\ Forall2 point_tree pts l.
(** a parametrisation: characteristic, number of variables, degree, names, linear form, one triple of the eliminating polynomial, the
    denominator and the numerators (over Q with their denominators) *)
Definition param_tree (p nv deg : Z) (names : list str) (form : list (Z * Z)) (elim denom : list Z) (coords : list tree) : tree :=
  Lst [int p; int nv; int deg; Lst (map Name names); Lst (map (fun q => Val (fst q) (snd q)) form);
       Lst [int 1; Lst [poly_tree elim; poly_tree denom; Lst coords]]].
