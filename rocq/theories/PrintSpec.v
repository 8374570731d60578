(** What a printed basis denotes, in terms of the texts of ParseSpec (README.md, the format of input and output files); independent of the code. *)
From Coq Require Import ZArith Arith NArith List Bool Ascii.
From Verif Require Import ParseSpec.
Import ListNotations.
Open Scope Z_scope.

(** The monomials of a hash table: the exponents, with the degree before them, or a degree before each of the two blocks. *)
Definition stored (nev : nat) (e : list N) (ev : list N) : Prop :=
  if (nev =? 0)%nat then exists d, ev = d :: e else exists d1 d2, ev = d1 :: firstn nev e ++ d2 :: skipn nev e.
(** A term of the text means (c1 / c2) x^e. *)
Definition denotes (nv : nat) (t : term) (c : Z * Z) (e : list Z) : Prop := t_num t = fst c /\ t_den t = snd c /\ t_exps nv t = e.
(** A text lists the polynomials Ps: a bracket, the polynomials separated by commas, with blanks and ends of lines between, one line each. *)
Definition lists (names : list str) (body : str) (Ps : list (list term)) : Prop :=
  exists us, body = join "," us /\ Forall2 (fun u P => unblank u = text_poly names P) us Ps /\ length (filter written (lines body)) = length Ps.
(** The input file made of the names, the characteristic and such a text. *)
Definition file_of (names : list str) (ds body : str) : str := join "," names ++ nl :: ds ++ nl :: body.
(** names that the reader accepts *)
Definition names_short (names : list str) : Prop := forall n, In n names -> (length n <= 47)%nat.

(** Polynomials over the rationals as they are lifted: leading coefficient and monomial, and a vector of fractions (numerator, denominator)
    for the monomials of a list, increasing. The terms, the leading one first. *)
Definition nonzero (x : (Z * Z) * list Z) : bool := negb (fst (fst x) =? 0).
Definition dense_terms (lm : Z) (ldm : list Z) (cf : list (Z * Z)) (mb : list (list Z)) : list ((Z * Z) * list Z) :=
  ((lm, 1), ldm) :: rev (filter nonzero (combine cf mb)).
(** lines of comments *)
Definition comments (h : str) : Prop := exists ls, h = concat (map (fun l => "#"%char :: l ++ [nl]) ls) /\ forall l, In l ls -> ~ In nl l.
