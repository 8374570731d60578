(** The input format of README.md l.34-50: polynomials as they are written and their meaning; independent of the code. *)
From Coq Require Import ZArith Arith List Bool Ascii.
From Verif Require Import LinSpec.
Import ListNotations.
Open Scope Z_scope.

Definition str := list ascii.
Definition nl : ascii := ascii_of_nat 10.
Definition is_digit (c : ascii) : bool := (48 <=? nat_of_ascii c)%nat && (nat_of_ascii c <=? 57)%nat.
(** isspace in the C locale: blank, and the codes 9 to 13 *)
Definition is_space (c : ascii) : bool := (nat_of_ascii c =? 32)%nat || ((9 <=? nat_of_ascii c)%nat && (nat_of_ascii c <=? 13)%nat).
Definition digit (c : ascii) : Z := Z.of_nat (nat_of_ascii c) - 48.
Definition dval (d : str) : Z := fold_left (fun a c => 10 * a + digit c) d 0.
(** a number is written with at least one digit *)
Definition number (d : str) : Prop := d <> [] /\ forallb is_digit d = true.
Definition special (c : ascii) : bool := existsb (Ascii.eqb c) ["+"; "-"; "*"; "^"; ","]%char || is_space c.
(** names of variables: no separator, the first character is not a digit *)
Definition name (n : str) : Prop := forallb (fun c => negb (special c)) n = true /\ match n with [] => False | c :: _ => is_digit c = false end.

(** A term: sign, coefficient (numerator and denominator) if it is written, variables with their exponents if they are written. *)
Record term := { t_neg : bool; t_coef : option (str * option str); t_fac : list (nat * option str) }.
Definition term_ok (nv : nat) (t : term) : Prop :=
  (t_coef t <> None \/ t_fac t <> []) /\
  (forall n d, t_coef t = Some (n, d) -> number n /\ forall d', d = Some d' -> number d') /\
  (forall k e, In (k, e) (t_fac t) -> (k < nv)%nat /\ forall d, e = Some d -> number d) /\ NoDup (map fst (t_fac t)).

(** The text of a polynomial without blanks. *)
Definition text_coef (c : str * option str) : str := fst c ++ match snd c with None => [] | Some d => "/"%char :: d end.
Definition text_fac (names : list str) (f : nat * option str) : str := nth (fst f) names [] ++ match snd f with None => [] | Some d => "^"%char :: d end.
Fixpoint join (c : ascii) (l : list str) : str := match l with [] => [] | [s] => s | s :: l' => s ++ c :: join c l' end.
Definition segments (names : list str) (t : term) : list str :=
  match t_coef t with None => [] | Some c => [text_coef c] end ++ map (text_fac names) (t_fac t).
Definition text_body (names : list str) (t : term) : str := join "*" (segments names t).
Definition text_term (names : list str) (t : term) : str := (if t_neg t then "-" else "+")%char :: text_body names t.
(** no sign, or "-", before the first term *)
Definition text_first (names : list str) (t : term) : str := (if t_neg t then ["-"%char] else []) ++ text_body names t.
Definition text_poly (names : list str) (P : list term) : str :=
  match P with [] => [] | t :: P' => text_first names t ++ concat (map (text_term names) P') end.

(** The meaning: exponents of the variables, coefficient as a fraction. *)
Definition t_exps (nv : nat) (t : term) : list Z :=
  map (fun k => match find (fun f => (fst f =? k)%nat) (t_fac t) with None => 0 | Some (_, None) => 1 | Some (_, Some d) => dval d end) (seq 0 nv).
Definition t_sign (t : term) : Z := if t_neg t then -1 else 1.
Definition t_num (t : term) : Z := t_sign t * match t_coef t with None => 1 | Some (n, _) => dval n end.
Definition t_den (t : term) : Z := match t_coef t with Some (_, Some d) => dval d | _ => 1 end.

(** The text of a file: blanks and ends of lines may be added anywhere. *)
Definition blank (c : ascii) : bool := (nat_of_ascii c =? 13)%nat || (nat_of_ascii c =? 10)%nat || (nat_of_ascii c =? 32)%nat.
Definition unblank (s : str) : str := filter (fun c => negb (blank c)) s.
Definition padded (s n : str) : Prop := exists a b, s = a ++ n ++ b /\ forallb is_space a = true /\ forallb is_space b = true.
(** the lines of a text, without their ends *)
Fixpoint lines (s : str) : list str :=
  match s with
  | [] => [[]]
  | c :: r => if Ascii.eqb c nl then [] :: lines r else match lines r with l :: ls => (c :: l) :: ls | [] => [[c]] end
  end.
Definition written (s : str) : bool := negb (forallb is_space s).
(** A file for the variables [names], the characteristic p and the polynomials Ps: the names separated by commas on the first line, the
    characteristic on the second, then the polynomials separated by commas, as many as there are lines that are not blank. At most 47
    characters for a name with the blanks around it. *)
Definition file_text (text : str) (names : list str) (p : Z) (Ps : list (list term)) : Prop :=
  exists l1 l2 body raws ds us,
    text = l1 ++ nl :: l2 ++ nl :: body /\ ~ In nl l1 /\ ~ In nl l2 /\
    l1 = join "," raws /\ Forall2 padded raws names /\ (forall r, In r raws -> (length r <= 47)%nat) /\
    padded l2 ds /\ number ds /\ dval ds = p /\
    body = join "," us /\ Forall2 (fun u P => unblank u = text_poly names P) us Ps /\
    length (filter written (lines body)) = length Ps.

(** Conditions on a system: names, exponents below 2^31, terms of at most 49997 characters. *)
Definition names_ok (names : list str) : Prop := NoDup names /\ forall n, In n names -> name n.
Definition exps_fit (t : term) : Prop := forall k d, In (k, Some d) (t_fac t) -> (dval d < 2 ^ 31)%Z.
Definition short (names : list str) (t : term) : Prop := (Z.of_nat (length (text_term names t)) <= 49997)%Z.
Definition good (names : list str) (t : term) : Prop := term_ok (length names) t /\ exps_fit t /\ short names t.
(** Modulo p: no fractions; the first coefficient below 2^31 and not "-0", the others not zero and below 2^63. *)
Definition ff_first (t : term) : Prop := forall n d, t_coef t = Some (n, d) -> d = None /\ dval n < 2 ^ 31 /\ (dval n = 0 -> t_neg t = false).
Definition ff_next (t : term) : Prop := forall n d, t_coef t = Some (n, d) -> d = None /\ 0 < dval n < 2 ^ 63.
Definition poly_ff (P : list term) : Prop := match P with [] => True | t :: P' => ff_first t /\ forall u, In u P' -> ff_next u end.
(** A term and what is stored for it: (numerator, denominator) and exponents. *)
Definition row_ff (nv : nat) (p : Z) (t : term) (r : (Z * Z) * list Z) : Prop := snd r = t_exps nv t /\ snd (fst r) = 1 /\ 0 <= fst (fst r) < 2 ^ 31 /\ (p | fst (fst r) - t_num t).
Definition row_qq (nv : nat) (t : term) (r : (Z * Z) * list Z) : Prop := r = ((t_num t, t_den t), t_exps nv t).
