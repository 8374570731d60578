(** Reading an input file.
    Source: /repo/src/msolve/iofiles.c store_exponent l.21-63, get_nvars l.362-387, is_line_empty l.395-404, get_ngenerators l.406-429,
    get_variable_name l.431-472, get_number_of_terms l.474-502, get_variables l.504-522, get_characteristic l.524-549,
    get_nterms_and_all_nterms l.551-572, get_term l.575-653, get_coefficient_ff_and_term_from_line l.657-712,
    beginning_strterm_to_mpz l.714-746, inner_strterm_to_mpz l.748-777, get_coefficient_mpz_and_term_from_line l.779-803,
    get_coeffs_and_exponents_ff32 l.805-840, get_coeffs_and_exponents_mpz l.843-887, duplicate_vnames l.899-912, get_data_from_file l.915-961.
    Simplifications: a file is a list of characters without NUL; strings are the lists of their characters before the NUL, pointers
    into a string are positions. The arrays of coefficients and exponents are lists of terms, one list per generator (all of them are
    written inside their bounds, as they are allocated with the sum of the lengths). The removal of blanks runs over the whole buffer
    of getdelim, also over the bytes behind the NUL (l.560-564, l.823-827): the text is the same; [line[k-1]] (l.828) is then never
    the comma of the text, which stays. Reading or writing outside of an array or uninitialised memory, exit(1): None. The numbers of
    terms are nat, not uint32_t. The first two lines are shorter than the buffer of 2^30 characters of fgets (l.509, l.528, l.926). *)
From Coq Require Import ZArith Arith List Bool Ascii.
From Verif Require Import ModInvModel FglmModel ParseSpec.
Import ListNotations.
Open Scope Z_scope.

(** * Library functions *)
(** strchr(s + i, c) as a position in s *)
Fixpoint index (c : ascii) (s : str) : option nat :=
  match s with [] => None | x :: r => if Ascii.eqb x c then Some O else let? k := index c r in Some (S k) end.
Definition strchr (s : str) (i : nat) (c : ascii) : option nat := let? k := index c (skipn i s) in Some (i + k)%nat.
Definition count_char (c : ascii) (s : str) : nat := length (filter (fun x => Ascii.eqb x c) s).
(** strtol(s, NULL, 10) and atol(s): blanks, a sign, digits; saturated *)
Fixpoint drop_space (s : str) : str := match s with c :: r => if is_space c then drop_space r else s | [] => [] end.
Fixpoint read_digits (a : Z) (s : str) : Z := match s with c :: r => if is_digit c then read_digits (10 * a + digit c) r else a | [] => a end.
Definition clip (z : Z) : Z := Z.max (- 2 ^ 63) (Z.min (2 ^ 63 - 1) z).
Definition strtol (s : str) : Z :=
  match drop_space s with
  | c :: r => if Ascii.eqb c "-" then clip (- read_digits 0 r) else if Ascii.eqb c "+" then clip (read_digits 0 r) else clip (read_digits 0 (c :: r))
  | [] => 0
  end.
Definition int32 (z : Z) : Z := (z + 2 ^ 31) mod 2 ^ 32 - 2 ^ 31.
(** mpq_set_str(s, 10) on a string without blanks: integers with an optional "-", one "/"; None is the result -1 *)
Definition set_int (s : str) : option Z :=
  match s with
  | [] => None
  | c :: r => if Ascii.eqb c "-" then match r with [] => None | _ => if forallb is_digit r then Some (- dval r) else None end
              else if forallb is_digit s then Some (dval s) else None
  end.
Definition set_rat (s : str) : option (Z * Z) :=
  match index "/" s with
  | None => let? n := set_int s in Some (n, 1)
  | Some k => let? n := set_int (firstn k s) in let? d := set_int (skipn (S k) s) in Some (n, d)
  end.
(** getline and getdelim: the successive pieces, each with its delimiter *)
Fixpoint pieces (c : ascii) (s cur : str) : list str :=
  match s with
  | [] => match cur with [] => [] | _ => [rev cur] end
  | x :: r => if Ascii.eqb x c then rev (x :: cur) :: pieces c r [] else pieces c r (x :: cur)
  end.

(** * Exponents, l.21-63 *)
Fixpoint setz (l : list Z) (k : nat) (x : Z) : option (list Z) :=
  match l, k with [], _ => None | _ :: r, O => Some (x :: r) | y :: r, S k' => let? r' := setz r k' x in Some (y :: r') end.
(** l.30-32: from op on, the number of characters before "^", at most n *)
Fixpoint caret (s : str) (n : nat) : nat :=
  match n, s with S n', c :: r => if Ascii.eqb c "^" then O else S (caret r n') | _, _ => O end.
(** l.36-38 *)
Fixpoint signs (s : str) : nat :=
  match s with c :: r => if Ascii.eqb c " " || Ascii.eqb c "+" || Ascii.eqb c "-" then S (signs r) else O | [] => O end.
Fixpoint same (a b : str) : bool := match a, b with [], [] => true | x :: a', y :: b' => Ascii.eqb x y && same a' b' | _, _ => false end.
Fixpoint find_name (names : list str) (v : str) (k : nat) : option nat :=
  match names with [] => None | n :: r => if same n v then Some k else find_name r v (S k) end.
Definition char_at (s : str) (i : nat) (c : ascii) : bool := match nth_error s i with Some x => Ascii.eqb x c | None => false end.
(** l.29-57: the factor term[op .. i-1]; an unknown name leaves the exponents as they are *)
Definition store_seg (names : list str) (t : str) (op i : nat) (exps : list Z) : option (list Z) :=
  let j0 := (op + caret (skipn op t) (i - op))%nat in
  match j0 with
  | O => None
  | S j1 =>
      let j := if char_at t j1 "," then j1 else j0 in
      let op' := (op + signs (skipn op t))%nat in
      if (j <? op')%nat then None else
      let var := firstn (j - op') (skipn op' t) in
      let ev := if char_at t j "^" then firstn (i - j - 1) (skipn (S j) t) else ["1"%char] in
      match find_name names var O with
      | Some k => setz exps k (int32 (strtol ev))
      | None => Some exps
      end
  end.
(** l.27-60: [rest] is term + i *)
Fixpoint store_loop (names : list str) (t rest : str) (i op : nat) (exps : list Z) : option (list Z) :=
  match rest with
  | [] => store_seg names t op i exps
  | c :: r => if Ascii.eqb c "*" then let? e := store_seg names t op i exps in store_loop names t r (S i) (S i) e
              else store_loop names t r (S i) op exps
  end.
Definition store_exponent (names : list str) (t : str) : option (list Z) := store_loop names t t 0 0 (repeat 0 (length names)).

(** * Terms *)
(** l.474-502 *)
Fixpoint skip_blanks (s : str) : str := match s with c :: r => if Ascii.eqb c " " then skip_blanks r else s | [] => [] end.
Definition get_number_of_terms (line : str) : nat :=
  ((1 - match skip_blanks line with c :: _ => if Ascii.eqb c "-" then 1 else 0 | [] => 0 end) + count_char "+" line + count_char "-" line)%nat.
(** l.575-653; term_size is 50000 (l.661, l.783), and a NUL is written behind the copied characters *)
Definition take_term (line : str) (start q : nat) : option (str * nat) :=
  if (Z.of_nat (q - start) <? 50000) then Some (firstn (q - start) (skipn start line), S q) else None.
Definition get_term (line : str) (prev : nat) : option (str * nat) :=
  let add := strchr line prev "+" in
  let minus0 := strchr line prev "-" in
  let minus := match minus0 with Some O => strchr line (S prev) "-" | _ => minus0 end in
  let start := match prev with O => O | S q => q end in
  match add, minus with
  | Some a, Some m => if (m - start <? a - start)%nat then take_term line start m else take_term line start a
  | Some a, None => take_term line start a
  | None, Some m => take_term line start m
  | None, None => if (Z.of_nat (length line + 1 - start) <? 50000) then Some (skipn start line, prev) else None
  end.
Fixpoint get_terms (n : nat) (line : str) (prev : nat) : option (list str) :=
  match n with O => Some [] | S n' => let? tq := get_term line prev in let? r := get_terms n' line (snd tq) in Some (fst tq :: r) end.

(** l.657-712: coefficients modulo p; the loops add p until the number is not negative *)
Definition lift_p (p z : Z) : Z := if z <? 0 then z mod p else z.
Definition first_ff (p : Z) (t : str) : Z :=
  let iv := int32 (strtol t) in
  let iv := if iv =? 0 then (if char_at t 0 "0" then 0 else if char_at t 0 "-" then -1 else 1) else iv in
  lift_p p iv.
Definition next_ff (p : Z) (t : str) : Z :=
  let cf := strtol t in
  let cf := if cf =? 0 then (if char_at t 0 "-" then -1 else 1) else cf in
  int32 (Z.rem (lift_p p cf) p).
(** l.714-777: numerator and denominator; the text before "*" or "," *)
Fixpoint before_star (s : str) : str := match s with c :: r => if Ascii.eqb c "*" || Ascii.eqb c "," then [] else c :: before_star r | [] => [] end.
Definition first_qq (t : str) : Z * Z :=
  let buf := before_star t in
  match set_rat buf with Some q => q | None => if char_at buf 0 "-" then (-1, 1) else (1, 1) end.
Definition next_qq (t : str) : option (Z * Z) :=
  match before_star t with
  | [] => None
  | c :: buf => let q := match set_rat buf with Some q => q | None => (1, 1) end in
                Some (if char_at t 0 "-" then (- fst q, snd q) else q)
  end.
(** coefficients of the two kinds: a residue is a fraction with denominator one *)
Definition coefs (p : Z) (ts : list str) : option (list (Z * Z)) :=
  match ts with
  | [] => Some []
  | t :: r => if p =? 0 then let? l := omap next_qq r in Some (first_qq t :: l)
              else Some ((first_ff p t, 1) :: map (fun t => (next_ff p t, 1)) r)
  end.
Definition read_line (names : list str) (p : Z) (line : str) : option (list ((Z * Z) * list Z)) :=
  let? ts := get_terms (get_number_of_terms line) line 0 in
  let? cs := coefs p ts in
  let? es := omap (store_exponent names) ts in
  Some (combine cs es).

(** * Files *)
(** l.431-472: at most 49 characters before a comma, 48 at the end of the line *)
Definition trim (s : str) : str := rev (drop_space (rev (drop_space s))).
Definition get_variable_name (line : str) (prev : nat) : option (str * nat) :=
  match strchr line prev "," with
  | Some q => let raw := firstn (q - prev) (skipn prev line) in if (length raw <=? 49)%nat then Some (trim raw, S q) else None
  | None => let raw := skipn prev line in if (length raw <=? 48)%nat then Some (trim raw, prev) else None
  end.
Fixpoint get_names (n : nat) (line : str) (prev : nat) : option (list str) :=
  match n with O => Some [] | S n' => let? vq := get_variable_name line prev in let? r := get_names n' line (snd vq) in Some (fst vq :: r) end.
(** l.899-912 *)
Fixpoint duplicates (names : list str) : bool := match names with [] => false | n :: r => existsb (same n) r || duplicates r end.
(** l.524-549 *)
Definition get_characteristic (line : str) : option Z :=
  let p := strtol line in if (0 <=? p) && (p <=? 2147483647) then Some p else None.
(** l.915-961. The generators are counted by lines (l.406-429) and read up to commas (l.559, l.822): with more commas, lens is written
    out of bounds; with fewer, its last entries are read without having been written. *)
Record input := { i_names : list str; i_char : Z; i_gens : list (list ((Z * Z) * list Z)) }.
Definition read_file (text : str) : option input :=
  match pieces nl text [] with
  | l1 :: l2 :: body =>
      let ngens := length (filter written body) in
      let? names := get_names (S (count_char "," l1)) l1 0 in
      if duplicates names then None else
      let? p := get_characteristic l2 in
      let chunks := map unblank (pieces "," (concat body) []) in
      if negb (length chunks =? ngens)%nat then None else
      let? gens := omap (read_line names p) chunks in
      Some {| i_names := names; i_char := p; i_gens := gens |}
  | _ => None
  end.
