(** Printing of Groebner bases.
    Source: /repo/src/msolve/iofiles.c display_monomial l.67-92, display_monomial_single l.94-120, print_msolve_polynomials_ff l.157-312,
    print_ff_nf_data and print_ff_basis_data l.314-360; /repo/src/msolve/lifting-gb.c display_modpoly l.277-325, display_gbmodpoly_cf_qq l.327-343,
    display_lm_gbmodpoly_cf_qq l.345-373, print_msolve_gbtrace_qq l.1699-1721.
    Simplifications: what is written to the file is the result; printf of an unsigned or an int and mpz_out_str give the decimal digits; the
    coefficient arrays of 8, 16 or 32 bits are lists of numbers; a polynomial is the list of its coefficients with the exponent vectors of its
    monomials (bs->cf and ht->ev at bs->hm), None when bs->hm is NULL; the basis is already in the order of bs->lmps. None: read out of bounds. *)
From Coq Require Import ZArith NArith Arith List Bool Ascii String.
From Verif Require Import ModInvModel ParseSpec FglmModel MonoModel.
Import ListNotations.
Local Open Scope string_scope.
Local Open Scope list_scope.
Open Scope Z_scope.

Definition s_ (x : string) : str := list_ascii_of_string x.
(** printf %u, %d: decimal digits *)
Fixpoint dec_loop (f : nat) (n : Z) (acc : str) : str :=
  let acc' := ascii_of_nat (Z.to_nat (48 + n mod 10)) :: acc in
  match f with O => acc' | S f' => if n / 10 =? 0 then acc' else dec_loop f' (n / 10) acc' end.
Definition dec (n : Z) : str := dec_loop (Z.to_nat (Z.log2 n)) n [].
Definition num (n : Z) : str := if n <? 0 then "-"%char :: dec (- n) else dec n.

(** * Modulo p *)
(** iofiles.c l.208-220: the places of the exponents *)
Definition evi (nv nev : nat) : list nat :=
  let ebl := ht_ebl nev in
  let evl := ht_evl nv nev in
  if (ebl =? 0)%nat then seq 1 (evl - 1) else seq 1 (ebl - 1) ++ seq (ebl + 1) (evl - (ebl + 1)).
Definition pow_text (name : str) (e : N) : str := name ++ "^"%char :: dec (Z.of_N e).
(** l.269-273, l.288-292: the variables from number k on, each with "*" before it *)
Fixpoint starred (names : list str) (ev : list N) (k cnt : nat) (ix : list nat) : option str :=
  match cnt with
  | O => Some []
  | S cnt' =>
      let? i := nth_error ix k in
      let? e := nth_error ev i in
      let? r := starred names ev (S k) cnt' ix in
      if (e =? 0)%N then Some r else let? n := nth_error names k in Some ("*"%char :: pow_text n e ++ r)
  end.
(** l.231-243: the first variable without "*" *)
Fixpoint plain (names : list str) (ev : list N) (k cnt : nat) (ix : list nat) : option str :=
  match cnt with
  | O => Some []
  | S cnt' =>
      let? i := nth_error ix k in
      let? e := nth_error ev i in
      if (e =? 0)%N then plain names ev (S k) cnt' ix
      else let? n := nth_error names k in let? r := starred names ev (S k) cnt' ix in Some (pow_text n e ++ r)
  end.
Definition pol := list (N * list N).
(** l.257-293 *)
Fixpoint terms_ff (nv : nat) (names : list str) (ix : list nat) (l : pol) : option str :=
  match l with
  | [] => Some []
  | (c, ev) :: r =>
      let? m := starred names ev 0 nv ix in
      let? t := terms_ff nv names ix r in Some ("+"%char :: dec (Z.of_N c) ++ m ++ t)
  end.
Definition poly_text (nv : nat) (names : list str) (ix : list nat) (g : option pol) : option str :=
  match g with
  | None => Some (s_ "0")
  | Some [] => None
  | Some ((c, ev) :: r) =>
      let? m := starred names ev 0 nv ix in
      let? t := terms_ff nv names ix r in Some (dec (Z.of_N c) ++ m ++ t)
  end.
Definition sep (last : bool) : str := if last then s_ "]:" ++ [nl] else s_ "," ++ [nl].
Fixpoint polys_text (nv : nat) (names : list str) (ix : list nat) (gs : list (option pol)) : option str :=
  match gs with
  | [] => Some []
  | g :: r => let? t := poly_text nv names ix g in
              let? u := polys_text nv names ix r in Some (t ++ sep (match r with [] => true | _ => false end) ++ u)
  end.
(** l.222-251: the leading monomials; for a zero polynomial "0," and no end of the list *)
Fixpoint leads_text (nv : nat) (names : list str) (ix : list nat) (gs : list (option pol)) : option str :=
  match gs with
  | [] => Some []
  | None :: r => let? u := leads_text nv names ix r in Some (s_ "0," ++ nl :: u)
  | Some [] :: _ => None
  | Some ((_, ev) :: _) :: r =>
      let? t := plain names ev 0 nv ix in
      let? u := leads_text nv names ix r in Some (t ++ sep (match r with [] => true | _ => false end) ++ u)
  end.
(** l.179-206; nv = 0 reads the names out of bounds *)
Fixpoint order_text (names : list str) : str := match names with [] => [] | [n] => n ++ [nl] | n :: r => n ++ s_ ", " ++ order_text r end.
Definition line (x : string) : str := s_ x ++ [nl].
Definition length_text (n : nat) : str :=
  if (n =? 1)%nat then line "#length of basis:      1 element"
  else s_ "#length of basis:      " ++ dec (Z.of_nat n) ++ line " elements sorted by increasing leading monomials".
Definition header_ff (lead : bool) (p : Z) (nv nev : nat) (names : list str) (lml : nat) : option str :=
  if (nv =? 0)%nat || (List.length names <? nv)%nat then None else
  Some ((if lead then line "#Leading ideal data" else line "#Reduced Groebner basis data") ++ line "#---" ++ s_ "#field characteristic: " ++ dec p ++ [nl]
        ++ s_ "#variable order:       " ++ order_text (firstn nv names)
        ++ (if (nev =? 0)%nat then line "#monomial order:       graded reverse lexicographical"
            else if (nev =? 1)%nat then line "#monomial order:       eliminating first variable, blocks: graded reverse lexicographical"
            else s_ "#monomial order:       eliminating first " ++ dec (Z.of_nat nev) ++ line " variables, blocks: graded reverse lexicographical")
        ++ length_text lml ++ line "#---").
(** print_ff_basis_data: print_gb = 1 prints the leading monomials, print_gb > 2 too (2 - print_gb is not 0) *)
Definition print_ff_basis (print_gb p : Z) (nv nev : nat) (names : list str) (gs : list (option pol)) : option str :=
  if print_gb <=? 0 then Some [] else
  let lead := negb (2 - print_gb =? 0) in
  let? h := header_ff lead p nv nev names (List.length gs) in
  let? b := (if lead then leads_text else polys_text) nv names (evi nv nev) gs in
  Some (h ++ "["%char :: b).

(** iofiles.c l.314-337 print_ff_nf_data: the same without the header (the polynomials number from to to - 1) *)
Definition print_ff_nf (print_gb : Z) (nv nev : nat) (names : list str) (gs : list (option pol)) : option str :=
  if print_gb <=? 0 then Some [] else
  let? b := (if negb (2 - print_gb =? 0) then leads_text else polys_text) nv names (evi nv nev) gs in Some ("["%char :: b).

(** * Over the rationals *)
(** iofiles.c l.94-120; the variable b tells that something was printed. names: from number elim on *)
Fixpoint single (names : list str) (es : list Z) (b : bool) : option str :=
  match es with
  | [] => Some []
  | e :: es' =>
      let? n := hd_error names in
      if 0 <? e then
        let? r := single (tl names) es' true in
        Some ((if b then ["*"%char] else []) ++ n ++ (if e =? 1 then [] else "^"%char :: dec e) ++ r)
      else single (tl names) es' b
  end.
(** iofiles.c l.67-92 *)
Definition monomial (names : list str) (es : list Z) : option str :=
  if (match find (fun e => 0 <? e) es with Some e => e | None => last es 0 end) =? 0 then Some (s_ "1")
  else
    (fix go (names : list str) (es : list Z) : option str :=
      match es with
      | [] => Some []
      | e :: es' => let? n := hd_error names in let? r := go (tl names) es' in
                    Some ((if 0 <? e then "*"%char :: n ++ (if e =? 1 then [] else "^"%char :: dec e) else []) ++ r)
      end) names es.
Record qpol := { q_lm : Z; q_cf : list (Z * Z) }.
(** lifting-gb.c l.291-313: the coefficients from number i down to 1 *)
Definition term_qq (names : list str) (n d : Z) (m : list Z) : option str :=
  let pre := if (negb (n =? 0) && negb (n =? 1)) || negb (d =? 1) then
               (if 0 <? n then ["+"%char] else []) ++ num n ++ (if d =? 1 then [] else "/"%char :: num d) ++ ["*"%char]
             else if n =? 0 then [] else ["+"%char] in
  if n =? 0 then Some pre else let? t := single names m false in Some (pre ++ t).
Fixpoint terms_qq (names : list str) (cf : list (Z * Z)) (mb : list (list Z)) (i : nat) : option str :=
  match i with
  | O => Some []
  | S i' =>
      let? c := nth_error cf i in
      let? m := nth_error mb i in
      let? t := term_qq names (fst c) (snd c) m in
      let? r := terms_qq names cf mb i' in Some (t ++ r)
  end.
(** l.314-324 *)
Definition const_text (n d : Z) : str :=
  (if 0 <? n then "+"%char :: num n else if n <? 0 then num n else []) ++ (if d =? 1 then [] else "/"%char :: num d).
(** l.277-325 *)
Definition modpoly_text (names : list str) (mb : list (list Z)) (ldm : list Z) (q : qpol) : option str :=
  match q_cf q with
  | [] => monomial names ldm
  | c :: _ =>
      let? m := single names ldm false in
      let? t := terms_qq names (q_cf q) mb (List.length (q_cf q) - 1) in
      Some ((if q_lm q =? 1 then [] else num (q_lm q) ++ ["*"%char]) ++ m ++ t ++ const_text (fst c) (snd c))
  end.
(** l.327-343, l.345-373 *)
Definition lead_text (names : list str) (ldm : list Z) (q : qpol) : option str :=
  match q_cf q with [] => monomial names ldm | _ => single names ldm false end.
Fixpoint entries (pr : list Z -> qpol -> option str) (gs : list (list Z * qpol)) : option str :=
  match gs with
  | [] => Some []
  | [g] => let? t := pr (fst g) (snd g) in Some (t ++ [nl])
  | g :: r => let? t := pr (fst g) (snd g) in let? u := entries pr r in Some (t ++ s_ ", " ++ nl :: u)
  end.
(** the basis without its header: [names] are all the names, the first [elim] of them do not occur *)
Definition gb_text (lead : bool) (elim : nat) (names : list str) (mb : list (list Z)) (gs : list (list Z * qpol)) : option str :=
  match gs with
  | [] => Some (line "[0]:")
  | _ => let vs := skipn elim names in
         let? b := entries (if lead then lead_text vs else modpoly_text vs mb) gs in Some ("["%char :: b ++ line "]:")
  end.
(** l.1699-1721; the header is written for print_gb = 0 too *)
Definition header_qq (print_gb : Z) (truncated : bool) (elim : nat) (names : list str) (ld : nat) : option str :=
  if (List.length names <=? elim)%nat then None else
  Some ((if print_gb =? 1 then line "#Leading ideal data" else if 1 <? print_gb then (if truncated then line "#Truncated reduced Groebner basis data" else line "#Reduced Groebner basis data") else [])
        ++ line "#---" ++ line "#field characteristic: 0" ++ s_ "#variable order:       " ++ order_text (skipn elim names)
        ++ line "#monomial order:       graded reverse lexicographical" ++ length_text ld ++ line "#---").
Definition print_gb_qq (print_gb : Z) (truncated : bool) (elim : nat) (names : list str) (mb : list (list Z)) (gs : list (list Z * qpol)) : option str :=
  let? h := header_qq print_gb truncated elim names (List.length gs) in
  if print_gb <? 1 then Some h else let? b := gb_text (print_gb =? 1) elim names mb gs in Some (h ++ b).
