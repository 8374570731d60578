(** Model of the import of the input system into the engine: neogb/io.c l.58-249 (sort_terms), l.251-451
    (import_input_data), l.599-637 (field size class), l.640-764 (validate_input_data), l.766-880 (check_and_set_meta_data),
    neogb/engine.c l.50-105 (initialize_gba_input_data), neogb/basis.c l.377-459 (copy_basis_mod_p), l.461-520
    (remove_content_of_initial_basis), msolve/msolve.c l.809-814 (reduce_generators). [None] is an access outside an array,
    a null pointer, exit(1), a division by zero or exhausted fuel. *)
From Coq Require Import ZArith List Arith Bool.
From Verif Require Import ModInvModel InputModel.
Import ListNotations.
Local Open Scope bool_scope.
Open Scope Z_scope.

(** ** io.c l.599-637: check_ff_bits and set_ff_bits. The parameter is an int32_t; the characteristic is an uint32_t. *)
Definition int32 (x : Z) : Z := (x + 2 ^ 31) mod 2 ^ 32 - 2 ^ 31.
Definition uint32 (x : Z) : Z := x mod 2 ^ 32.
Definition ff_bits (fc : Z) : Z :=
  let c := int32 fc in if c =? 0 then 0 else if c <? 2 ^ 8 then 8 else if c <? 2 ^ 16 then 16 else 32.

(** ** io.c l.719-763: the generators are cut out of the flat array of coefficients. A generator is called invalid when one
    of its coefficients is 0; in characteristic 0 numerators and denominators are tested. *)
Definition slice {A} (l : list A) (off n : nat) : option (list A) := if (off + n <=? length l)%nat then Some (firstn n (skipn off l)) else None.
Fixpoint flags_ff (lens : list nat) (off : nat) (cfs : list Z) : option (list bool) :=
  match lens with
  | [] => Some []
  | n :: lens' => let? c := slice cfs off n in let? r := flags_ff lens' (off + n) cfs in Some (existsb (Z.eqb 0) c :: r)
  end.
Fixpoint flags_qq (lens : list nat) (off : nat) (cfs : list (Z * Z)) : option (list bool) :=
  match lens with
  | [] => Some []
  | n :: lens' => let? c := slice cfs off n in let? r := flags_qq lens' (off + n) cfs in Some (existsb (fun x => Z.eqb 0 (fst x) || Z.eqb 0 (snd x)) c :: r)
  end.
Fixpoint count (l : list bool) : nat := match l with [] => O | b :: l' => ((if b then 1 else 0) + count l')%nat end.
(** validate_input_data: result, flags (a null pointer when an error was found before), new number of generators. The
    corrections of options are left out. *)
Inductive coeffs := CF (c : list Z) | CQ (c : list (Z * Z)).
Definition validate (fc : Z) (cf : coeffs) (lens : list nat) (nv ngens nnf : Z) : option (Z * option (list bool) * Z) :=
  if 4294967291 <? fc then Some (0, None, ngens)
  else if nv <? 0 then Some (0, None, ngens)
  else if ngens <? 1 then Some (0, None, ngens)
  else if (nnf <? 0) || (ngens <=? nnf) then Some (0, None, ngens)
  else let? fl := (match cf with CF c => if fc =? 0 then None else flags_ff lens 0 c | CQ c => if fc =? 0 then flags_qq lens 0 c else None end) in
       let ctr := Z.of_nat (count fl) in
       if ctr =? 0 then Some (1, Some fl, ngens)
       else if ngens - ctr <? 1 then Some (-1, Some fl, ngens - ctr) else Some (1, Some fl, ngens - ctr).
(** io.c l.799-810: generators to read, generators expected. *)
Definition meta (invalid : list bool) (ngens nnf : Z) : Z * Z :=
  let ctr := Z.of_nat (count (firstn (Z.to_nat ngens) invalid)) in (ngens - nnf, ngens - nnf - ctr).

(** ** io.c l.322-386: one coefficient. [(c >> 31) & fc] is an uint32_t, the sum is stored in an int32_t and read back as
    an uint32_t for the remainder; the result is cut to the coefficient type. *)
Definition import_cf (bits fc c : Z) : option Z :=
  let c1 := int32 (uint32 (uint32 c + Z.land (uint32 (Z.shiftr c 31)) fc)) in
  if fc =? 0 then None else Some ((uint32 c1 mod fc) mod 2 ^ bits).
Fixpoint omap {A B} (f : A -> option B) (l : list A) : option (list B) :=
  match l with [] => Some [] | a :: l' => let? b := f a in let? r := omap f l' in Some (b :: r) end.
(** l.388-413: characteristic 0. mpz_divexact by 0 is undefined, otherwise it is the quotient. *)
Definition import_qq (row : list (Z * Z)) : option (list Z) :=
  let prod := fold_left (fun p x => p * snd x) row 1 in
  omap (fun x => if snd x =? 0 then None else Some (prod / snd x * fst x)) row.

(** ** io.c l.58-249, sort_terms: the array of pointers [phm], sorted by sort_r, is given as the list of the positions it
    points to. [tmp] is the temporary coefficient. The finite field versions copy, the version over the integers swaps. *)
Section Sort.
  Context {C H : Type}.
  Record mover := { m_begin : C -> list C -> nat -> option (C * list C); m_move : list C -> nat -> nat -> option (list C); m_end : C -> list C -> nat -> option (C * list C) }.
  Definition copying : mover :=
    {| m_begin := fun _ cf i => let? c := nth_error cf i in Some (c, cf);
       m_move := fun cf k j => let? c := nth_error cf j in aset cf k c;
       m_end := fun tmp cf k => let? cf1 := aset cf k tmp in Some (tmp, cf1) |}.
  Definition swapping : mover :=
    {| m_begin := fun tmp cf i => let? c := nth_error cf i in let? cf1 := aset cf i tmp in Some (c, cf1);
       m_move := fun cf k j => aswap cf k j;
       m_end := fun tmp cf k => let? c := nth_error cf k in let? cf1 := aset cf k tmp in Some (c, cf1) |}.
  (** l.87-101: the while loop and the three assignments after it. *)
  Fixpoint cycle (mv : mover) (fuel i k : nat) (tmp : C) (tmphm : H) (cf : list C) (hm : list H) (phm : list nat) : option (C * list C * list H * list nat) :=
    match fuel with
    | O => None
    | S f =>
      let? j := nth_error phm k in
      if (i =? j)%nat then
        let? e := m_end mv tmp cf k in let? hm1 := aset hm k tmphm in let? phm1 := aset phm k k in
        Some (fst e, snd e, hm1, phm1)
      else
        let? cf1 := m_move mv cf k j in let? h := nth_error hm j in let? hm1 := aset hm k h in let? phm1 := aset phm k k in
        cycle mv f i j tmp tmphm cf1 hm1 phm1
    end.
  Fixpoint cycles (mv : mover) (is : list nat) (tmp : C) (cf : list C) (hm : list H) (phm : list nat) : option (list C * list H) :=
    match is with
    | [] => Some (cf, hm)
    | i :: is' =>
      let? p := nth_error phm i in
      if (i =? p)%nat then cycles mv is' tmp cf hm phm
      else let? b := m_begin mv tmp cf i in let? h := nth_error hm i in
           let? r := cycle mv (length hm) i i (fst b) h (snd b) hm phm in
           let '(tmp1, cf1, hm1, phm1) := r in cycles mv is' tmp1 cf1 hm1 phm1
    end.
  Definition sort_terms (mv : mover) (tmp : C) (cf : list C) (hm : list H) (phm : list nat) : option (list C * list H) :=
    cycles mv (seq 0 (length hm)) tmp cf hm phm.
End Sort.

(** ** io.c l.251-451, import_input_data, without the degrees. [M] stands for the hashed monomials, [sorter] gives the
    result of sort_r on the monomials of a generator. Result: rows of coefficients and monomials. *)
Section Import.
  Context {M : Type}.
  Variable sorter : list M -> list nat.
  Definition import_row_ff (bits fc : Z) (cf : list Z) (hm : list M) : option (list Z * list M) :=
    let? c := omap (import_cf bits fc) cf in sort_terms copying 0 c hm (sorter hm).
  Definition import_row_qq (cf : list (Z * Z)) (hm : list M) : option (list Z * list M) :=
    let? c := import_qq cf in sort_terms swapping 0 c hm (sorter hm).
  (** generators i, i+1, ..., [cnt] of them, at offset [off] *)
  Fixpoint import_rows (cnt i off : nat) (fc : Z) (lens : list nat) (mons : list M) (cf : coeffs) (invalid : list bool) : option (list (list Z * list M)) :=
    match cnt with
    | O => Some []
    | S cnt' =>
      let? n := nth_error lens i in
      let? iv := nth_error invalid i in
      if iv then import_rows cnt' (S i) (off + n) fc lens mons cf invalid
      else
        let? hm := slice mons off n in
        let? row := (match cf with
                     | CF c => let? r := slice c off n in import_row_ff (ff_bits fc) fc r hm
                     | CQ c => let? r := slice c off n in import_row_qq r hm
                     end) in
        let? rest := import_rows cnt' (S i) (off + n) fc lens mons cf invalid in
        Some (row :: rest)
    end.
  Definition init_off (lens : list nat) (start : nat) : nat := fold_right Nat.add O (firstn start lens).
  Definition import_input_data (start stop : nat) (fc : Z) (lens : list nat) (mons : list M) (cf : coeffs) (invalid : list bool) : option (list (list Z * list M)) :=
    import_rows (stop - start) start (init_off lens start) fc lens mons cf invalid.
  (** engine.c l.54-84: result 1 with the rows and the load of the basis, or another result. When validation fails early
      the flags are a null pointer, which is read. *)
  Definition initialize (fc : Z) (lens : list nat) (mons : list M) (cf : coeffs) (nv nnf : Z) : option (Z * list (list Z * list M) * Z) :=
    let? v := validate fc cf lens nv (Z.of_nat (length lens)) nnf in
    let '(res, fl, ngens) := v in
    if ngens <=? nnf then Some (0, [], 0)
    else if res =? -1 then Some (-1, [], 0)
    else match fl with
         | None => None
         | Some iv =>
           if (ngens <=? 0) || (nnf <? 0) || (nv <=? 0) then Some (0, [], 0)
           else let '(ninput, nexp) := meta iv ngens nnf in
                let? rows := import_input_data 0 (Z.to_nat ninput) fc lens mons cf iv in
                Some (1, rows, nexp)
         end.
End Import.

(** ** basis.c l.418-456, copy_basis_mod_p: rows with their index into the table of coefficients. mpz_fdiv_ui by 0 is
    undefined. *)
Definition fdiv_ui (c p : Z) : option Z := if p =? 0 then None else Some (c mod p).
Definition copy_cf (bits p c : Z) : option Z :=
  if (bits =? 8) || (bits =? 16) || (bits =? 32) then let? r := fdiv_ui c p in Some (r mod 2 ^ bits) else None.
Fixpoint copy_rows (bits p : Z) (rows : list (nat * nat)) (cf : list (list Z)) (new : list (list Z)) : option (list (list Z)) :=
  match rows with
  | [] => Some new
  | (idx, len) :: rows' =>
    let? r := nth_error cf idx in let? r1 := slice r 0 len in let? r2 := omap (copy_cf bits p) r1 in
    let? new1 := aset new idx r2 in copy_rows bits p rows' cf new1
  end.
(** msolve.c l.809-814, reduce_generators: numerators only; the prime is an int32_t. *)
Definition reduce_generators (nums : list Z) (p : Z) : option (list Z) := omap (fun c => let? r := fdiv_ui c p in Some (int32 r)) nums.

(** ** basis.c l.461-520, remove_content_of_initial_basis, one row. The loop of the gcd stops as soon as the content is 1;
    the row is then left alone ([None] inside). *)
Fixpoint gcd_loop (l : list Z) (content : Z) : option Z :=
  match l with [] => Some content | c :: l' => let g := Z.gcd content c in if g =? 1 then None else gcd_loop l' g end.
(** mpz_divexact(row[j], row[j], content), mpz_neg(row[j], row[j]) *)
Definition upd (f : Z -> Z) (row : list Z) (j : nat) : option (list Z) := let? x := nth_error row j in aset row j (f x).
Fixpoint pre_loop (f : Z -> Z) (cnt j : nat) (row : list Z) : option (list Z) :=
  match cnt with O => Some row | S cnt' => let? r := upd f row j in pre_loop f cnt' (S j) r end.
Fixpoint unrolled (f : Z -> Z) (fuel j len : nat) (row : list Z) : option (list Z) :=
  if (j <? len)%nat then
    match fuel with
    | O => None
    | S fu => let? r := upd f row j in let? r1 := upd f r (j + 1) in let? r2 := upd f r1 (j + 2) in let? r3 := upd f r2 (j + 3) in unrolled f fu (j + 4) len r3
    end
  else Some row.
Definition all_row (f : Z -> Z) (row : list Z) : option (list Z) :=
  let os := (length row mod 4)%nat in let? r := pre_loop f os 0 row in unrolled f (length row) os (length row) r.
Definition remove_content_row (row : list Z) : option (list Z) :=
  let? c0 := nth_error row 0 in
  if c0 =? 0 then Some row
  else match gcd_loop (tl row) c0 with None => Some row | Some c => all_row (fun x => x / c) row end.
Definition positive_row (row : list Z) : option (list Z) :=
  let? c0 := nth_error row 0 in if c0 <? 0 then all_row Z.opp row else Some row.
Definition remove_content (rows : list (list Z)) : option (list (list Z)) := let? r := omap remove_content_row rows in omap positive_row r.
