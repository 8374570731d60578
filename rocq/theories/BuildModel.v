(** From a Groebner basis modulo p to the input of the change of order: the table of linear forms and the matrix of the
    multiplication by the last variable.
    Sources: /repo/src/msolve/linear.c l.205-403, /repo/src/msolve/hilbert.c l.489-499, 643-672, 1042-1304, 3471-3884,
    msolve.c l.1511-1541, 1543-1665.
    Simplifications, for the whole file: the flat arrays [lmb] and [bexp_lm] of [nv]-tuples are lists of exponent lists; a basis
    element is the list of its terms (coefficient, exponents), the exponents being those stored in the hash table without the
    degree (no elimination block); coefficients are those of the 32-bit representation (the 8- and 16-bit versions only differ in
    the type they are read from). Reads and writes outside an array, failed allocations and calls of exit are [None]. *)
From Coq Require Import ZArith NArith Arith List Bool.
From Verif Require Import ModInvModel MonoSpec GbSpec FglmModel.
Import ListNotations.
Open Scope Z_scope.

Definition bpoly := list (Z * mono).

(** * The table of linear forms *)
Fixpoint upd_nat (l : list nat) (i x : nat) : option (list nat) :=
  match l, i with
  | [], _ => None
  | _ :: l', O => Some (x :: l')
  | y :: l', S i' => let? r := upd_nat l' i' x in Some (y :: r)
  end.
Fixpoint ofold {A B} (f : A -> B -> option B) (l : list A) (b : B) : option B :=
  match l with [] => Some b | a :: l' => let? b' := f a b in ofold f l' b' end.
(** linear.c l.352-367: the number of leading monomials of degree one; [linvars] gets, for the variable, the index of the element
    plus one *)
Definition lin_scan (nv : nat) (lms : list mono) (linvars : list nat) : option (nat * list nat) :=
  ofold (fun i st =>
    let? lm := nth_error lms i in
    let? es := omap (fun j => nth_error lm j) (seq 0 nv) in
    let deg := fold_left N.add es 0%N in
    if (deg =? 1)%N then
      let? lv := ofold (fun k lv => let? e := nth_error lm k in if (e =? 1)%N then upd_nat lv k (S i) else Some lv) (seq 0 nv) (snd st) in
      Some (S (fst st), lv)
    else Some st) (seq 0 (length lms)) (O, linvars).
(** one entry of row [r], column [c] *)
Definition put (tab : list (list Z)) (r c : nat) (x : Z) : option (list (list Z)) :=
  let? row := nth_error tab r in
  let? row' := upd row c x in
  if (r <? length tab)%nat then Some (firstn r tab ++ row' :: skipn (S r) tab) else None.
(** l.380-384: an element with [nv + 1] terms is copied in the order of its terms; the counter of rows is left alone *)
Definition lin_copy (tab : list (list Z)) (cnt : nat) (g : bpoly) : option (list (list Z)) :=
  ofold (fun j tab => let? t := nth_error g j in put tab cnt j (fst t)) (seq 0 (length g)) tab.
(** l.386-400: otherwise each term goes to the column of the variables with exponent one, or to the last column *)
Definition lin_term (nv : nat) (cnt : nat) (t : Z * mono) (tab : list (list Z)) : option (list (list Z)) :=
  let? st := ofold (fun k st => let? e := nth_error (snd t) k in
                       if (e =? 1)%N then let? tab' := put (fst st) cnt k (fst t) in Some (tab', true) else Some st)
                   (seq 0 nv) (tab, false) in
  if snd st then Some (fst st) else put (fst st) cnt nv (fst t).
Definition lin_rows (nv : nat) (G : list bpoly) (lv : list nat) (tab : list (list Z)) : option (list (list Z)) :=
  let? st := ofold (fun i st =>
    let? l := nth_error lv i in
    if (l =? 0)%nat then Some st else
    let? g := nth_error G (l - 1) in
    if (length g =? nv + 1)%nat then let? tab' := lin_copy (fst st) (snd st) g in Some (tab', snd st)
    else let? tab' := ofold (lin_term nv (snd st)) g (fst st) in Some (tab', S (snd st))) (seq 0 nv) (tab, O) in
  Some (fst st).
(** check_and_set_linear_poly_32, linear.c l.340-403, with the caller's zero [linvars] (msolve.c l.2050): the number of linear
    forms, the variables leading in one, the table with one row of [nv + 1] entries per linear form. *)
Definition check_and_set_linear_poly (nv : nat) (lms : list mono) (G : list bpoly) : option (nat * list nat * list (list Z)) :=
  let? sc := lin_scan nv lms (repeat O nv) in
  let? tab := lin_rows nv G (snd sc) (repeat (repeat 0 (S nv)) (fst sc)) in
  Some (fst sc, snd sc, tab).

(** * The multiplication matrix *)
(** hilbert.c l.643-650 and l.652-660: x_n times the first monomial equals the second; is divisible by the second *)
Definition eq_xxn (nv : nat) (a b : mono) : bool :=
  forallb (fun i => (ex a i =? ex b i)%N) (seq 0 (nv - 1)) && (ex a (nv - 1) + 1 =? ex b (nv - 1))%N.
Definition div_xxn (nv : nat) (a b : mono) : bool :=
  forallb (fun i => (ex b i <=? ex a i)%N) (seq 0 (nv - 1)) && (ex b (nv - 1) <=? ex a (nv - 1) + 1)%N.
(** l.662-672: the first position from [i + 1] on *)
Fixpoint find_xxn (nv : nat) (a : mono) (l : list mono) (pos : nat) : option nat :=
  match l with [] => None | b :: r => if eq_xxn nv a b then Some pos else find_xxn nv a r (S pos) end.
Definition member_xxn (nv : nat) (lmb : list mono) (i : nat) : option nat :=
  match skipn i lmb with [] => None | a :: r => find_xxn nv a r (S i) end.
(** l.489-499; the array has one entry per leading monomial and starts with zeroes *)
Definition div_list (nv : nat) (lms : list mono) : list nat :=
  filter (fun i => negb (ex (nth i lms []) (nv - 1) =? 0)%N) (seq 0 (length lms)).
Definition div_xn (nv : nat) (lms : list mono) : list nat :=
  div_list nv lms ++ repeat O (length lms - length (div_list nv lms)).
(** l.3503-3514: the number of terms before an element, stored in an int32_t; the length of the element *)
Definition start_of (G : list bpoly) (i : nat) : nat := length (concat (firstn i G)).
(** l.3537-3575: state (count_lm, extra_nf) *)
Definition classify (nv : nat) (lmb lms : list mono) : option (nat * list nat) :=
  let dl := div_list nv lms in
  let cap := (length lmb - length dl)%nat in
  ofold (fun i st =>
    match member_xxn nv lmb i with
    | Some _ => Some st
    | None =>
        let? a := nth_error lmb i in
        let? d := nth_error (div_xn nv lms) (fst st) in
        let? l := nth_error lms d in
        if eq_xxn nv a l then Some (S (fst st), snd st)
        else if existsb (fun j => div_xxn nv a (nth j lms [])) dl then
          if (length (snd st) <? cap)%nat then Some (fst st, snd st ++ [i]) else None
        else Some st
    end) (seq 0 (length lmb)) (O, []).
(** l.3586-3601 *)
Definition threshold (unstable : Z) (t : nat) : nat :=
  if unstable =? 0 then O
  else if unstable =? 1 then ((t + 1) / 4)%nat
  else if unstable =? 2 then (t / 2)%nat
  else if unstable =? 3 then ((3 * t + 1) / 4)%nat
  else t.
(** copy_poly_in_matrix_from_bs_32, l.1164-1217: the row, for an element with all the terms (int32_t positions [start + 1 .. start + len - 1]);
    otherwise the terms are met in increasing order, the branch with [1==0] is dead *)
Fixpoint copy_merge (p : Z) (g : bpoly) (lmb : list mono) (k : nat) : option (list Z) :=
  match lmb with
  | [] => Some []
  | b :: r =>
      if (k <? length g)%nat then
        let? t := nth_error g (length g - k - 1) in
        if mono_dec (snd t) b then let? row := copy_merge p g r (S k) in Some (p - fst t :: row)
        else let? row := copy_merge p g r k in Some (0 :: row)
      else None
  end.
Definition copy_poly (p : Z) (G : list bpoly) (idx : nat) (lmb : list mono) : option (list Z) :=
  let? g := nth_error G idx in
  if (length g =? length lmb + 1)%nat then
    if Z.of_nat (start_of G idx + length g) <=? 2147483647 then
      omap (fun k => let? t := nth_error g (length g - k - 1) in Some (p - fst t)) (seq 0 (length g - 1))
    else None
  else copy_merge p g lmb 0.
(** copy_nf_in_matrix_from_bs_32, l.1271-1304: the terms of a normal form in increasing order; the zero polynomial leaves the row zero *)
Fixpoint copy_nf_loop (h : bpoly) (lmb : list mono) : option (list Z) :=
  match lmb with
  | [] => match h with [] => Some [] | _ => None end
  | b :: r =>
      match h with
      | [] => Some (repeat 0 (S (length r)))
      | t :: h' =>
          if mono_dec (snd t) b then let? row := copy_nf_loop h' r in Some (fst t :: row)
          else let? row := copy_nf_loop h r in Some (0 :: row)
      end
  end.
Definition copy_nf (h : bpoly) (lmb : list mono) : option (list Z) := copy_nf_loop (rev h) lmb.
(** l.3741-3866. State: trivial rows (index, position), indices and rows of the dense part, count, count_nf. *)
Record bst := { b_triv : list (nat * nat); b_dense : list (nat * list Z); b_cnt : nat; b_nf : nat }.
Definition fill_step (nv : nat) (p : Z) (lmb lms : list mono) (G : list bpoly) (extra : list nat) (nfs : list bpoly)
    (i : nat) (st : bst) : option bst :=
  let len_xn := length (div_list nv lms) in
  let len0 := (len_xn + length extra)%nat in
  match member_xxn nv lmb i with
  | Some pos =>
      if (length (b_triv st) <? length lmb - len0)%nat
      then Some {| b_triv := b_triv st ++ [(i, pos)]; b_dense := b_dense st; b_cnt := b_cnt st; b_nf := b_nf st |} else None
  | None =>
      if (length (b_dense st) <? len0)%nat then
        let? a := nth_error lmb i in
        let? d := nth_error (div_xn nv lms) (b_cnt st) in
        let? l := nth_error lms d in
        if eq_xxn nv a l then
          let? row := copy_poly p G d lmb in
          if (len_xn <? S (b_cnt st))%nat then None else
          Some {| b_triv := b_triv st; b_dense := b_dense st ++ [(i, row)]; b_cnt := S (b_cnt st); b_nf := b_nf st |}
        else
          let? e := nth_error (extra ++ repeat O (length lmb - len_xn - length extra)) (b_nf st) in
          if (i =? e)%nat then
            let? h := nth_error nfs (b_nf st) in
            let? row := copy_nf h lmb in
            if (length extra <? S (b_nf st))%nat then None else
            Some {| b_triv := b_triv st; b_dense := b_dense st ++ [(i, row)]; b_cnt := b_cnt st; b_nf := S (b_nf st) |}
          else None
      else None
  end.
(** l.3868-3877: the number of zeroes at the end of a row *)
Fixpoint lead0 (l : list Z) : nat := match l with x :: r => if x =? 0 then S (lead0 r) else O | [] => O end.
Definition dst_of (row : list Z) : nat := lead0 (rev row).
(** build_matrixn_unstable_from_bs_trace, l.3471-3884: [Some None] is the NULL returned when the staircase is too far from generic.
    No leading monomial divisible by x_n: the loop l.3503-3514 writes to arrays of size zero; more than [D]: failed allocation l.3534.
    [nf] computes the normal forms of a list of monomials (core_nf, l.3640-3669); the other returns of NULL, l.3775-3865, are [None]. *)
Definition build_matrixn (nv : nat) (p : Z) (unstable : Z) (nf : list mono -> option (list bpoly)) (lmb lms : list mono) (G : list bpoly)
    : option (option sp_mat) :=
  let len_xn := length (div_list nv lms) in
  let D := length lmb in
  if (D <? len_xn)%nat || ((len_xn =? 0)%nat && negb (length lms =? 0)%nat) then None else
  let? ce := classify nv lmb lms in
  let extra := snd ce in
  if (threshold unstable (D - len_xn) <? length extra)%nat then Some None else
  let? ms := omap (fun i => let? a := nth_error lmb i in Some (map (fun k => if (k =? nv - 1)%nat then (ex a k + 1)%N else ex a k) (seq 0 nv))) extra in
  let? nfs := (match ms with [] => Some [] | _ => nf ms end) in
  let len0 := (len_xn + length extra)%nat in
  if (D <? len0)%nat then None else
  let? st := ofold (fill_step nv p lmb lms G extra nfs) (seq 0 D) {| b_triv := []; b_dense := []; b_cnt := O; b_nf := O |} in
  let padt := repeat O (D - len0 - length (b_triv st)) in
  let padd := (len0 - length (b_dense st))%nat in
  let rows := map snd (b_dense st) ++ repeat (repeat 0 D) padd in
  Some (Some {| m_ncols := D; m_nrows := len0; m_dense := concat rows;
                m_triv_idx := map fst (b_triv st) ++ padt; m_triv_pos := map snd (b_triv st) ++ padt;
                m_dense_idx := map fst (b_dense st) ++ repeat O padd; m_dst := map dst_of rows |}).
