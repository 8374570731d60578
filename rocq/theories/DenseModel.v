(** Dense storage of the images of a Groebner basis modulo primes, and the export of the lifted basis.
    Source: /repo/src/msolve/lifting-gb.c gb_modpoly_init l.164-198, gb_modpoly_realloc l.200-243, grevlex_is_less_than, compute_length,
    array_of_lengths l.441-491, modpgbs_set l.493-554, compute_num_gb l.587-600, gb_modular_trace_learning l.649-704,
    gb_modular_trace_application l.751-793, core_groebner_qq l.1217-1243, l.1350-1363, export_results_from_groebner_qq l.1503-1576;
    /repo/src/msolve/hilbert.c is_equal_exponent_elim l.554-562, get_lm_from_bs l.3887-3911, get_lm_from_bs_trace(_elim) l.3914-3962,
    equal_staircase l.3964-3978.
    Simplifications: the bases that F4 computes are the input (C23, C42, C50), in the order of bs->lmps, None where bs->hm is NULL (then the
    program exits); exponent vectors are lists, arrays of nv*len integers are lists of exponent vectors; a memory cell that was never written is
    None; truncate_lifting and print_gb = 1 are not modelled; malloc succeeds. None as a result: exit, or access out of bounds. *)
From Coq Require Import NArith ZArith Arith List Bool.
From Verif Require Import MonoSpec ModInvModel MonoModel FglmModel PrintModel HilbModel.
Import ListNotations.
Open Scope nat_scope.

Definition cells := list (option N).
(** one polynomial: for each monomial of the list, the array of residues *)
Record gbs := { s_alloc : nat; s_np : nat; s_primes : list Z; s_pols : list (list cells) }.

(** hilbert.c l.3898-3909: the exponents, without the degrees *)
Definition exps_of (nv nev : nat) (ev : list N) : option mono := omap (fun i => nth_error ev i) (evi nv nev).
Definition lm_of (nv nev : nat) (g : option pol) : option mono :=
  match g with Some ((_, ev) :: _) => exps_of nv nev ev | _ => None end.

(** l.587-600 *)
Fixpoint compute_num_gb (lms : list mono) (nev : nat) : nat :=
  match lms with [] => 0 | m :: r => if existsb (fun e => negb (e =? 0)%N) (firstn nev m) then 0 else S (compute_num_gb r nev) end.

(** l.441-461; sums over 2^31 - 1 overflow *)
Definition fits (m : mono) : bool := (mdeg m <=? i32_max)%N.
Definition grevlex_is_less_than (m1 m2 : mono) : option bool :=
  if fits m1 && fits m2 then
    if (mdeg m1 <? mdeg m2)%N then Some true
    else if (mdeg m2 <? mdeg m1)%N then Some false
    else Some (forallb (fun ab => negb (fst ab <? snd ab)%N) (combine m1 m2))
  else None.
(** l.463-472; [rb]: the monomials from the last one on *)
Fixpoint compute_length (mon : mono) (rb : list mono) : option nat :=
  match rb with
  | [] => Some 0
  | b :: r => let? l := grevlex_is_less_than mon b in if l then compute_length mon r else Some (length rb)
  end.
Definition array_of_lengths (lms basis : list mono) : option (list nat) := omap (fun m => compute_length m (rev basis)) lms.

(** l.164-198: everything is 0 (calloc) *)
Definition gb_modpoly_init (alloc : nat) (lens : list nat) : gbs :=
  {| s_alloc := alloc; s_np := 0; s_primes := repeat 0%Z alloc; s_pols := map (fun l => repeat (repeat (Some 0%N) alloc) l) lens |}.
(** realloc of an array to n cells *)
Definition resize {A} (junk : A) (n : nat) (l : list A) : list A := firstn n l ++ repeat junk (n - length l).
(** l.237-240: cells number a .. b - 1 are set to 0; the array has b cells *)
Definition zero_from (a : nat) (l : cells) : cells := firstn a l ++ repeat (Some 0%N) (length l - a).
(** l.200-243 *)
Definition gb_modpoly_realloc (newalloc start : nat) (s : gbs) : gbs :=
  let na := s_alloc s + newalloc in
  {| s_alloc := na; s_np := s_np s; s_primes := s_primes s ++ repeat 0%Z newalloc;
     s_pols := firstn start (s_pols s) ++ map (map (fun c : cells => zero_from (s_alloc s) (resize None na c))) (skipn start (s_pols s)) |}.

(** hilbert.c l.554-562: exp1 has nv entries, exp2 nv - elim *)
Fixpoint equal_from (e1 e2 : list N) (i elim cnt : nat) : option bool :=
  match cnt with
  | O => Some true
  | S c => let? a := nth_error e1 (i + elim) in let? b := nth_error e2 i in
           if (a =? b)%N then equal_from e1 e2 (S i) elim c else Some false
  end.
Definition is_equal_exponent_elim (e1 e2 : mono) (nv elim : nat) : option bool :=
  let? r := equal_from e1 e2 0 elim (nv - elim - 1) in
  if r then
    if (nv <=? elim) then None else
    let? a := nth_error e1 (nv - 1) in let? b := nth_error e2 (nv - elim - 1) in Some (a =? b)%N
  else Some false.
(** l.546-548: [n] = bc + 1; bc < 0: read before the array *)
Fixpoint seek (m : mono) (basis : list mono) (nv elim n : nat) : option nat :=
  match n with
  | O => None
  | S bc => let? b := nth_error basis bc in let? e := is_equal_exponent_elim m b nv elim in
            if e then Some bc else seek m basis nv elim bc
  end.
Fixpoint put {A} (l : list A) (i : nat) (x : A) : option (list A) :=
  match l, i with
  | [], _ => None
  | _ :: l', O => Some (x :: l')
  | a :: l', S i' => let? r := put l' i' x in Some (a :: r)
  end.
(** l.541-551: the terms behind the leading one; [n] = bc + 1 *)
Fixpoint set_terms (nv nev : nat) (basis : list mono) (np : nat) (ts : pol) (n : nat) (f : list cells) : option (list cells) :=
  match ts with
  | [] => Some f
  | (c, ev) :: r =>
      let? m := exps_of nv nev ev in
      let? bc := seek m basis nv nev n in
      let? a := nth_error f bc in
      let? a' := put a np (Some c) in
      let? f' := put f bc a' in
      set_terms nv nev basis np r bc f'
  end.
Fixpoint set_pols (nv nev : nat) (basis : list mono) (np : nat) (rows : list (option pol)) (pols : list (list cells)) {struct pols} : option (list (list cells)) :=
  match pols with
  | [] => Some []
  | f :: pols' =>
      match rows with
      | Some (_ :: ts) :: rows' =>
          let? f' := set_terms nv nev basis np ts (length f) f in
          let? r := set_pols nv nev basis np rows' pols' in Some (f' :: r)
      | _ => None
      end
  end.
(** l.493-554 with start = 0 (dl->S, l.104) *)
Definition modpgbs_set (nv nev : nat) (basis : list mono) (fc : Z) (rows : list (option pol)) (s : gbs) : option gbs :=
  if s_alloc s - 1 <=? s_np s then None else
  let? ps := put (s_primes s) (s_np s) fc in
  let? f := set_pols nv nev basis (s_np s) rows (s_pols s) in
  Some {| s_alloc := s_alloc s; s_np := S (s_np s); s_primes := ps; s_pols := f |}.

(** l.649-689: leading monomials, monomials that can occur, lengths, the first image. Result: leading monomials, monomials, storage *)
Definition learn (fuel nv nev : nat) (fc : Z) (rows : list (option pol)) : option (list mono * list mono * gbs) :=
  let? lms := omap (lm_of nv nev) rows in
  let leads := map (skipn nev) (firstn (compute_num_gb lms nev) lms) in
  match monomial_basis_enlarged fuel (nv - nev) leads with
  | HilbModel.Ok r =>
      let mb := match r with Some b => b | None => [] end in
      let? lens := array_of_lengths leads mb in
      let? s := modpgbs_set nv nev mb fc rows (gb_modpoly_init 2 lens) in Some (leads, mb, s)
  | _ => None
  end.
(** l.757-768: with an elimination, the elements without the first variables; the first entry is the degree in these *)
Definition in_elim (nev : nat) (g : option pol) : option bool :=
  if nev =? 0 then Some true else
  match g with Some ((_, ev) :: _) => let? d := nth_error ev 0 in Some (d =? 0)%N | _ => None end.
Fixpoint compact (nev : nat) (rows : list (option pol)) : option (list (option pol)) :=
  match rows with [] => Some [] | g :: r => let? b := in_elim nev g in let? r' := compact nev r in Some (if b then g :: r' else r') end.
(** l.769-793; None for the basis: F4 gave none (bs == NULL; the address computed from it before the test is taken as harmless).
    Result: storage, and whether the prime was reported as bad *)
Definition apply (nv nev : nat) (leads mb : list mono) (fc : Z) (rows : option (list (option pol))) (s : gbs) : option (gbs * bool) :=
  match rows with
  | None => Some (s, true)
  | Some rows =>
      let? rows := compact nev rows in
      if negb (length rows =? length leads) then Some (s, false) else
      let? lms := omap (lm_of nv nev) rows in
      if forallb (fun ab => if list_eq_dec N.eq_dec (fst ab) (snd ab) then true else false) (combine (map (skipn nev) lms) leads)
      then let? s' := modpgbs_set nv nev mb fc rows s in Some (s', false)
      else Some (s, true)
  end.
(** l.1350-1366: [k] counts the primes tried *)
Fixpoint rounds (nv nev nthrds : nat) (leads mb : list mono) (k : nat) (l : list (Z * option (list (option pol)))) (s : gbs) : option gbs :=
  match l with
  | [] => Some s
  | (p, rows) :: r =>
      let s1 := if s_alloc s <=? k + 2 then gb_modpoly_realloc (16 * nthrds) 0 s else s in
      let? s2 := apply nv nev leads mb p rows s1 in
      rounds nv nev nthrds leads mb (S k) r (fst s2)
  end.
(** l.1217-1366; [junk]: the value of dlift->S before dlift is initialised (l.1243) *)
Definition images (fuel nv nev nthrds junk : nat) (p0 : Z) (rows0 : list (option pol)) (l : list (Z * option (list (option pol)))) : option (list mono * list mono * gbs) :=
  let? x := learn fuel nv nev p0 rows0 in
  let '(leads, mb, s) := x in
  let? s' := rounds nv nev nthrds leads mb 0 l (gb_modpoly_realloc 1 junk s) in Some (leads, mb, s').
(** cf_32[j][k] for all j *)
Definition column (k : nat) (f : list cells) : option (list N) := omap (fun c => match nth_error c k with Some (Some x) => Some x | _ => None end) f.

(** * Export over the rationals: l.1526-1573. Arrays of lengths, exponents (nv + elim_block_len integers each) and numerators *)
Definition export_poly (ebl : nat) (mb : list (list Z)) (g : list Z * qpol) : option (list (list Z * Z)) :=
  let pad := repeat 0%Z ebl in
  let? ts := (fix go (i : nat) : option (list (list Z * Z)) :=
     match i with
     | O => Some []
     | S i' => let? c := nth_error (q_cf (snd g)) i' in
               if (fst c =? 0)%Z then go i'
               else let? m := nth_error mb i' in let? r := go i' in Some ((pad ++ m, fst c) :: r)
     end) (length (q_cf (snd g))) in
  Some ((pad ++ fst g, q_lm (snd g)) :: ts).
Definition export_qq (ebl : nat) (mb : list (list Z)) (gs : list (list Z * qpol)) : option (list nat * list (list Z) * list Z) :=
  let lens := map (fun g => S (length (filter (fun c => negb (fst c =? 0)%Z) (q_cf (snd g))))) gs in
  let? ts := omap (export_poly ebl mb) gs in
  Some (lens, map fst (concat ts), map snd (concat ts)).
