(** Model of the staircase enumeration and of the zero-dimensionality test.
    Source: /repo/src/msolve/hilbert.c lines 61-73, 93-128, 151-304, 314-387, 395-486, 1310-1397.
    Simplifications, for the whole file: the flat arrays [basis], [new_basis], [bexp_lm] of [nvars]-tuples are
    lists of exponent lists; array indices and lengths are [nat] (so the C types long/len_t/int32_t of the
    lengths are not distinguished; the one 32-bit accumulation, [sum], is checked explicitly); exponents are
    non-negative.  Reading outside an array, writing outside [new_basis] and leaving the range of int32_t are
    [None]. *)
From Coq Require Import ZArith NArith Arith List Bool Lia.
From Verif Require Import ModInvModel MonoSpec.
Import ListNotations.
Open Scope N_scope.

Definition i32_max : N := 2147483647.

(** hilbert.c l.61-73.  The loop reads [bexp[0..nv-1]]. *)
Definition is_pure_power (nv : nat) (m : mono) : bool :=
  let cnt := length (filter (fun i => ex m i =? 0) (seq 0 nv)) in
  (nv - 1 <=? cnt)%nat.

(** hilbert.c l.93-109, with the early exit of l.101-103. *)
Fixpoint dimz_loop (nv : nat) (ppwr : nat) (lms : list mono) : bool :=
  match lms with
  | [] => (nv <=? ppwr)%nat
  | m :: r =>
      let ppwr' := if is_pure_power nv m then S ppwr else ppwr in
      if (nv <=? ppwr')%nat then true else dimz_loop nv ppwr' r
  end.
Definition has_dimension_zero (nv : nat) (lms : list mono) : bool := dimz_loop nv 0 lms.

(** hilbert.c l.111-118: 1 when exp2 divides exp1; first [nvars] entries only. *)
Fixpoint is_divisible_exp (nvars : nat) (e1 e2 : mono) : option bool :=
  match nvars with
  | O => Some true
  | S n =>
      match e1, e2 with
      | x :: e1', y :: e2' => if x <? y then Some false else is_divisible_exp n e1' e2'
      | _, _ => None
      end
  end.

(** hilbert.c l.120-128. *)
Fixpoint is_divisible_lexp (nvars : nat) (e1 : mono) (lms : list mono) : option bool :=
  match lms with
  | [] => Some false
  | m :: r =>
      let? b := is_divisible_exp nvars e1 m in
      if b then Some true else is_divisible_lexp nvars e1 r
  end.

(** hilbert.c l.151-161 is the same with [nvars - 1] entries compared. *)
Definition is_divisible_lexp_without_last_variable (nvars : nat) := is_divisible_lexp (nvars - 1).

(** hilbert.c l.165-171: the accumulator is int32_t. *)
Fixpoint sum_ind (s : nat) (ind : list nat) : option nat :=
  match ind with
  | [] => Some s
  | x :: r => let s' := (s + x)%nat in if N.of_nat s' <=? i32_max then sum_ind s' r else None
  end.
Definition sum (ind : list nat) : option nat := sum_ind 0 ind.

(** l.192: [new_basis[c*nvars+n]++] on an int32_t. *)
Fixpoint incr (n : nat) (m : mono) : option mono :=
  match m with
  | [] => None
  | x :: r =>
      match n with
      | O => if x <? i32_max then Some (x + 1 :: r) else None
      | S n' => let? r' := incr n' r in Some (x :: r')
      end
  end.

(** hilbert.c l.188-199, the loop on i: [k] iterations left, [acc] is new_basis[0..c-1], of capacity [cap]
    (in monomials).  The copy to position c precedes the test, so it needs c < cap. *)
Fixpoint gen_i (nvars n cap : nat) (lms basis : list mono) (i k : nat) (acc : list mono) : option (list mono) :=
  match k with
  | O => Some acc
  | S k' =>
      let? b := nth_error basis i in
      if (length acc <? cap)%nat then
        let? m := incr n b in
        let? d := is_divisible_lexp nvars m lms in
        gen_i nvars n cap lms basis (S i) k' (if d then acc else acc ++ [m])
      else None
  end.

(** hilbert.c l.187-200, the loop on n from [nvars-1] down to 0; called with [n = nvars]. *)
Fixpoint gen_n (nvars cap : nat) (ind : list nat) (len1 : nat) (lms basis : list mono) (n : nat) (acc : list mono)
  : option (list mono) :=
  match n with
  | O => Some acc
  | S n' =>
      let? i0 := nth_error ind (nvars - 1 - n') in
      let? acc' := gen_i nvars n' cap lms basis i0 (len1 - i0) acc in
      gen_n nvars cap ind len1 lms basis n' acc'
  end.

(** hilbert.c l.179-203. *)
Definition generate_new_elts_basis (nvars cap : nat) (ind : list nat) (len1 : nat) (lms basis : list mono) :=
  gen_n nvars cap ind len1 lms basis nvars [].

Fixpoint set_nth (i : nat) (v : nat) (l : list nat) : option (list nat) :=
  match l with
  | [] => None
  | x :: r =>
      match i with
      | O => Some (v :: r)
      | S i' => let? r' := set_nth i' v r in Some (x :: r')
      end
  end.

(** hilbert.c l.221-223: for k = n downto 0, ind[nvars-k-1] = tot. *)
Fixpoint fill_end (nvars tot : nat) (n : nat) (ind : list nat) : option (list nat) :=
  let? ind' := set_nth (nvars - n - 1) tot ind in
  match n with
  | O => Some ind'
  | S n' => fill_end nvars tot n' ind'
  end.

(** hilbert.c l.216-224, the loop on i, [k] iterations left. *)
Fixpoint upd_i (nvars tot : nat) (basis : list mono) (n : nat) (i k : nat) (ind : list nat) : option (list nat) :=
  match k with
  | O => Some ind
  | S k' =>
      let? b := nth_error basis i in
      let? e := nth_error b (n + 1) in
      if e =? 0 then set_nth (nvars - n - 1) i ind
      else
        let? ind' := fill_end nvars tot n ind in
        upd_i nvars tot basis n (S i) k' ind'
  end.

(** hilbert.c l.215-225, the loop on n from [nvars-2] down to 0; called with [n = nvars-1]. *)
Fixpoint upd_n (nvars tot : nat) (basis : list mono) (n : nat) (ind : list nat) : option (list nat) :=
  match n with
  | O => Some ind
  | S n' =>
      let? i0 := nth_error ind (nvars - 1 - n' - 1) in
      let? ind' := upd_i nvars tot basis n' i0 (tot - i0) ind in
      upd_n nvars tot basis n' ind'
  end.

(** hilbert.c l.211-226; [basis] already holds the [new_length] new elements. *)
Definition update_indices (nvars : nat) (ind : list nat) (basis : list mono) (dquot new_length : nat) :=
  let? ind0 := set_nth 0 dquot ind in
  upd_n nvars (dquot + new_length) basis (nvars - 1) ind0.

(** The result of a run: the fuel may run out, an access may be invalid. *)
Inductive res (A : Type) := Ok (a : A) | Bad | NoFuel.
Arguments Ok {A}. Arguments Bad {A}. Arguments NoFuel {A}.

(** hilbert.c l.262-300 (maxdeg = None); l.344-382, l.424-462, l.1347-1393 (maxdeg = Some _).
    [deg] counts the degree of the elements waiting in [new_basis] (l.343, l.423, l.1341: deg = 1 at the first test). *)
Fixpoint mb_loop (fuel nvars : nat) (lms : list mono) (maxdeg : option nat) (deg : nat)
  (basis new : list mono) (ind : list nat) : res (list mono) :=
  match fuel with
  | O => NoFuel
  | S f =>
      if ((0 <? length new)%nat && match maxdeg with Some d => (deg <=? d)%nat | None => true end)%bool then
        let basis' := basis ++ new in
        match update_indices nvars ind basis' (length basis) (length new) with
        | None => Bad
        | Some ind' =>
            match sum ind' with
            | None => Bad
            | Some s =>
                match generate_new_elts_basis nvars (s + nvars) ind' (length basis') lms basis' with
                | None => Bad
                | Some new' => mb_loop f nvars lms maxdeg (S deg) basis' new' ind'
                end
            end
        end
      else Ok basis
  end.

(** hilbert.c l.235-305 and its three variants: [Ok None] is the NULL result, dquot = 0. *)
Definition monomial_basis_upto (fuel nvars : nat) (lms : list mono) (maxdeg : option nat) : res (option (list mono)) :=
  let one := repeat 0 nvars in
  match is_divisible_lexp nvars one lms with
  | None => Bad
  | Some true => Ok None
  | Some false =>
      let ind := repeat 0%nat nvars in
      match sum ind with
      | None => Bad
      | Some s =>
          match generate_new_elts_basis nvars (s + nvars) ind 1 lms [one] with
          | None => Bad
          | Some new =>
              match mb_loop fuel nvars lms maxdeg 1 [one] new ind with
              | Ok b => Ok (Some b)
              | Bad => Bad
              | NoFuel => NoFuel
              end
          end
      end
  end.

(** hilbert.c l.235-305 *)
Definition monomial_basis (fuel nvars : nat) (lms : list mono) := monomial_basis_upto fuel nvars lms None.

(** hilbert.c l.314-387; [maxdeg] is a non-negative long here. *)
Definition monomial_basis_colon (fuel nvars : nat) (lms : list mono) (maxdeg : nat) :=
  monomial_basis_upto fuel nvars lms (Some maxdeg).

(** hilbert.c l.468-478, the in-place compaction as a list; [None] on an invalid read. *)
Fixpoint colon_cleanup (nvars : nat) (lms b : list mono) : option (list mono) :=
  match b with
  | [] => Some []
  | m :: r =>
      let? d := is_divisible_lexp_without_last_variable nvars m lms in
      let? r' := colon_cleanup nvars lms r in
      Some (if d then m :: r' else r')
  end.

(** hilbert.c l.395-486; an empty result makes the program exit (l.479-482): [Ok (Some [])]. *)
Definition monomial_basis_colon_no_zero (fuel nvars : nat) (lms : list mono) (maxdeg : nat)
  : res (option (list mono)) :=
  match monomial_basis_upto fuel nvars lms (Some maxdeg) with
  | Ok (Some b) => match colon_cleanup nvars lms b with Some b' => Ok (Some b') | None => Bad end
  | r => r
  end.

(** hilbert.c l.1310-1398: the bound is the degree of the last leading monomial (l.1313). *)
Definition monomial_basis_enlarged (fuel nvars : nat) (lms : list mono) : res (option (list mono)) :=
  match nth_error lms (length lms - 1) with
  | None => Bad
  | Some m =>
      if mdeg (firstn nvars m) <=? i32_max
      then monomial_basis_upto fuel nvars lms (Some (N.to_nat (mdeg (firstn nvars m)))) else Bad
  end.
