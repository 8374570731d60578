(** Normal forms with respect to a basis modulo p.
    Sources: /repo/src/neogb/nf.c core_nf l.55-105, symbol.c select_tbr l.449-488, find_multiplied_reducer l.491-554,
    symbolic_preprocessing l.556-630, convert.c convert_hashes_to_columns l.299-430, return_normal_forms_to_basis l.552-627,
    la_ff_32.c l.2588-2763 (la_ff_16.c l.1045, la_ff_8.c l.1318) with st->nf = 1 and in_final_reduction_step = 0.
    Simplifications: as in F4Model (polynomials are lists of coefficients and monomials, the hash table is the list of its monomials in
    the order of insertion); the loop over the rows is parallel, but no row depends on another and none is shared, so that it is
    written as a map; no trace is recorded (trace_level is APPLY_TRACER or NO_TRACER in the callers, f4.c l.659-661). *)
From Coq Require Import ZArith NArith Arith List Bool.
From Verif Require Import MonoSpec MonoModel LaModel GbSpec F4Model.
Import ListNotations.
Open Scope Z_scope.

(** la_ff_32.c l.2627-2684 for one row: scattered, reduced from column 0 on by the reducers, which are the first [ncl] pivots; NULL
    when it is zero, left as it is otherwise (no normalisation); convert.c l.572-621: columns back to monomials, the zero polynomial
    is a null pointer, here [[]] *)
Definition nf_row (k : kern) (p : Z) (pivs : nat -> option (list (nat * Z))) (ncl : nat) (hcm : list mono) (f : poly) : res poly :=
  let! dr := of_opt (scatter (length hcm) (to_row hcm f)) in
  let! s := of_opt (reduce_known k p pivs ncl (length hcm) 0 dr) in
  match snd s with None => Ok [] | Some r => of_row hcm r end.
(** core_nf, nf.c l.55-105. Every polynomial of [tbr] is a row (select_tbr, the multiplier is one); no monomial is marked as a
    leading one before the symbolic preprocessing; columns and rows as in a round of F4. *)
Definition core_nf (c : config) (fuel : nat) (els : list elt) (lmps : list nat) (tbr : list poly) : res (list poly) :=
  let! _ := when (forallb (fun f : poly => forallb (fun t => fits (snd t)) f) tbr) in
  let sht := sht_rows [] tbr in
  let! (sht', leads, rr) := symb fuel els lmps [] (length sht) 0 sht [] [] in
  let cols := columns (c_o c) sht' leads in
  let hcm := fst cols ++ snd cols in
  let! _ := when (cols_fit (c_k c) (c_p c) (length hcm)) in
  let rrs := rows_dec (map (to_row hcm) rr) in
  rmap (nf_row (c_k c) (c_p c) (nth_error rrs) (length (fst cols)) hcm) tbr.
(** The basis as it is left by core_f4 with reduce_gb = 1 (f4.c l.604-627): all elements are used, in their order. *)
Definition basis_nf (c : config) (fuel : nat) (G tbr : list poly) : res (list poly) :=
  core_nf c fuel (map (mk_elt (o_nev (c_o c))) G) (seq 0 (length G)) tbr.
(** The call of hilbert.c l.3621-3727: the polynomials to reduce are monomials with coefficient one; a result that is not reached is
    a failure of the caller. *)
Definition mono_nf (c : config) (fuel : nat) (G : list poly) (ms : list mono) : option (list poly) :=
  match basis_nf c fuel G (map (fun m => [(1, m)]) ms) with Ok hs => Some hs | _ => None end.
