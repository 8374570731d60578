(** F4 with the exact sparse-dense linear algebra (option -l 1), with and without recording of a trace. *)
From Coq Require Import ZArith NArith Arith List Bool Lia Permutation Sorted Znumtheory.
From Verif Require Import LinSpec MonoSpec MonoModel LaModel F4Model TraceModel DlaModel.
Import ListNotations.
Open Scope Z_scope.

(** compute_new_elements, f4.c l.405-470, with linear_algebra = exact_sparse_dense_linear_algebra_ff_* (io.c l.935-1060,
    reset_function_pointers l.1120-1200, laopt = 1; la_ff_32.c l.4105-4153, la_ff_16.c, la_ff_8.c). The schedule of the
    configuration is the one of the dense loop. *)
Definition dround_rows (c : config) (r : nat) (cols : list mono * list mono) (rr tr : list (list (Z * mono))) : res (list (list (Z * mono))) :=
  let hcm := fst cols ++ snd cols in
  let! _ := when (cols_fit (c_k c) (c_p c) (length hcm)) in
  let! l := of_opt (dense_echelon (c_k c) (c_p c) (length (fst cols)) (length hcm) (nth_error (rows_dec (map (to_row hcm) rr))) (map (to_row hcm) tr)
                      (c_sched c r (length hcm) (length tr))) in
  rmap (of_row hcm) (rev l).
(** f4.c l.463-466 with add_lms_to_trace (tools.c l.184-200) after a linear algebra that did not call construct_trace: the
    data of the round has leading monomials only. The array of rounds has 8 entries (modular.c l.45-60) and only
    construct_trace makes it longer (tools.c l.65-71): the ninth round with new elements is written past the end. *)
Definition blank_td (nlms : list mono) : tdata := {| td_rri := []; td_tri := []; td_rba := []; td_nlms := nlms |}.
Definition dadd_lms (learn : bool) (ds : list tdata) (nlms : list mono) : res (list tdata) :=
  if learn then
    match nlms with
    | [] => Ok ds
    | _ => if (length ds <? 8)%nat then Ok (ds ++ [blank_td nlms]) else Undef
    end
  else Ok ds.
Definition dround (c : config) (learn : bool) (fuel r : nat) (b : basis) (ps : list spair) (ds : list tdata) : res (basis * list spair * list tdata) :=
  let! (ps, cols, (rr, tr)) := round_matrix c fuel r b ps in
  let! news := dround_rows c r cols rr tr in
  let! ds' := dadd_lms learn ds (map lmono news) in
  let els := map (mk_elt (o_nev (c_o c))) news in
  let b' := {| b_el := b_el b; b_red := b_red b; b_lmps := b_lmps b; b_lo := b_lo b; b_mlt := b_mlt b; b_nold := b_nold b;
               b_const := b_const b || existsb (fun e => e_deg e =? 0) els |} in
  let! (b'', ps') := update_basis (c_o c) b' ps els in Ok (b'', ps', ds').
Fixpoint dloop (c : config) (learn : bool) (fuel r : nat) (b : basis) (ps : list spair) (ds : list tdata) : res (basis * list tdata) :=
  if done b ps then Ok (b, ds) else
  match fuel with
  | O => More
  | S f => let! (b', ps', ds') := dround c learn fuel r b ps ds in dloop c learn f (S r) b' ps' ds'
  end.
(** core_f4, f4.c l.667-732; the final reduction uses exact_linear_algebra, the sparse one, for every option (io.c l.958-1057).
    learn: LEARN_TRACER, set by initialize_f4 l.361-368 for every laopt < 40 when the input is over Q *)
Definition dcore_f4 (c : config) (learn reduce_gb : bool) (fuel : nat) (F : list (list (Z * mono))) : res (list (list (Z * mono)) * trace) :=
  let! F' := rmap (normalize_poly (c_k c) (c_p c)) F in
  let b0 := {| b_el := []; b_red := []; b_lmps := []; b_lo := O; b_mlt := 0; b_nold := O; b_const := false |} in
  let! (b, ps) := update_basis (c_o c) b0 [] (map (mk_elt (o_nev (c_o c))) F') in
  let! (b, ds) := dloop c learn fuel O b ps [] in
  let lmps := final_lmps b in
  let! out := (if reduce_gb then reduce_final c fuel (b_el b) lmps
               else rmap (fun i => let! g := of_opt (nth_error (b_el b) i) in Ok (e_pol g)) lmps) in
  Ok (out, {| t_rds := ds; t_lmps := lmps |}).
(** Application: generate_matrix_from_trace (symbol.c l.632-705) and compute_new_elements; this linear algebra does not look for
    rows reduced to zero. *)
Definition dapply_round (c : config) (r : nat) (els : list elt) (d : tdata) : res (option (list (list (Z * mono)))) :=
  let! rr := rmap (tag_row els) (td_rri d) in
  let! tr := rmap (tag_row els) (td_tri d) in
  let cols := columns (c_o c) (sht_rows [] (rr ++ tr)) (map lmono rr) in
  let! news := dround_rows c r cols rr tr in
  if (length news =? length (td_nlms d))%nat then Ok (if list_eqb (map lmono news) (td_nlms d) then Some news else None) else Ok None.
Fixpoint dapply_loop (c : config) (r : nat) (els : list elt) (ds : list tdata) : res (option (list elt)) :=
  match ds with
  | [] => Ok (Some els)
  | d :: ds' => let! x := dapply_round c r els d in
                match x with
                | None => Ok None
                | Some news => dapply_loop c (S r) (els ++ map (mk_elt (o_nev (c_o c))) news) ds'
                end
  end.
Definition dapply_f4 (c : config) (fuel : nat) (T : trace) (F : list (list (Z * mono))) : res (option (list (list (Z * mono)))) :=
  let! F' := rmap (normalize_poly (c_k c) (c_p c)) F in
  let! x := dapply_loop c O (map (mk_elt (o_nev (c_o c))) F') (t_rds T) in
  match x with
  | None => Ok None
  | Some els => let! out := reduce_final c fuel els (t_lmps T) in Ok (Some out)
  end.
