(** The whole computation over the rationals: the polynomials one attempt works with. Sources: /repo/src/msolve/msolve.c msolve_trace_qq l.1917-1990
    (validate_input_data, import_input_data, remove_content_of_initial_basis, field_char = 0), real_msolve_qq l.3394-3416 (the coordinates of the boxes that are kept).
    Simplifications: the import is [initialize] of ImportModel; the rows are not sorted by leading monomial afterwards (l.1986, which does not change the system). *)
From Coq Require Import ZArith NArith Arith List Bool.
From Verif Require Import MonoSpec MonoModel GbSpec F4Model ModInvModel InputSpec InputModel ImportModel DrvModel.
Import ListNotations.
Open Scope Z_scope.

Definition q_input (sorter : nat -> list mono -> list nat) (g : gens) : option (Z * list poly) :=
  let? ms := chunks (sum_lens (lens g)) (nvars g) (exps g) in
  let? r := initialize (sorter (nvars g)) 0 (lens g) (map to_mono ms) (CQ (cfs g)) (Z.of_nat (nvars g)) 0 in
  let? cs := remove_content (map fst (snd (fst r))) in
  Some (fst (fst r), map (fun cm => combine (fst cm) (snd cm)) (combine cs (map snd (snd (fst r))))).
(** l.3394-3416: the boxes of every point lose the last one when a linear form was added, or two of them are exchanged (the exchange only when no parametrisation is asked for, get_param = 0, as in [reported]) *)
Definition report_all {A} (g : gens) (pts : list (list A)) : option (list (list A)) := omap (reported g) pts.
