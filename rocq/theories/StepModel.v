(** The computation modulo one prime, from the polynomials to the parametrisation.
    Sources: /repo/src/msolve/msolve.c check_for_single_element_groebner_basis l.1511-1541, initial_modular_step l.1543-1665 with
    print_gb = 0; core_gba is [core_f4] with reduce_gb = 1 (msolve.c l.1929).
    Simplifications: statistics, printing and the data kept for the other primes are left out; [*success] and the NULL results are
    constructors of the result. The exponents are read from entries of 16 bits (data.h l.86, hash.c): larger ones do not occur, here
    Limit. The pointers returned by allocations never fail. *)
From Coq Require Import ZArith NArith Arith List Bool.
From Verif Require Import ModInvModel MonoSpec MonoModel GbSpec HilbModel F4Model FglmModel BuildModel NfModel.
Import ListNotations.
Open Scope Z_scope.

Inductive step_res :=
  | Empty                    (* l.1590-1592: the basis is [1], no solution *)
  | Positive                 (* l.1650-1655: dim = 1 *)
  | Unstable                 (* l.1621-1629: no matrix, success = 0 *)
  | Done (r : fglm_res).
(** What is fixed from outside: the kernel of the products, FLINT's squarefree test and part, the points added for squared variables,
    the value of unstable_staircase; the random vector and the contents of fresh memory for every dimension. *)
Record env := { e_k : kernel; e_sqf : list Z -> bool; e_sqpart : list Z -> list Z; e_sq : nat -> nat -> Z; e_unstable : Z;
                e_v : nat -> list Z; e_old : nat -> list Z }.
(** l.1511-1541: [lml = 1] and all the exponents of the leading monomial are zero *)
Definition single_constant (nv : nat) (lms : list mono) : bool :=
  match lms with [l] => forallb (fun i => (ex l i =? 0)%N) (seq 0 nv) | _ => false end.
(** get_leading_ideal_information, msolve.c l.1492-1498 *)
Definition lead_monos (G : list poly) : list mono := map (fun g => match g with t :: _ => snd t | [] => [] end) G.
Definition basis_step (c : config) (e : env) (fuel : nat) (G : list poly) : F4Model.res step_res :=
  let nv := o_nv (c_o c) in
  let lms := lead_monos G in
  let! _ := when (forallb fits lms) in
  if single_constant nv lms then F4Model.Ok Empty else
  let! (nl, lv, eqs) := of_opt (check_and_set_linear_poly nv lms G) in
  if has_dimension_zero nv lms then
    match monomial_basis fuel nv lms with
    | HilbModel.Ok (Some lmb) =>
        let! mm := of_opt (build_matrixn nv (c_p c) (e_unstable e) (mono_nf c fuel G) lmb lms G) in
        match mm with
        | None => F4Model.Ok Unstable
        | Some m =>
            let D := length lmb in
            let! r := of_opt (fglm (e_k e) (c_p c) (e_sqf e) (e_sqpart e) m (e_sq e) nv (nv - nl)
                                   (fun k => negb (nth k lv 0 =? 0)%nat) eqs (e_v e D) (e_old e D)) in
            F4Model.Ok (Done r)
        end
    | HilbModel.Ok None => Undef
    | HilbModel.Bad => Undef
    | HilbModel.NoFuel => More
    end
  else F4Model.Ok Positive.
Definition modular_step (c : config) (e : env) (fuel : nat) (F : list poly) : F4Model.res step_res :=
  let! G := core_f4 c true fuel F in basis_step c e fuel G.
