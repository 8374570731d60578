(** The functions of the library that take a system as three arrays and give the answer as three arrays, modulo p. Sources: /repo/src/neogb/f4.c export_f4
    l.766-851, export_results_from_f4 l.734-756; nf.c export_nf l.114-224; io.c export_data l.480-597, return_zero l.454-478, import_input_data l.251-451;
    engine.c initialize_gba_input_data l.24-112, core_gba l.114-122.
    Simplifications: the import is [initialize] of ImportModel; the options (threads, hash table size, selection, kernel) are in [config]; the caller's variables for
    the results are left untouched ([None]) or assigned; statistics, timings and the release of memory are left out; only prime characteristic. *)
From Coq Require Import ZArith NArith Arith List Bool.
From Verif Require Import MonoSpec MonoModel MonoProofs GbSpec F4Model ModInvModel InputModel ImportModel DrvModel NfModel LibSpec.
Import ListNotations.
Open Scope Z_scope.

(** ** io.c l.480-597 *)
(** An array allocated for [cap] entries that is filled from the left; writing past the end is undefined. *)
Definition put {A} (cap : nat) (l : list A) (x : A) : res (list A) := if (length l <? cap)%nat then Ok (l ++ [x]) else Undef.
Fixpoint puts {A} (cap : nat) (l : list A) (xs : list A) : res (list A) :=
  match xs with [] => Ok l | x :: xs' => let! l' := put cap l x in puts cap l' xs' end.
(** l.501-508: a null pointer, here [[]], counts as one term *)
Definition terms_of (f : poly) : nat := match f with [] => 1 | _ => length f end.
Definition nterms (G : list poly) : nat := fold_right (fun f n => (terms_of f + n)%nat) O G.
(** l.534-588, one polynomial: lengths, exponents, coefficients written so far. The exponent vector of a monomial in the table is [lay]. *)
Record bufs := { f_lens : list Z; f_exps : list Z; f_cfs : list Z }.
Definition export_poly (nv nev nt ne : nat) (b : bufs) (f : poly) : res bufs :=
  match f with
  | [] =>
      let! cf := puts nt (f_cfs b) [0] in
      let! ex := puts (nt * nv) (f_exps b) (repeat 0 (export_zero_count nv nev)) in
      let! le := puts ne (f_lens b) [1] in
      Ok {| f_lens := le; f_exps := ex; f_cfs := cf |}
  | _ =>
      let! le := puts ne (f_lens b) [int32 (Z.of_nat (length f))] in
      let! cf := puts nt (f_cfs b) (map (fun t => int32 (fst t)) f) in
      let! es := rmap (fun t => of_opt (export_exponents nv nev (lay nev (snd t)))) f in
      let! ex := puts (nt * nv) (f_exps b) (map Z.of_N (concat es)) in
      Ok {| f_lens := le; f_exps := ex; f_cfs := cf |}
  end.
Fixpoint export_polys (nv nev nt ne : nat) (b : bufs) (G : list poly) : res bufs :=
  match G with [] => Ok b | f :: G' => let! b' := export_poly nv nev nt ne b f in export_polys nv nev nt ne b' G' end.
(** number returned, and what the caller's variables for the load and the arrays are set to *)
Definition result := (Z * option (Z * arrays))%type.
Definition export_data (nv nev : nat) (G : list poly) : res result :=
  let ne := length G in
  if 2 ^ 31 <? Z.of_nat ne then Ok (0, None)
  else let! b := export_polys nv nev (nterms G) ne {| f_lens := []; f_exps := []; f_cfs := [] |} G in
       Ok (Z.of_nat (nterms G), Some (int32 (Z.of_nat ne), {| a_lens := f_lens b; a_exps := f_exps b; a_cfs := f_cfs b |})).
(** io.c l.454-478: the arrays are allocated but not given to the caller *)
Definition return_zero : result := (1, None).

(** ** Import *)
Definition sum_len (l : list Z) : nat := fold_right (fun n s => (Z.to_nat n + s)%nat) O l.
(** engine.c l.24-112 with nr_nf = 0: state (1, 0 or -1) and generators, normalisation left to the callers; [presort] is sort_r with initial_input_cmp *)
Definition lib_import (o : ordering) (sorter : list mono -> list nat) (presort : list poly -> list poly) (fc : Z) (a : arrays) : option (Z * list poly) :=
  let? ms := chunks (sum_len (a_lens a)) (o_nv o) (a_exps a) in
  let? r := initialize sorter fc (map Z.to_nat (a_lens a)) (map to_mono ms) (CF (a_cfs a)) (Z.of_nat (o_nv o)) 0 in
  Some (fst (fst r), presort (map (fun row => combine (fst row) (snd row)) (snd (fst r)))).
(** nf.c l.189-193: no generator is marked as invalid *)
Definition tbr_import (o : ordering) (sorter : list mono -> list nat) (fc : Z) (a : arrays) : option (list poly) :=
  let? ms := chunks (sum_len (a_lens a)) (o_nv o) (a_exps a) in
  let n := length (a_lens a) in
  let? rows := import_input_data sorter 0 n fc (map Z.to_nat (a_lens a)) (map to_mono ms) (CF (a_cfs a)) (repeat false n) in
  Some (map (fun row => combine (fst row) (snd row)) rows).

(** ** f4.c l.766-851. exit(1) is undefined. *)
Definition export_f4 (c : config) (sorter : list mono -> list nat) (presort : list poly -> list poly) (reduce_gb : bool) (fuel : nat) (a : arrays) : res result :=
  let! (st, F) := of_opt (lib_import (c_o c) sorter presort (c_p c) a) in
  if st =? -1 then Ok return_zero else if st =? 0 then Undef
  else let! G := core_f4 c reduce_gb fuel F in export_data (o_nv (c_o c)) (o_nev (c_o c)) G.
(** ** nf.c l.114-224: [c] and [cn] are the options of the basis computation and of the normal form computation (l.66-67: exact linear algebra) *)
Definition export_nf (c cn : config) (sorter : list mono -> list nat) (presort : list poly -> list poly) (is_gb : bool) (fuel : nat) (bs tbr : arrays) : res result :=
  let! (st, F) := of_opt (lib_import (c_o c) sorter presort (c_p c) bs) in
  if st =? -1 then Ok return_zero else if st =? 0 then Undef
  else let! G := (if is_gb then rmap (normalize_poly (c_k c) (c_p c)) F else core_f4 c true fuel F) in
       let! T := of_opt (tbr_import (c_o c) sorter (c_p c) tbr) in
       let! H := basis_nf cn fuel G T in
       export_data (o_nv (c_o c)) (o_nev (c_o c)) H.
