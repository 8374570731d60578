(** Copies of the learned data for the threads.
    Source: /repo/src/msolve/duplicate.c duplicate_tracer l.44-119, duplicate_linear_data l.21-42, the copies of arrays in duplicate_data_mthread_trace l.145-190
    and duplicate_data_mthread_gbtrace l.388-416; /repo/src/neogb/data.h l.283-325, modular.c initialize_trace l.44-63.
    Simplifications: a pointer is the address of an array in a heap of arrays; structures and arrays of pointers are records and lists (they
    are allocated for one thread each and no other pointer to them exists). The arrays ts, rd of the saturation are left out, they are
    not copied. None: a read or write out of bounds. *)
From Coq Require Import ZArith Arith List Bool.
From Verif Require Import ModInvModel FglmModel DupSpec.
Import ListNotations.
Local Open Scope nat_scope.

(** calloc(n), malloc(n) followed by writes to all the entries *)
Definition alloc (h : heap) (a : list Z) : heap * nat := (h ++ [a], length h).
(** for (k = 0; k < n; ++k) dst[k] = src[k], with dst of length n *)
Definition read_n (h : heap) (src n : nat) : option (list Z) := let? s := nth_error h src in if n <=? length s then Some (firstn n s) else None.
Definition copy_n (h : heap) (src n : nat) : option (heap * nat) := let? s := read_n h src n in Some (alloc h s).
(** memcpy(dst, src, n) into an existing array *)
Fixpoint set_nth (h : heap) (a : nat) (v : list Z) : option heap :=
  match h, a with [], _ => None | _ :: r, O => Some (v :: r) | x :: r, S a' => let? r' := set_nth r a' v in Some (x :: r') end.
Definition memcpy (h : heap) (dst src n : nat) : option heap :=
  let? s := read_n h src n in let? d := nth_error h dst in if n <=? length d then set_nth h dst (s ++ skipn n d) else None.

(** data.h l.283-299, l.304-325 *)
Record td := { t_rri : nat; t_tri : nat; t_nlms : nat; t_rba : list nat; t_deg : Z; t_rld : nat; t_tld : nat; t_nlm : nat }.
Record trace := { tr_td : list td; tr_ltd : nat; tr_std : nat; tr_lm : nat; tr_lmps : nat; tr_lml : nat }.
(** l.102-104: words of 32 bits for the reducers *)
Definition nlrba (rld : nat) : nat := rld / 2 / 32 + if (rld / 2) mod 32 =? 0 then 0 else 1.
Fixpoint copies (h : heap) (l : list nat) (n : nat) : option (heap * list nat) :=
  match l with [] => Some (h, []) | a :: r => let? c := copy_n h a n in let? cs := copies (fst c) r n in Some (fst cs, snd c :: snd cs) end.
(** l.78-115: one round; the degree is not copied. The rows of rba are allocated first and written then: the same contents *)
Definition dup_td (h : heap) (t : td) : option (heap * td) :=
  let? r := copy_n h (t_rri t) (t_rld t) in
  let? s := copy_n (fst r) (t_tri t) (t_tld t) in
  let? n := copy_n (fst s) (t_nlms t) (t_nlm t) in
  if negb (t_tld t / 2 <=? length (t_rba t)) then None else
  let? b := copies (fst n) (firstn (t_tld t / 2) (t_rba t)) (nlrba (t_rld t)) in
  Some (fst b, {| t_rri := snd r; t_tri := snd s; t_nlms := snd n; t_rba := snd b; t_deg := 0; t_rld := t_rld t; t_tld := t_tld t; t_nlm := t_nlm t |}).
Fixpoint dup_tds (h : heap) (l : list td) : option (heap * list td) :=
  match l with [] => Some (h, []) | t :: r => let? c := dup_td h t in let? cs := dup_tds (fst c) r in Some (fst cs, snd c :: snd cs) end.
(** l.51-116: one thread. l.70: the arguments of memcpy are those of the source, the new array of masks is copied onto the old one *)
Definition dup_one (h : heap) (t0 : trace) : option (heap * trace) :=
  let? p := copy_n h (tr_lmps t0) (tr_lml t0) in
  let m := alloc (fst p) (repeat 0%Z (tr_lml t0)) in
  let? h1 := memcpy (fst m) (tr_lm t0) (snd m) (tr_lml t0) in
  if negb (tr_ltd t0 <=? length (tr_td t0)) then None else
  let? d := dup_tds h1 (firstn (tr_ltd t0) (tr_td t0)) in
  Some (fst d, {| tr_td := snd d; tr_ltd := tr_ltd t0; tr_std := tr_std t0; tr_lm := snd m; tr_lmps := snd p; tr_lml := tr_lml t0 |}).
(** the [n] threads behind the first one *)
Fixpoint dup_tracer (n : nat) (h : heap) (t0 : trace) : option (heap * list trace) :=
  match n with O => Some (h, []) | S n' => let? c := dup_one h t0 in let? cs := dup_tracer n' (fst c) t0 in Some (fst cs, snd c :: snd cs) end.
(** leadmons_ori, start_cf_gb_xn, len_gb_xn, div_xn, linvars, squvars: n arrays with the first [len] entries of the array of thread 0 *)
Fixpoint dup_array (n : nat) (h : heap) (a len : nat) : option (heap * list nat) :=
  match n with O => Some (h, []) | S n' => let? c := copy_n h a len in let? cs := dup_array n' (fst c) a len in Some (fst cs, snd c :: snd cs) end.
