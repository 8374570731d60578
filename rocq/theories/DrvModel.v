(** The whole computation over a prime field: import of the system, one attempt, restarts. Sources: /repo/src/msolve/msolve.c core_msolve l.3567-3577 and
    l.4041-4150 (field_char > 0, no signatures, no saturation, no colon, no normal form, no elimination order, a parametrisation is asked for),
    msolve_trace_qq l.1917-1990; /repo/src/neogb/data.h l.86.
    Simplifications: the import is [initialize] of ImportModel (validate_input_data, the counts, import_input_data; in msolve_trace_qq the same functions are
    called one by one); printing is left out (OutModel); the random choices of attempt i are in [env i]; a computation that does not give an answer (undefined
    behaviour, a limit of the representation, or more steps than [fuel]) is None. *)
From Coq Require Import ZArith NArith Arith List Bool.
From Verif Require Import MonoSpec MonoModel GbSpec F4Model ModInvModel InputSpec InputModel ImportModel NsModel.
Import ListNotations.
Open Scope Z_scope.

(** exponents are int32_t in the input and exp_t = uint16_t in the engine *)
Definition to_mono (e : list Z) : mono := map (fun x => Z.to_N (x mod 2 ^ 16)) e.
(** the exponents of the terms, n for each *)
Fixpoint chunks (k n : nat) (l : list Z) : option (list (list Z)) :=
  match k with O => Some [] | S k' => let? a := slice l 0 n in let? r := chunks k' n (skipn n l) in Some (a :: r) end.
Definition engine_input (sorter : nat -> list mono -> list nat) (g : gens) : option (Z * list poly) :=
  let? ms := chunks (sum_lens (lens g)) (nvars g) (exps g) in
  let? r := initialize (sorter (nvars g)) (field_char g) (lens g) (map to_mono ms) (CF (map fst (cfs g))) (Z.of_nat (nvars g)) 0 in
  Some (fst (fst r), map (fun row => combine (fst row) (snd row)) (snd (fst r))).

(** l.4063-4148. [cf n] are the options for n variables; [k] bounds the number of attempts; [round] is the counter of l.3567. *)
Inductive final := Answered (a : answer) | Failed | Invalid.
Fixpoint drive (cf : nat -> config) (env : nat -> env2) (fuel : nat) (sorter : nat -> list mono -> list nat) (gh : Z) (k i : nat) (round : Z) (g : gens) (rnd : list Z) : option (final * gens) :=
  match k with
  | O => None
  | S k' =>
      let? r := engine_input sorter g in
      if negb (fst r =? 1) then Some (Invalid, g) else
      match field_answer (cf (nvars g)) (env i) fuel (negb (round =? 0)) (snd r) with
      | F4Model.Ok AFail =>
          let? h := handle gh Staircase g rnd in
          if fst (fst h) then drive cf env fuel sorter gh k' (S i) round (snd (fst h)) (snd h) else Some (Failed, snd (fst h))
      | F4Model.Ok ASquares =>
          let? h := handle gh Separation g rnd in
          if fst (fst h) then drive cf env fuel sorter gh k' (S i) (round + 1) (snd (fst h)) (snd h) else Some (Failed, snd (fst h))
      | F4Model.Ok a => Some (Answered a, g)
      | _ => None
      end
  end.
(** the first attempt: round = -1 *)
Definition solve cf env fuel sorter gh k g rnd := drive cf env fuel sorter gh k 0 (-1) g rnd.
