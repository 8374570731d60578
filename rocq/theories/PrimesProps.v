(** Property C08. *)
From Coq Require Import ZArith Znumtheory List Bool Lia.
From Verif Require Import PrimesModel PrimesProofs.
Import ListNotations.
Open Scope Z_scope.

(** The primality test decides primality for every n from 24 up to 65531^2 (exclusive; above that the
    32-bit square wraps and below that the table entries themselves are rejected). *)
Theorem C08_is_prime : forall n, 24 <= n < 65531 * 65531 ->
  exists b, is_prime n = Some b /\ (b = true <-> prime n).
Proof. exact is_prime_ok. Qed.
Print Assumptions C08_is_prime.

(** next_prime returns the least prime above its argument. *)
Theorem C08_next_prime : forall fuel n p, 23 <= n -> (exists q, prime q /\ n < q < 65531 * 65531) ->
  next_prime fuel n = Some p ->
  prime p /\ n < p < 65531 * 65531 /\ forall q, prime q -> n < q -> p <= q.
Proof. exact next_prime_ok. Qed.
Print Assumptions C08_next_prime.

Theorem C08_next_prime_ends : forall fuel n q, 23 <= n -> prime q -> n < q < 65531 * 65531 ->
  q - n <= Z.of_nat fuel -> exists p, next_prime fuel n = Some p.
Proof. exact next_prime_total. Qed.
Print Assumptions C08_next_prime_ends.

(** The whole multi-modular loop, from any initial prime the random draw can give and for every
    divisibility test [unlucky]: every prime used is a prime of the window, lucky and not the learning prime. *)
Theorem C08_selected_primes_good : forall fuel steps unlucky b n l, 2 ^ 30 < b <= 1303905347 -> prime b ->
  picks n fuel steps unlucky b b = Some l ->
  forall p, In p l -> (prime p /\ 2 ^ 30 < p < 1303905299) /\ unlucky p = false /\ p <> b.
Proof.
  intros fuel steps unlucky b n l Hb Hp.
  exact (picks_good fuel steps unlucky b Hb Hp n b l (or_introl eq_refl)). Qed.
Print Assumptions C08_selected_primes_good.

(** No prime is used a second time before all the admissible primes of the window have been used
    (so the moduli given to the CRT are pairwise coprime). *)
Theorem C08_selected_primes_distinct : forall fuel steps unlucky b n l, 2 ^ 30 < b <= 1303905347 -> prime b ->
  picks n fuel steps unlucky b b = Some l ->
  forall l1 p l2, l = l1 ++ p :: l2 ->
  ~ In p l1 \/ (forall g, (prime g /\ 2 ^ 30 < g < 1303905299) /\ unlucky g = false /\ g <> b -> In g l1).
Proof. exact picks_distinct. Qed.
Print Assumptions C08_selected_primes_distinct.

(** The full statement "for every n >= 2" is false: the primes up to 23 are rejected, 1 is accepted. *)
Theorem C08_small_arguments_refuted :
  (exists n, prime n /\ is_prime n = Some false) /\ is_prime 1 = Some true /\ ~ prime 1 /\
  next_prime 40 2 = Some 29.
Proof.
  split; [exists 2; split; [exact prime_2|vm_compute; reflexivity]|].
  split; [vm_compute; reflexivity|]. split; [exact not_prime_1|vm_compute; reflexivity].
Qed.
Print Assumptions C08_small_arguments_refuted.

Example C08_ex : next_prime 100 (2 ^ 30) = Some 1073741827 /\ is_prime 1303905299 = Some true /\
  is_prime (65521 * 65521) = Some false.
Proof. vm_compute. auto. Qed.
(* a run around the wrap: the initial prime is the last one below lprime *)
Example C08_ex_run : picks 3 300 5 (fun p => p =? 1073741831) 1303905257 1303905257
   = Some [1073741827; 1073741833; 1073741839].
Proof. vm_compute. reflexivity. Qed.
