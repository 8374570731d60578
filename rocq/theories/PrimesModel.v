(** Model of the prime generation. Source: /repo/src/msolve/primes.c and the prime selection loops
    /repo/src/msolve/msolve.c l.2266-2278 (same loop l.2280-2305, lifting-gb.c l.1320-1332). *)
From Coq Require Import ZArith List Bool.
Import ListNotations.
Open Scope Z_scope.

(** uint32_t arithmetic *)
Definition u32 (x : Z) : Z := x mod 2 ^ 32.

(** primes.c l.21 (the entry 4 is in the source). *)
Definition primes_table : list Z := [2; 3; 4; 5; 7; 11; 13; 17; 19; 23].

(** primes.c l.28-31. *)
Fixpoint trial (fuel : nat) (i n : Z) : option bool :=
  match fuel with
  | O => None
  | S k =>
      if u32 (i * i) <=? n then
        if n mod i =? 0 then Some false
        else if n mod (u32 (i + 2)) =? 0 then Some false
        else trial k (u32 (i + 6)) n
      else Some true
  end.

(** primes.c l.22-33. The fuel covers every i up to the square root. *)
Definition is_prime (n : Z) : option bool :=
  if existsb (fun q => n mod q =? 0) primes_table then Some false
  else trial (Z.to_nat (Z.sqrt n / 6 + 2)) 5 n.

(** primes.c l.36-40. *)
Fixpoint next_from (fuel : nat) (cand : Z) : option Z :=
  match fuel with
  | O => None
  | S k => match is_prime cand with
           | None => None
           | Some true => Some cand
           | Some false => next_from k (u32 (cand + 1))
           end
  end.
Definition next_prime (fuel : nat) (n : Z) : option Z := next_from fuel (u32 (n + 1)).

(** msolve.c l.2010. *)
Definition lprime : Z := 1303905299.

(** msolve.c l.2267-2270: the next prime, wrapping to the first one above 2^30. *)
Definition advance (fuel : nat) (prime : Z) : option Z :=
  match next_prime fuel prime with
  | None => None
  | Some p => if lprime <=? p then next_prime fuel (2 ^ 30) else Some p
  end.

(** msolve.c l.2267-2278: advance, then advance again while the prime divides a coefficient
    ([unlucky]) or is the initial prime. *)
Fixpoint skip (fuel steps : nat) (unlucky : Z -> bool) (primeinit prime : Z) : option Z :=
  if unlucky prime || (prime =? primeinit) then
    match steps with
    | O => None
    | S s => match advance fuel prime with
             | None => None
             | Some p => skip fuel s unlucky primeinit p
             end
    end
  else Some prime.

Definition pick (fuel steps : nat) (unlucky : Z -> bool) (primeinit prime : Z) : option Z :=
  match advance fuel prime with
  | None => None
  | Some p => skip fuel steps unlucky primeinit p
  end.

(** A whole run of the outer loop: n successive picks. *)
Fixpoint picks (n : nat) (fuel steps : nat) (unlucky : Z -> bool) (primeinit prime : Z) : option (list Z) :=
  match n with
  | O => Some []
  | S k => match pick fuel steps unlucky primeinit prime with
           | None => None
           | Some p => match picks k fuel steps unlucky primeinit p with
                       | None => None
                       | Some l => Some (p :: l)
                       end
           end
  end.
