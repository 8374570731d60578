(** Properties C02, C03, C04, C05, C06. Specifications use only Z.divide, Z.modulo, Z.gcd and lists. *)
From Coq Require Import ZArith List Bool Lia.
From Verif Require Import ModInvModel CrtModel CrtProofs.
Import ListNotations.
Open Scope Z_scope.

(** ** C02: one CRT step *)
Theorem C02_crt_step : forall r1 m1 r2 m2 (sign : bool),
  0 < m1 -> 1 < m2 <= 2 ^ 64 -> Z.gcd m1 m2 = 1 -> - m1 < r1 < m1 -> 0 <= r2 < m2 ->
  exists x, mpz_CRT_ui r1 m1 r2 m2 (m1 * m2) sign = Some x /\
    (m1 | x - r1) /\ (m2 | x - r2) /\
    (if sign then 2 * Z.abs x <= m1 * m2 else 0 <= x < m1 * m2).
Proof. exact mpz_CRT_ui_ok. Qed.
Print Assumptions C02_crt_step.

Example C02_ex : mpz_CRT_ui (-3) 35 9 11 (35 * 11) true = Some (-178) /\
                 mpz_CRT_ui (-3) 35 9 11 (35 * 11) false = Some 207.
Proof. vm_compute. auto. Qed.

(** ** C03: any history of CRT steps gives the canonical representative modulo the product *)
Theorem C03_crt_incremental : forall (sign : bool) l c0 m x,
  0 < m -> (if sign then 2 * Z.abs c0 <= m else 0 <= c0 < m) -> -m < c0 < m -> (m | c0 - x) ->
  Forall (fun cp => 1 < snd cp <= 2 ^ 64 /\ fst cp = x mod snd cp) l ->
  Forall (fun cp => Z.gcd m (snd cp) = 1) l ->
  ForallOrdPairs (fun a b => Z.gcd (snd a) (snd b) = 1) l ->
  exists y, crt_fold sign (c0, m) l = Some (y, m * fold_right Z.mul 1 (map snd l)) /\
    (m * fold_right Z.mul 1 (map snd l) | y - x) /\
    (if sign then 2 * Z.abs y <= m * fold_right Z.mul 1 (map snd l)
     else 0 <= y < m * fold_right Z.mul 1 (map snd l)).
Proof. exact crt_fold_spec. Qed.
Print Assumptions C03_crt_incremental.

(** Once the product exceeds twice the absolute value, the lift is the integer itself. *)
Theorem C03_crt_recovers : forall l c0 m x,
  0 < m -> 2 * Z.abs c0 <= m -> -m < c0 < m -> (m | c0 - x) ->
  Forall (fun cp => 1 < snd cp <= 2 ^ 64 /\ fst cp = x mod snd cp) l ->
  Forall (fun cp => Z.gcd m (snd cp) = 1) l ->
  ForallOrdPairs (fun a b => Z.gcd (snd a) (snd b) = 1) l ->
  2 * Z.abs x < m * fold_right Z.mul 1 (map snd l) ->
  crt_fold true (c0, m) l = Some (x, m * fold_right Z.mul 1 (map snd l)).
Proof. exact crt_recovers. Qed.
Print Assumptions C03_crt_recovers.

Example C03_ex :

   crt_fold true (1, 7) [(1, 11); (1, 13); (3, 17)] = Some (-1000, 17017).
Proof. vm_compute. auto. Qed.

(** ** C04: soundness of rational reconstruction *)
Theorem C04_ratrecon_sound : forall u m N D n d, 1 < m -> 0 <= N -> u < m ->
  ratrecon u m N D = Some (true, n, d) ->
  (m | n - d * u) /\ Z.abs n <= N /\ 0 < d <= D /\ Z.gcd n d = 1.
Proof. exact ratrecon_sound. Qed.
Print Assumptions C04_ratrecon_sound.

(** The call always ends (no division by zero, no endless loop), with success or with failure. *)
Theorem C04_ratrecon_total : forall u m N D, 0 < m -> 0 <= N -> u < m ->
  exists r, ratrecon u m N D = Some r.
Proof. exact ratrecon_ends. Qed.
Print Assumptions C04_ratrecon_total.

Theorem C04_mpq_reconstruct_sound : forall a m n d, 8 <= m -> a < m ->
  mpq_reconstruct_mpz a m = Some (true, n, d) ->
  (m | n - d * a) /\ 2 * (n * n) <= m /\ 0 < d /\ 2 * (d * d) <= m /\ Z.gcd n d = 1.
Proof. exact mpq_reconstruct_sound. Qed.
Print Assumptions C04_mpq_reconstruct_sound.

Example C04_ex : ratrecon 334 1001 20 20 = Some (true, 1, 3) /\ ratrecon (-500) 1001 22 22 = Some (true, 1, 2)
  /\ ratrecon 5000 10007 3 3 = Some (false, 2, 1429).
Proof. vm_compute. auto. Qed.

(** ** C05: completeness and uniqueness *)
Theorem C05_ratrecon_complete : forall u m N D n d, 1 < m -> u < m ->
  (m | n - d * u) -> Z.abs n <= N -> 0 < d <= D -> 2 * N * D < m -> Z.gcd n d = 1 ->
  ratrecon u m N D = Some (true, n, d).
Proof. exact ratrecon_complete. Qed.
Print Assumptions C05_ratrecon_complete.

Theorem C05_mpq_reconstruct_complete : forall a m n d, 8 <= m -> a < m -> Z.odd m = true ->
  (m | n - d * a) -> 2 * (n * n) <= m -> 0 < d -> 2 * (d * d) <= m -> Z.gcd n d = 1 ->
  mpq_reconstruct_mpz a m = Some (true, n, d).
Proof. exact mpq_reconstruct_complete. Qed.
Print Assumptions C05_mpq_reconstruct_complete.

(** End to end: modular images of n/d, lifted by CRT over any list of distinct primes whose product
    exceeds 2ND, are reconstructed to exactly n/d. *)
Theorem C05_lift_then_reconstruct : forall (sign : bool) l c0 p0 n d N D y M,
  1 < p0 -> 0 <= c0 < p0 -> (sign = true -> 2 * c0 <= p0) ->
  Forall (fun cp => 1 < snd cp <= 2 ^ 64 /\ 0 <= fst cp < snd cp) l ->
  Forall (fun cp => Z.gcd p0 (snd cp) = 1) l ->
  ForallOrdPairs (fun a b => Z.gcd (snd a) (snd b) = 1) l ->
  (p0 | c0 * d - n) -> (forall c p, In (c, p) l -> (p | c * d - n)) ->
  crt_fold sign (c0, p0) l = Some (y, M) ->
  Z.abs n <= N -> 0 < d <= D -> 2 * N * D < M -> Z.gcd n d = 1 ->
  ratrecon y M N D = Some (true, n, d).
Proof. exact lift_fraction_spec. Qed.
Print Assumptions C05_lift_then_reconstruct.

(* -22/7 from its images modulo 101, 103, 107: (M = 1113121) *)
Example C05_ex : match crt_fold false (69, 101) [(41, 103); (58, 107)] with
  | Some (y, M) => M = 1113121 /\ ratrecon y M 700 700 = Some (true, -22, 7)
  | None => False end.
Proof. vm_compute. auto. Qed.

(** ** C06: with a guessed denominator *)
Theorem C06_ratreconwden_sound : forall u m g N D n d, 1 < m -> 0 <= N ->
  ratreconwden u m g N D = Some (true, n, d) ->
  (m | n - d * g * u) /\ Z.abs n <= N /\ 0 < d <= D /\ Z.gcd n d = 1.
Proof. exact ratreconwden_sound. Qed.
Print Assumptions C06_ratreconwden_sound.

Theorem C06_ratreconwden_complete : forall u m g N D n d, 1 < m ->
  (m | n - d * g * u) -> Z.abs n <= N -> 0 < d <= D -> 2 * N * D < m -> Z.gcd n d = 1 ->
  ratreconwden u m g N D = Some (true, n, d).
Proof. exact ratreconwden_complete. Qed.
Print Assumptions C06_ratreconwden_complete.

(** If the true value is a/(g*b) and gcd(a,b)=1 then the call returns a/b, for every guess g. *)
Example C06_ex : ratreconwden 334 1001 3 20 20 = Some (true, 1, 1) /\
                 ratreconwden 167 1001 3 20 20 = Some (true, 1, 2).
Proof. vm_compute. auto. Qed.
