(** Property C01. *)
From Coq Require Import ZArith Znumtheory Lia.
From Verif Require Import ModInvModel ModInvProofs.
Open Scope Z_scope.

(** For every prime p of the width served by each variant and every operand of the argument type
    that is not a multiple of p, the function returns (no overflow, no undefined operation) the inverse
    in [1,p). *)
Theorem C01_mod_inverse_8 : forall p val, prime p -> p < 2 ^ 8 ->
  - 2 ^ 15 <= val < 2 ^ 15 -> ~ (p | val) ->
  exists x, mod_p_inverse_8 val p = Some x /\ 0 < x < p /\ (x * val) mod p = 1.
Proof. intros p val Hp H8 Hv Hd. exact (mod_p_inverse_prime 16 8 val p ltac:(lia) ltac:(lia) Hp H8 Hv Hd). Qed.
Print Assumptions C01_mod_inverse_8.

Theorem C01_mod_inverse_16 : forall p val, prime p -> p < 2 ^ 16 ->
  - 2 ^ 31 <= val < 2 ^ 31 -> ~ (p | val) ->
  exists x, mod_p_inverse_16 val p = Some x /\ 0 < x < p /\ (x * val) mod p = 1.
Proof. intros p val Hp H8 Hv Hd. exact (mod_p_inverse_prime 32 16 val p ltac:(lia) ltac:(lia) Hp H8 Hv Hd). Qed.
Print Assumptions C01_mod_inverse_16.

Theorem C01_mod_inverse_32 : forall p val, prime p -> p < 2 ^ 32 ->
  - 2 ^ 63 <= val < 2 ^ 63 -> ~ (p | val) ->
  exists x, mod_p_inverse_32 val p = Some x /\ 0 < x < p /\ (x * val) mod p = 1.
Proof. intros p val Hp H8 Hv Hd. exact (mod_p_inverse_prime 64 32 val p ltac:(lia) ltac:(lia) Hp H8 Hv Hd). Qed.
Print Assumptions C01_mod_inverse_32.

(** A multiple of the prime gives 0 (this is what the modular check of a lifted polynomial relies on
    when the prime divides the leading coefficient). *)
Theorem C01_mod_inverse_of_zero : forall p val, 1 < p < 2 ^ 32 ->
  - 2 ^ 63 <= val < 2 ^ 63 -> (p | val) -> mod_p_inverse_32 val p = Some 0.
Proof. intros p val Hp Hv Hd. exact (mod_p_inverse_zero 64 32 val p ltac:(lia) ltac:(lia) (proj1 Hp) (proj2 Hp) Hv Hd). Qed.
Print Assumptions C01_mod_inverse_of_zero.

(** Concrete instances. *)
Lemma prime_251 : prime 251.
Proof. apply prime_intro; [lia|]. intros n Hn. apply Zgcd_1_rel_prime.
  assert (H : forall k, (k < 251)%nat -> (1 <= k)%nat -> Z.gcd (Z.of_nat k) 251 = 1).
  { do 251 (destruct k as [|k]; [intros; try lia; vm_compute; reflexivity|]). lia. }
  rewrite <- (Z2Nat.id n) by lia. apply H; lia. Qed.

Example C01_ex8 : mod_p_inverse_8 250 251 = Some 250 /\ mod_p_inverse_8 (-7) 251 = Some 215 /\ (215 * -7) mod 251 = 1.
Proof. vm_compute. auto. Qed.
Example C01_ex32 : mod_p_inverse_32 123456789 4294967291 = Some 2196879611 /\
  (2196879611 * 123456789) mod 4294967291 = 1.
Proof. vm_compute. auto. Qed.
Example C01_hyp : exists x, mod_p_inverse_8 100 251 = Some x /\ 0 < x < 251 /\ (x * 100) mod 251 = 1.
Proof. apply C01_mod_inverse_8; [exact prime_251|lia|lia|]. intros [q Hq]. lia. Qed.
