(** Properties C07 and C09. *)
From Coq Require Import ZArith Znumtheory List Bool Lia.
From Verif Require Import ModInvModel CrtModel LiftModel LiftProofs.
Open Scope Z_scope.

(** ** C07: reconstruction of a whole vector *)
(** Success: one positive denominator, and each numerator is congruent to denominator * residue. *)
Theorem C07_vector_sound : forall recons0 den0 pol len m maxrec tn td N D v,
  1 < m -> 0 <= N -> (maxrec < len)%nat -> (forall i, (i < len)%nat -> pol i < m) ->
  rational_reconstruction recons0 den0 pol len m maxrec tn td N D = Some v -> v_ok v = true ->
  0 < v_den v /\ forall i, (i < len)%nat -> (m | v_recons v i - v_den v * pol i).
Proof. exact rational_reconstruction_sound. Qed.
Print Assumptions C07_vector_sound.

(** When every residue comes from a reduced fraction within the bounds, the call succeeds from every
    starting index, returns these fractions over one common denominator, and that denominator is the least one. *)
Theorem C07_vector_complete : forall recons0 den0 pol len m maxrec tn td N D num den,
  1 < m -> (maxrec < len)%nat -> 2 * N * D < m ->
  (forall i, (i < len)%nat -> pol i < m /\ (m | num i - den i * pol i) /\ Z.abs (num i) <= N /\
      0 < den i <= D /\ Z.gcd (num i) (den i) = 1) ->
  exists v, rational_reconstruction recons0 den0 pol len m maxrec tn td N D = Some v /\ v_ok v = true /\
    0 < v_den v /\
    (forall i, (i < len)%nat -> v_recons v i * den i = num i * v_den v) /\
    (forall z, (forall i, (i < len)%nat -> (den i | z)) -> (v_den v | z)).
Proof. exact rational_reconstruction_complete. Qed.
Print Assumptions C07_vector_complete.

(** The variant with a guessed denominator g: recons / (den * g). *)
Theorem C07_vector_wden_sound : forall recons0 den0 pol len m maxrec tn td g N D v N' D',
  1 < m -> 0 <= N -> (maxrec < len)%nat -> g <> 0 ->
  rational_reconstruction_wden recons0 den0 pol len m maxrec tn td g N D = Some (v, N', D') -> v_ok v = true ->
  v_den v <> 0 /\ (0 < g -> 0 < v_den v) /\
  forall i, (i < len)%nat -> (m | v_recons v i - v_den v * g * pol i).
Proof. exact rational_reconstruction_wden_sound. Qed.
Print Assumptions C07_vector_wden_sound.

Theorem C07_vector_wden_complete : forall recons0 den0 pol len m maxrec tn td g N D num den,
  1 < m -> (maxrec < len)%nat -> 0 < g -> 0 <= N -> 0 <= D -> 2 * N * D < m ->
  let L := fold_left Z.lcm (map den (seq (maxrec + 1) (len - (maxrec + 1)))) (den maxrec) in
  (forall i, (maxrec <= i < len)%nat -> (m | num i - den i * g * pol i) /\ Z.abs (num i) <= N /\
      0 < den i <= D /\ Z.gcd (num i) (den i) = 1) ->
  (forall i, (i < maxrec)%nat -> (m | num i - den i * (L * g) * pol i) /\ Z.abs (num i) <= N * L /\
      0 < den i <= D / L /\ Z.gcd (num i) (den i) = 1) ->
  exists v, rational_reconstruction_wden recons0 den0 pol len m maxrec tn td g N D = Some (v, N * L, D / L) /\
    v_ok v = true /\ 0 < v_den v /\
    (forall i, (maxrec <= i < len)%nat -> v_recons v i * den i = num i * v_den v) /\
    (forall i, (i < maxrec)%nat -> v_recons v i * (den i * L) = num i * v_den v).
Proof. exact rational_reconstruction_wden_complete'. Qed.
Print Assumptions C07_vector_wden_complete.

(** The resume index stays inside the vector whatever the outcome, so any history of calls is in bounds. *)
Theorem C07_resume_index_in_bounds : forall recons0 den0 pol len m maxrec tn td N D v,
  (maxrec < len)%nat ->
  rational_reconstruction recons0 den0 pol len m maxrec tn td N D = Some v -> (v_maxrec v < len)%nat.
Proof. exact rational_reconstruction_maxrec. Qed.
Print Assumptions C07_resume_index_in_bounds.

Theorem C07_resume_index_in_bounds_wden : forall recons0 den0 pol len m maxrec tn td g N D v N' D',
  (maxrec < len)%nat ->
  rational_reconstruction_wden recons0 den0 pol len m maxrec tn td g N D = Some (v, N', D') ->
  (v_maxrec v < len)%nat.
Proof. exact rational_reconstruction_wden_maxrec. Qed.
Print Assumptions C07_resume_index_in_bounds_wden.

(* the vector (1/2, -3/5, 7) modulo 1000003, resumed from each index *)
Definition ex_pol (i : nat) : Z := match i with O => 500002 | 1%nat => 200000 | _ => 7 end.
Example C07_ex : forall mr, (mr < 3)%nat ->
  match rational_reconstruction (fun _ => 0) 0 ex_pol 3 1000003 mr (fun _ => 0) (fun _ => 0) 700 700 with
  | Some v => (v_ok v, v_den v, v_recons v 0%nat, v_recons v 1%nat, v_recons v 2%nat) = (true, 10, 5, -6, 70)
  | None => False end.
Proof. intros mr H. do 3 (destruct mr as [|mr]; [vm_compute; reflexivity|]). lia. Qed.
Example C07_ex_wden :
  match rational_reconstruction_wden (fun _ => 0) 0 ex_pol 3 1000003 1 (fun _ => 0) (fun _ => 0) 5 700 700 with
  | Some (v, _, _) => (v_ok v, v_den v, v_recons v 0%nat, v_recons v 1%nat, v_recons v 2%nat) = (true, 2, 5, -6, 70)
  | None => False end.
Proof. vm_compute. reflexivity. Qed.

(** ** C09: the modular check of a lifted polynomial *)
(** It passes exactly when the leading coefficient does not vanish and the monic image is the modular one. *)
Theorem C09_check_unit : forall len pol nm p, prime p -> p < 2 ^ 31 -> (0 < len)%nat ->
  nm (len - 1)%nat = 1 -> (forall i, (i < len)%nat -> 0 <= nm i < p) ->
  exists r, check_unit_mpz_nmod_poly len pol nm p = Some r /\
   (r = 0%nat <-> (~ (p | pol (len - 1)%nat) /\
      forall i, (i < len)%nat -> (p | pol i - pol (len - 1)%nat * nm i))).
Proof. exact check_unit_iff. Qed.
Print Assumptions C09_check_unit.

(** The check of a coordinate polynomial pol / (lc * den * nbsol). *)
Theorem C09_check_param : forall undef len pol den lc nb nm p, prime p ->
  ~ (p | lc * den * nb) ->
  (check_param_nmod_poly undef len pol den lc nb nm p = false <->
   forall i, (i < len)%nat -> (p | pol i - lc * den * nb * nm i)).
Proof. exact check_param_iff. Qed.
Print Assumptions C09_check_param.

(** Without the hypothesis that the prime does not divide lc * den * nbsol the second check is not sound: mpz_invert then
    leaves its output undefined, and for the value 0 a wrong polynomial passes. *)
Theorem C09_check_param_bad_denominator_refuted :
  exists undef len pol den lc nb nm p, prime p /\ (0 < len)%nat /\
    check_param_nmod_poly undef len pol den lc nb nm p = false /\
    ~ (forall i, (i < len)%nat -> (p | pol i - lc * den * nb * nm i)).
Proof.
  exists 0, 1%nat, (fun _ => 1), 5, 1, 1, (fun _ => 0), 5.
  split; [exact prime_5|]. split; [lia|]. split; [vm_compute; reflexivity|].
  intros H. specialize (H 0%nat ltac:(lia)). destruct H as [q Hq]. lia.
Qed.
Print Assumptions C09_check_param_bad_denominator_refuted.

Example C09_ex : check_unit_mpz_nmod_poly 3 (fun i => match i with O => 10 | 1%nat => -6 | _ => 4 end)
   (fun i => match i with O => 6 | 1%nat => 2 | _ => 1 end) 7 = Some 0%nat.
Proof. vm_compute. reflexivity. Qed.
