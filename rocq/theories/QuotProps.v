(** C73: the multipliers of the saturation (option -S) are the standard monomials up to a degree. *)
From Coq Require Import ZArith NArith Arith List Bool Lia.
From Verif Require Import MonoSpec MonoSpecProofs HilbSpec GbSpec GbProofs F4Model SatModel QuotProofs.
Import ListNotations.
Open Scope nat_scope.

(** ** C73: with no constant among the leading monomials, the routine lists every monomial of degree at most D outside the
    ideal they generate, each exactly once, and writes only inside its arrays *)
Theorem C73_staircase nv lms D : 1 <= nv -> (forall l, In l lms -> length l = nv /\ mdeg l <> 0%N) ->
  exists qb, quotient_basis nv lms D = Some qb /\ lists (fun m => standard nv lms m /\ (mdeg m <= N.of_nat D)%N) qb.
Proof.
  intros Hn HL. destruct (quotient_ok nv lms Hn (fun l Hl => proj1 (HL l Hl)) D) as (r & R1 & R2 & R3).
  - split; [unfold mone; apply repeat_length|]. intros l Hl Hd. destruct (HL l Hl) as (_ & K). apply K.
    assert (mdeg l <= mdeg (mone nv))%N by (apply mdeg_mono; exact Hd). rewrite mdeg_mone in H. lia.
  - exists r. split; [exact R1|]. split; assumption.
Qed.
Print Assumptions C73_staircase.

(** The list begins with the monomial 1: the first row is the polynomial itself. *)
Theorem C73_first nv lms D qb : 1 <= nv -> (forall l, In l lms -> length l = nv) -> quotient_basis nv lms D = Some qb ->
  exists t, qb = mone nv :: t.
Proof. intros Hn HL H. destruct (quotient_some nv lms Hn HL D qb H) as (_ & _ & _ & T). exact T. Qed.
Print Assumptions C73_first.

(** The allocation is not generous: in degree 1 it is used to the last entry (one entry less and the write fails). *)
Theorem C73_tight nv : 1 <= nv -> forall cap, cap < nv -> gen_write [] cap (gen_cand nv [mone nv] (repeat 0 nv)) [] = None.
Proof.
  intros Hn cap Hc.
  assert (L : length (gen_cand nv [mone nv] (repeat 0 nv)) = nv).
  { unfold gen_cand. transitivity (length (seq 0 nv)); [|apply seq_length]. induction (seq 0 nv) as [|k l IH]; [reflexivity|]. cbn [map concat length]. rewrite app_length, IH, map_length, nth_repeat. reflexivity. }
  assert (G : forall cand acc, cap < length acc + length cand -> length acc <= cap -> gen_write [] cap cand acc = None).
  { induction cand as [|m r IH]; intros acc H1 H2; [cbn in H1; lia|]. cbn [gen_write covered existsb]. destruct (Nat.ltb_spec (length acc) cap); [|reflexivity]. apply IH; rewrite app_length; cbn in H1 |- *; lia. }
  apply G; cbn; lia.
Qed.
Print Assumptions C73_tight.

(** x^2, x*y, y^3 in two variables, degree up to 2: 1, y, x, y^2 *)
Example C73_example : quotient_basis 2 [[2;0]%N; [1;1]%N; [0;3]%N] 2 = Some [[0;0]%N; [0;1]%N; [1;0]%N; [0;2]%N].
Proof. vm_compute. reflexivity. Qed.
Example C73_nonvacuous : exists qb, quotient_basis 2 [[2;0]%N; [1;1]%N; [0;3]%N] 7 = Some qb /\ length qb = 4.
Proof. eexists. split; [vm_compute; reflexivity|reflexivity]. Qed.
