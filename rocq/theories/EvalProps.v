(** Property C33: dyadic evaluation is exact; interval evaluation and the scalar product with a table of powers enclose. *)
From Coq Require Import ZArith List Arith Bool Lia Reals Lra.
From Verif Require Import ModInvModel PolySpec PolyProofs TaylorModel IsolSpec IsolProofs EvalModel EvalProofs.
Import ListNotations.
Open Scope R_scope.

Theorem C33_point u c : IZR (eval_point u c) = zeval u (IZR c).
Proof. apply eval_point_ok. Qed.
Print Assumptions C33_point.

Theorem C33_dyadic u c k : (0 <= k)%Z -> IZR (eval_2exp u c k) = powerRZ 2 k ^ (length u - 1) * zeval u (IZR c / powerRZ 2 k).
Proof. apply eval_2exp_ok. Qed.
Print Assumptions C33_dyadic.
(** In particular the sign is exact. *)
Corollary C33_sign u c k : (0 <= k)%Z -> let y := zeval u (IZR c / powerRZ 2 k) in
  ((eval_2exp u c k < 0)%Z <-> y < 0) /\ (eval_2exp u c k = 0%Z <-> y = 0) /\ ((0 < eval_2exp u c k)%Z <-> 0 < y).
Proof.
  intros Hk y. pose proof (eval_2exp_ok u c k Hk) as E. fold (p2 k) in y. fold y in E. pose proof (pow_lt _ (length u - 1) (p2_pos k)) as P.
  set (v := eval_2exp u c k) in *. set (s := p2 k ^ (length u - 1)) in *. split; [split; intros H|split; split; intros H].
  - apply IZR_lt in H. apply Rmult_lt_reg_l with s; lra.
  - apply lt_IZR. pose proof (Rmult_lt_compat_l s _ _ P H). lra.
  - rewrite H in E. symmetry in E. apply Rmult_integral in E. destruct E; [lra|assumption].
  - apply eq_IZR. rewrite E, H. ring.
  - apply IZR_lt in H. apply Rmult_lt_reg_l with s; lra.
  - apply lt_IZR. pose proof (Rmult_lt_0_compat _ _ P H). lra.
Qed.
Print Assumptions C33_sign.

(** x^2 - 3x + 1 at 5/4. *)
Example C33_dyadic_ex : eval_2exp [1; -3; 1]%Z 5 2 = (-19)%Z /\ eval_point [1; -3; 1]%Z 5 = 11%Z.
Proof. split; reflexivity. Qed.

(** The scalar product with bounds for the powers of x. *)
Theorem C33_scalar u xdo xup corr dn up b x : (0 <= corr)%Z -> scalar_product_interval u xdo xup corr = Some (dn, up, b) ->
  (forall j, (j < length u)%nat -> IZR (nth j xdo 0%Z) <= powerRZ 2 corr * x ^ j <= IZR (nth j xup 0%Z)) ->
  IZR dn <= powerRZ 2 corr * zeval u x <= IZR up.
Proof. apply scalar_product_ok. Qed.
Print Assumptions C33_scalar.
Theorem C33_scalar_safe u xdo xup corr : (length u <= length xdo)%nat -> (length u <= length xup)%nat -> exists dn up b, scalar_product_interval u xdo xup corr = Some (dn, up, b).
Proof.
  intros H1 H2. unfold scalar_product_interval. destruct u as [|c [|c' u]]; [eauto|eauto|]. destruct (scal_loop_some (c :: c' :: u) xdo xup 0 0 H1 H2) as ([d p] & ->). cbn [obind]. eauto.
Qed.
Print Assumptions C33_scalar_safe.
(** x^2 - 3x + 1 for x in [5/4, 6/4], powers at precision 2^4. *)
Example C33_scalar_ex : scalar_product_interval [1; -3; 1]%Z [16; 20; 25]%Z [16; 24; 36]%Z 4 = Some (-31, -8, false)%Z.
Proof. reflexivity. Qed.

(** The interval evaluation ends without the error exits when both ends are on the same side of zero. *)
Theorem C33_interval_total u k a b : (0 <= a <= b \/ a <= b <= 0)%Z -> exists dn up s, eval_interval u k a b = Some (dn, up, s) /\ (dn <= up)%Z.
Proof. apply eval_interval_total. Qed.
Print Assumptions C33_interval_total.

(** Full statement: for every x in [a/2^k, b/2^k] the scaled value is between the bounds. This holds as long as no
    intermediate interval of the Horner scheme has bounds of opposite signs ([steady]). *)
Theorem C33_interval u k a b dn up s x : (0 <= k)%Z -> (0 <= a <= b \/ a <= b <= 0)%Z -> steady u k a b ->
  eval_interval u k a b = Some (dn, up, s) -> IZR a / powerRZ 2 k <= x <= IZR b / powerRZ 2 k ->
  IZR dn <= powerRZ 2 k ^ (length u - 1) * zeval u x <= IZR up.
Proof. apply eval_interval_ok. Qed.
Print Assumptions C33_interval.
(** Two classes where the hypothesis holds: degree at most 1, and coefficients of one sign on the nonnegative side. *)
Lemma steady_linear c0 c1 k a b : steady [c0; c1]%Z k a b.
Proof. unfold steady. cbn. lia. Qed.
Lemma no_straddle_pos l : forall j a b k dn up, (0 <= a <= b)%Z -> (0 <= k)%Z -> (0 <= j)%Z -> (0 <= dn)%Z -> (forall c, In c l -> (0 <= c)%Z) -> no_straddle l j a b k dn up.
Proof.
  induction l as [|c l IH]; intros j a b k dn up Ha Hk Hj Hd Hc; cbn [no_straddle]; [exact I|]. split; [auto|]. unfold itv_step.
  destruct (Z.leb_spec 0 a); [|lia]. destruct (Z.leb_spec 0 dn); [|lia]. cbn [fst snd]. apply IH; try assumption; try lia.
  - pose proof (Hc c (or_introl eq_refl)). assert (0 <= 2 ^ (k * j))%Z by (apply Z.pow_nonneg; lia). nia.
  - intros; apply Hc; right; assumption.
Qed.
Theorem C33_interval_positive u k a b dn up s x : (0 <= k)%Z -> (0 <= a <= b)%Z -> (forall c, In c u -> (0 <= c)%Z) ->
  eval_interval u k a b = Some (dn, up, s) -> IZR a / powerRZ 2 k <= x <= IZR b / powerRZ 2 k ->
  IZR dn <= powerRZ 2 k ^ (length u - 1) * zeval u x <= IZR up.
Proof.
  intros Hk Ha Hc E Hx. apply (C33_interval u k a b dn up s x); auto. unfold steady. destruct (rev u) as [|lead l] eqn:Er; [exact I|].
  assert (Hr : forall c, In c (lead :: l) -> (0 <= c)%Z) by (intros c K; apply Hc; rewrite in_rev, Er; assumption).
  apply no_straddle_pos; try assumption; try lia; [apply Hr; left; reflexivity|]. intros; apply Hr; right; assumption.
Qed.
Print Assumptions C33_interval_positive.
(** 2x^3 + x + 5 on [3/4, 1] and x - 1 on [1, 3]. *)
Example C33_interval_ex : eval_interval [5; 1; 0; 2]%Z 2 3 4 = Some (422, 512, false)%Z /\ eval_interval [-1; 1]%Z 0 1 3 = Some (0, 2, true)%Z.
Proof. split; reflexivity. Qed.

(** Without the hypothesis the bounds can be wrong: for x^2 - 2x on [1,3] they are -3 and 1, but the value at 3 is 3; likewise
    for -x^2 - 2x on [-3,-1], where the value -3 at -3 is below the lower bound. *)
Theorem C33_interval_refuted : exists u k a b dn up s x, (0 <= k)%Z /\ (0 <= a <= b)%Z /\ eval_interval u k a b = Some (dn, up, s) /\
  IZR a / powerRZ 2 k <= x <= IZR b / powerRZ 2 k /\ ~ (IZR dn <= powerRZ 2 k ^ (length u - 1) * zeval u x <= IZR up).
Proof.
  exists [0; -2; 1]%Z, 0%Z, 1%Z, 3%Z, (-3)%Z, 1%Z, true, 3. repeat split; try lia; cbn; lra.
Qed.
Print Assumptions C33_interval_refuted.
Theorem C33_interval_refuted_neg : exists u k a b dn up s x, (0 <= k)%Z /\ (a <= b <= 0)%Z /\ eval_interval u k a b = Some (dn, up, s) /\
  IZR a / powerRZ 2 k <= x <= IZR b / powerRZ 2 k /\ ~ (IZR dn <= powerRZ 2 k ^ (length u - 1) * zeval u x <= IZR up).
Proof.
  exists [0; -2; -1]%Z, 0%Z, (-3)%Z, (-1)%Z. eexists. eexists. eexists. exists (-3). repeat split; try lia; cbn; lra.
Qed.
Print Assumptions C33_interval_refuted_neg.
(** The sign reported can be wrong too: the bounds of x^3 - 2x^2 - 2 on [1,3] are both negative and the sign test says
    that the sign is constant, but the value at 3 is 7. *)
Theorem C33_interval_refuted_sign : exists u a b dn up x, (0 <= a <= b)%Z /\ eval_interval u 0 a b = Some (dn, up, false) /\
  IZR a <= x <= IZR b /\ (up < 0)%Z /\ 0 < zeval u x.
Proof.
  exists [-2; 0; -2; 1]%Z, 1%Z, 3%Z. eexists. eexists. exists 3. split; [lia|]. split; [vm_compute; reflexivity|]. split; [lra|]. split; [lia|].
  unfold zeval. cbn [map peval]. lra.
Qed.
Print Assumptions C33_interval_refuted_sign.
