From Coq Require Import ZArith List Bool Lia Znumtheory.
From Verif Require Import ModInvModel.
Open Scope Z_scope.

Lemma chk_some w x : - 2 ^ (w-1) <= x < 2 ^ (w-1) -> chk w x = Some x.
Proof. intros H; unfold chk. destruct (Z.leb_spec (- 2^(w-1)) x); destruct (Z.ltb_spec x (2^(w-1))); simpl; auto; lia. Qed.

Lemma land_sign w x p : 1 <= w -> - 2 ^ (w-1) <= x < 2 ^ (w-1) ->
  Z.land (Z.shiftr x (w-1)) p = if x <? 0 then p else 0.
Proof.
  intros Hw H. rewrite Z.shiftr_div_pow2 by lia.
  assert (0 < 2 ^ (w-1)) by (apply Z.pow_pos_nonneg; lia).
  destruct (Z.ltb_spec x 0).
  - replace (x / 2 ^ (w-1)) with (-1).
    + apply Z.land_m1_l.
    + apply Z.div_unique with (r := x + 2^(w-1)); lia.
  - rewrite Z.div_small by lia. apply Z.land_0_l.
Qed.

(* Invariant of the loop *)
Record inv (p v a b c d : Z) : Prop := {
  i_a : 0 < a <= p; i_b : 0 <= b <= p;
  i_ca : (p | c * v - b); i_da : (p | d * v - a);
  i_sgn : (0 <= c /\ d <= 0) \/ (c <= 0 /\ 0 <= d);
  i_mag : Z.abs c * a + Z.abs d * b = p;
  i_d : Z.abs d <= p;
  i_gcd : Z.gcd a b = Z.gcd p v }.

Lemma step_inv p v a b c d : inv p v a b c d -> b <> 0 ->
  let e := a / b in
  inv p v b (a - e * b) (d - e * c) c /\ 0 <= e <= p /\ 0 <= e * b <= p /\ 0 <= a - e*b < b /\
  Z.abs (e * c) <= p /\ Z.abs (d - e * c) <= p.
Proof.
  intros [Ha Hb Hc Hd Hs Hm Hdp Hg] Hb0 e.
  assert (Hbp : 0 < b) by lia.
  pose proof (Z.div_mod a b Hb0) as Hdm. pose proof (Z.mod_pos_bound a b Hbp) as Hmb.
  fold e in Hdm.
  assert (He : 0 <= e) by (apply Z.div_pos; lia).
  assert (Hr : 0 <= a - e*b < b) by lia.
  assert (Habs : Z.abs (d - e*c) = Z.abs d + e * Z.abs c).
  { destruct Hs as [[? ?]|[? ?]].
    - rewrite (Z.abs_eq c), (Z.abs_neq d) by lia. rewrite Z.abs_neq; nia.
    - rewrite (Z.abs_neq c), (Z.abs_eq d) by lia. rewrite Z.abs_eq; nia. }
  assert (Hmag : Z.abs (d - e*c) * b + Z.abs c * (a - e*b) = p).
  { rewrite Habs. nia. }
  assert (Hec : Z.abs (e*c) = e * Z.abs c) by (rewrite Z.abs_mul, (Z.abs_eq e); lia).
  pose proof (Z.abs_nonneg d) as Hd0. pose proof (Z.abs_nonneg c) as Hc0. pose proof (Z.abs_nonneg (d - e*c)) as Hn0.
  split.
  { constructor; try lia.
    - destruct Hc as [x Hx]; destruct Hd as [y Hy]. exists (y - e * x).
      transitivity ((d * v - a) - e * (c * v - b)); [ring|rewrite Hx, Hy; ring].
    - assumption.
    - clear - Hm Ha Hb Hd0 Hc0. nia.
    - rewrite Z.gcd_comm. rewrite <- Hg.
      replace (a - e*b) with (a mod b) by lia.
      rewrite Z.gcd_mod by lia. apply Z.gcd_comm. }
  assert (Z.abs (d - e * c) <= p) by nia.
  repeat split; try lia; nia.
Qed.

Lemma mpi_step w p v a b c d k : 1 <= w -> p < 2 ^ (w-1) -> inv p v a b c d -> b <> 0 ->
  mpi_loop (S k) w a b c d = mpi_loop k w b (a - a / b * b) (d - a / b * c) c.
Proof.
  intros Hw Hp Hi Hb.
  destruct (step_inv _ _ _ _ _ _ Hi Hb) as (Hi' & He & Heb & Hr & Hec & Hc').
  assert (Hq : Z.quot a b = a / b) by (apply Z.quot_div_nonneg; destruct Hi; lia).
  cbn [mpi_loop]. destruct (Z.eqb_spec b 0); [contradiction|].
  rewrite Hq. rewrite (chk_some w (a/b)) by lia. cbn [obind].
  rewrite (chk_some w (a/b*b)) by lia. cbn [obind].
  rewrite (chk_some w (a - a/b*b)) by (destruct Hi; lia). cbn [obind].
  rewrite (chk_some w (a/b*c)) by lia. cbn [obind].
  rewrite (chk_some w (d - a/b*c)) by lia. cbn [obind]. reflexivity.
Qed.

Lemma mpi_stop w p v a c d k : inv p v a 0 c d ->
  mpi_loop (S k) w a 0 c d = Some d /\ Z.abs d <= p /\ (p | d * v - Z.gcd p v).
Proof.
  intros Hi. destruct Hi. split; [reflexivity|]. split; [assumption|].
  rewrite <- i_gcd0, Z.gcd_0_r, Z.abs_eq by lia. assumption.
Qed.

(* b halves at least every two iterations *)
Lemma loop_ok p v w : 1 <= w -> p < 2 ^ (w-1) ->
  forall n a b c d, inv p v a b c d -> b < 2 ^ (Z.of_nat n) ->
  exists d', mpi_loop (S (2 * n)) w a b c d = Some d' /\
   Z.abs d' <= p /\ (p | d' * v - Z.gcd p v).
Proof.
  intros Hw Hpw n. induction n as [|n IH]; intros a b c d Hi Hlt.
  - assert (b = 0) by (destruct Hi; simpl in Hlt; lia). subst b.
    exists d. eapply mpi_stop; eauto.
  - destruct (Z.eq_dec b 0) as [->|Hb].
    { exists d. eapply mpi_stop; eauto. }
    replace (2 * S n)%nat with (S (S (2 * n))) by lia.
    erewrite mpi_step by eauto.
    destruct (step_inv _ _ _ _ _ _ Hi Hb) as (Hi1 & _ & _ & Hr1 & _).
    set (b1 := a - a / b * b) in *. set (c1 := d - a / b * c) in *.
    destruct (Z.eq_dec b1 0) as [E|Hb1].
    { rewrite E in *. exists c. eapply mpi_stop; eauto. }
    erewrite mpi_step by eauto.
    destruct (step_inv _ _ _ _ _ _ Hi1 Hb1) as (Hi2 & He2 & _ & Hr2 & _).
    apply IH; [assumption|].
    rewrite Nat2Z.inj_succ, Z.pow_succ_r in Hlt by lia.
    assert (1 <= b / b1) by (apply Z.div_le_lower_bound; lia). nia.
Qed.

Lemma mod_p_inverse_ok w out val p :
  2 <= w -> 0 < out <= w - 1 -> 1 < p -> p < 2 ^ out -> - 2 ^ (w-1) <= val < 2 ^ (w-1) ->
  exists x, mod_p_inverse w out val p = Some x /\ 0 <= x <= p /\ (p | x * val - Z.gcd p val).
Proof.
  intros Hw Hout Hp Hpo Hval.
  assert (Hpw : p < 2 ^ (w-1)).
  { eapply Z.lt_le_trans; [eassumption|]. apply Z.pow_le_mono_r; lia. }
  unfold mod_p_inverse. destruct (Z.eqb_spec p 0); [lia|].
  pose proof (Z.rem_bound_abs val p ltac:(lia)) as Hrem.
  assert (Hrb : -p < Z.rem val p < p) by lia.
  pose proof (Z.quot_rem val p ltac:(lia)) as Hqr.
  rewrite land_sign by lia.
  set (b := Z.rem val p + (if Z.rem val p <? 0 then p else 0)).
  assert (Hb : 0 <= b < p).
  { unfold b. destruct (Z.ltb_spec (Z.rem val p) 0); lia. }
  assert (Hbv : (p | val - b)).
  { unfold b. destruct (Z.ltb_spec (Z.rem val p) 0).
    - exists (Z.quot val p - 1). lia.
    - exists (Z.quot val p). lia. }
  rewrite chk_some by lia. cbn [obind].
  assert (Hinv : inv p val p b 1 0).
  { constructor; try lia.
    - replace (1 * val - b) with (val - b) by lia. assumption.
    - exists (-1). lia.
    - destruct Hbv as [q Hq]. replace val with (b + q * p) by lia.
      rewrite Z.gcd_add_mult_diag_r. reflexivity. }
  destruct (loop_ok p val w ltac:(lia) Hpw (Z.to_nat w) p b 1 0 Hinv) as (d & Hl & Hd & Hdv).
  { rewrite Z2Nat.id by lia. eapply Z.lt_trans; [apply Hb|].
    eapply Z.lt_le_trans; [eassumption|]. apply Z.pow_le_mono_r; lia. }
  replace (Z.to_nat (2 * w + 2)) with (S (S (2 * Z.to_nat w))) by lia.
  assert (Hmono : forall k a b c d r, mpi_loop k w a b c d = Some r -> mpi_loop (S k) w a b c d = Some r).
  { clear. induction k as [|k IH]; intros a b c d r Hk; [discriminate|].
    cbn [mpi_loop] in Hk. cbn [mpi_loop]. destruct (b =? 0); [assumption|].
    unfold obind in *.
    repeat match type of Hk with match ?o with _ => _ end = _ => destruct o; [|discriminate] end.
    apply IH in Hk. exact Hk. }
  rewrite (Hmono _ _ _ _ _ _ Hl). cbn [obind].
  assert (Hd2 : - 2 ^ (w-1) <= d < 2 ^ (w-1)) by lia.
  rewrite land_sign by lia.
  set (d' := d + (if d <? 0 then p else 0)).
  assert (Hd' : 0 <= d' <= p) by (unfold d'; destruct (Z.ltb_spec d 0); lia).
  rewrite chk_some by lia. cbn [obind].
  assert (p < 2 ^ out) by assumption.
  rewrite Z.mod_small by lia.
  exists d'. split; [reflexivity|]. split; [assumption|].
  unfold d'. destruct (Z.ltb_spec d 0).
  - destruct Hdv as [q Hq]. exists (q + val).
    transitivity ((d * val - Z.gcd p val) + p * val); [ring|rewrite Hq; ring].
  - rewrite Z.add_0_r. assumption.
Qed.

Lemma mod_p_inverse_prime w out val p :
  2 <= w -> 0 < out <= w - 1 -> prime p -> p < 2 ^ out -> - 2 ^ (w-1) <= val < 2 ^ (w-1) ->
  ~ (p | val) ->
  exists x, mod_p_inverse w out val p = Some x /\ 0 < x < p /\ (x * val) mod p = 1.
Proof.
  intros Hw Hout Hp Hpo Hval Hnd.
  pose proof (prime_ge_2 _ Hp).
  destruct (mod_p_inverse_ok w out val p Hw Hout ltac:(lia) Hpo Hval) as (x & Hx & Hr & Hd).
  assert (Hg : Z.gcd p val = 1).
  { apply Zgcd_1_rel_prime. apply prime_rel_prime; assumption. }
  rewrite Hg in Hd. exists x. split; [assumption|].
  assert (Hm : (x * val) mod p = 1).
  { destruct Hd as [q Hq]. replace (x * val) with (1 + q * p) by lia.
    rewrite Z.mod_add by lia. apply Z.mod_small. lia. }
  split; [|assumption].
  assert (x <> 0). { intros ->. simpl in Hm. rewrite Z.mod_0_l in Hm; lia. }
  assert (x <> p). { intros ->. rewrite Z.mul_comm, Z.mod_mul in Hm; lia. }
  lia.
Qed.

(* value returned when p divides val: the function does not fail, it returns 0 *)
Lemma mod_p_inverse_zero w out val p :
  2 <= w -> 0 < out <= w - 1 -> 1 < p -> p < 2 ^ out -> - 2 ^ (w-1) <= val < 2 ^ (w-1) ->
  (p | val) -> mod_p_inverse w out val p = Some 0.
Proof.
  intros Hw Hout Hp Hpo Hval [q Hq].
  assert (Hpw : p < 2 ^ (w-1)).
  { eapply Z.lt_le_trans; [eassumption|]. apply Z.pow_le_mono_r; lia. }
  unfold mod_p_inverse. destruct (Z.eqb_spec p 0); [lia|].
  assert (Hr : Z.rem val p = 0). { subst val. apply Z.rem_mul. lia. }
  rewrite Hr, Z.shiftr_0_l, Z.land_0_l. rewrite chk_some by lia. cbn [obind].
  replace (Z.to_nat (2 * w + 2)) with (S (S (2 * Z.to_nat w))) by lia.
  cbn [mpi_loop]. change (0 + 0 =? 0) with true. cbn [obind].
  rewrite Z.shiftr_0_l, Z.land_0_l. rewrite chk_some by lia. cbn [obind].
  rewrite Z.mod_0_l; [reflexivity|]. apply Z.pow_nonzero; lia.
Qed.
