(** Proofs about the output boxes. *)
From Coq Require Import ZArith List Arith Bool Lia Lra Reals.
From Verif Require Import ModInvModel PolySpec PolyProofs TaylorModel TaylorProofs DescModel IsolSpec IsolModel IsolProofs IsolBisProofs IsolBoundProofs
  IsolSepProofs IsolTermProofs EvalModel EvalProofs RefineModel RefineProofs RefineRunProofs BoxModel.
Import ListNotations.
Open Scope R_scope.

(** ** Rounded division *)
Lemma floor_le a b : b <> 0%Z -> IZR (a / b) <= IZR a / IZR b.
Proof.
  intros H. pose proof (Z.div_mod a b H) as E. set (q := (a / b)%Z) in *. set (r := (a mod b)%Z) in *. assert (Hb : IZR b <> 0) by (apply not_0_IZR; assumption).
  replace (IZR a / IZR b) with (IZR q + IZR r / IZR b) by (rewrite E, plus_IZR, mult_IZR; field; assumption).
  assert (0 <= IZR r / IZR b); [|lra]. destruct (Z.lt_trichotomy b 0) as [K|[K|K]]; [|contradiction|].
  - pose proof (Z.mod_neg_bound a b K) as M. fold r in M. replace (IZR r / IZR b) with (IZR (- r) * / IZR (- b)) by (rewrite !opp_IZR; field; assumption).
    apply Rmult_le_pos; [apply IZR_le; lia|]. left. apply Rinv_0_lt_compat, IZR_lt. lia.
  - pose proof (Z.mod_pos_bound a b K) as M. fold r in M. apply Rmult_le_pos; [apply IZR_le; lia|]. left. apply Rinv_0_lt_compat, IZR_lt. lia.
Qed.
Lemma ceil_ge a b : b <> 0%Z -> IZR a / IZR b <= IZR (- (- a / b)).
Proof. intros H. pose proof (floor_le (- a) b H) as K. rewrite opp_IZR in *. unfold Rdiv in *. rewrite <- Ropp_mult_distr_l in K. lra. Qed.

Lemma frac_le a b c d : 0 < b -> 0 < d -> a * d <= c * b -> a / b <= c / d.
Proof.
  intros Hb Hd H. apply Rmult_le_reg_r with (b * d); [apply Rmult_lt_0_compat; assumption|]. replace (a / b * (b * d)) with (a * d) by (field; lra). replace (c / d * (b * d)) with (c * b) by (field; lra). assumption.
Qed.
Lemma quot_bounds dd du vdo vup V W : 0 < dd -> dd <= W <= du -> vdo <= V <= vup ->
  (0 <= vdo -> vdo / du <= V / W) /\ (vdo <= 0 -> vdo / dd <= V / W) /\ (0 <= vup -> V / W <= vup / dd) /\ (vup <= 0 -> V / W <= vup / du).
Proof.
  intros Hd HW HV. repeat split; intros H; (apply frac_le; [lra|lra|]).
  - apply Rmult_le_compat; lra.
  - apply Rle_trans with (vdo * dd); [|apply Rmult_le_compat_r; lra]. pose proof (Rmult_le_compat_l (- vdo) dd W ltac:(lra) ltac:(lra)). lra.
  - apply Rle_trans with (vup * dd); [apply Rmult_le_compat_r; lra|apply Rmult_le_compat_l; lra].
  - apply Rle_trans with (vup * du); [apply Rmult_le_compat_r; lra|]. pose proof (Rmult_le_compat_l (- vup) W du ltac:(lra) ltac:(lra)). lra.
Qed.
Lemma fdiv_ok a b q : fdiv a b = Some q -> IZR q <= IZR a / IZR b.
Proof. unfold fdiv. destruct (Z.eqb_spec b 0); [discriminate|]. intros [= <-]. apply floor_le. assumption. Qed.
Lemma cdiv_ok a b q : cdiv a b = Some q -> IZR a / IZR b <= IZR q.
Proof. unfold cdiv. destruct (Z.eqb_spec b 0); [discriminate|]. intros [= <-]. apply ceil_ge. assumption. Qed.

Lemma neg_quot a b : b <> 0 -> a / b = (- a) / (- b).
Proof. intros. field. assumption. Qed.
Lemma box_quot_ok dd du vdo vup cf q V W : (0 < cf)%Z -> (0 < dd)%Z \/ (du < 0)%Z -> IZR dd <= W <= IZR du -> IZR vdo <= V <= IZR vup ->
  box_quot dd du vdo vup cf = Some q -> IZR (fst q) <= V / (W * IZR cf) <= IZR (snd q).
Proof.
  intros Hc Hd HW HV E. assert (C : 0 < IZR cf) by (apply IZR_lt; assumption).
  assert (Dle : (dd <= du)%Z) by (apply le_IZR; lra). assert (Vle : (vdo <= vup)%Z) by (apply le_IZR; lra).
  unfold box_quot in E. destruct Hd as [Hd|Hd].
  - apply IZR_lt in Hd as Hd'. destruct (Z.leb_spec 0 dd); [|lia]. destruct (Z.leb_spec 0 du); [|lia]. cbn [andb] in E.
    destruct (quot_bounds (IZR dd * IZR cf) (IZR du * IZR cf) (IZR vdo) (IZR vup) V (W * IZR cf)) as (Q1 & Q2 & Q3 & Q4).
    { apply Rmult_lt_0_compat; assumption. } { split; apply Rmult_le_compat_r; lra. } { assumption. }
    rewrite <- !mult_IZR in Q1, Q2, Q3, Q4.
    destruct (Z.leb_spec vdo 0) as [A|A]; [destruct (Z.leb_spec vup 0) as [B|B]; [|destruct (Z.leb_spec 0 vup) as [B'|B']; [|lia]]|]; cbn [andb] in E.
    + destruct (fdiv vdo (dd * cf)) as [v1|] eqn:E1; [cbn [obind] in E|discriminate]. destruct (cdiv vup (du * cf)) as [v2|] eqn:E2; [cbn [obind] in E|discriminate]. injection E as <-. cbn [fst snd].
      apply fdiv_ok in E1. apply cdiv_ok in E2. apply IZR_le in A, B. specialize (Q2 A). specialize (Q4 B). lra.
    + destruct (fdiv vdo (dd * cf)) as [v1|] eqn:E1; [cbn [obind] in E|discriminate]. destruct (cdiv vup (dd * cf)) as [v2|] eqn:E2; [cbn [obind] in E|discriminate]. injection E as <-. cbn [fst snd].
      apply fdiv_ok in E1. apply cdiv_ok in E2. apply IZR_le in A, B'. specialize (Q2 A). specialize (Q3 B'). lra.
    + destruct (fdiv vdo (du * cf)) as [v1|] eqn:E1; [cbn [obind] in E|discriminate]. destruct (cdiv vup (dd * cf)) as [v2|] eqn:E2; [cbn [obind] in E|discriminate]. injection E as <-. cbn [fst snd].
      apply fdiv_ok in E1. apply cdiv_ok in E2. assert (A1 : (0 <= vdo)%Z) by lia. assert (A2 : (0 <= vup)%Z) by lia. apply IZR_le in A1, A2. specialize (Q1 A1). specialize (Q3 A2). lra.
  - apply IZR_lt in Hd as Hd'. assert (En : ((0 <=? dd)%Z && (0 <=? du)%Z)%bool = false) by (destruct (Z.leb_spec 0 du); [lia|apply andb_false_r]). rewrite En in E.
    assert (Wn : W * IZR cf < 0). { pose proof (Rmult_lt_0_compat (- W) (IZR cf) ltac:(lra) C). lra. }
    assert (Dn : IZR (dd * cf) < 0) by (apply IZR_lt; nia). assert (Un : IZR (du * cf) < 0) by (apply IZR_lt; nia).
    destruct (quot_bounds (- (IZR (du * cf))) (- (IZR (dd * cf))) (- IZR vup) (- IZR vdo) (- V) (- (W * IZR cf))) as (Q1 & Q2 & Q3 & Q4).
    { lra. } { rewrite !mult_IZR. split; apply Ropp_le_contravar; apply Rmult_le_compat_r; lra. } { lra. }
    rewrite <- !neg_quot in Q1, Q2, Q3, Q4 by lra.
    destruct (Z.leb_spec vdo 0) as [A|A]; [destruct (Z.leb_spec vup 0) as [B|B]; [|destruct (Z.leb_spec 0 vup) as [B'|B']; [|lia]]|]; cbn [andb] in E.
    + destruct (fdiv vup (dd * cf)) as [v1|] eqn:E1; [cbn [obind] in E|discriminate]. destruct (cdiv vdo (du * cf)) as [v2|] eqn:E2; [cbn [obind] in E|discriminate]. injection E as <-. cbn [fst snd].
      apply fdiv_ok in E1. apply cdiv_ok in E2. apply IZR_le in A, B. specialize (Q1 ltac:(lra)). specialize (Q3 ltac:(lra)). lra.
    + destruct (fdiv vup (du * cf)) as [v1|] eqn:E1; [cbn [obind] in E|discriminate]. destruct (cdiv vdo (du * cf)) as [v2|] eqn:E2; [cbn [obind] in E|discriminate]. injection E as <-. cbn [fst snd].
      apply fdiv_ok in E1. apply cdiv_ok in E2. apply IZR_le in A, B'. specialize (Q2 ltac:(lra)). specialize (Q3 ltac:(lra)). lra.
    + destruct (fdiv vup (du * cf)) as [v1|] eqn:E1; [cbn [obind] in E|discriminate]. destruct (cdiv vdo (dd * cf)) as [v2|] eqn:E2; [cbn [obind] in E|discriminate]. injection E as <-. cbn [fst snd].
      apply fdiv_ok in E1. apply cdiv_ok in E2. assert (A1 : (0 <= vdo)%Z) by lia. assert (A2 : (0 <= vup)%Z) by lia. apply IZR_le in A1, A2. specialize (Q2 ltac:(lra)). specialize (Q4 ltac:(lra)). lra.
Qed.
Lemma box_quot_some dd du vdo vup cf : cf <> 0%Z -> dd <> 0%Z -> du <> 0%Z -> exists q, box_quot dd du vdo vup cf = Some q.
Proof.
  intros Hc Hd Hu. assert (D1 : (dd * cf =? 0)%Z = false) by (apply Z.eqb_neq; intros K; apply Z.mul_eq_0 in K; tauto). assert (D2 : (du * cf =? 0)%Z = false) by (apply Z.eqb_neq; intros K; apply Z.mul_eq_0 in K; tauto).
  unfold box_quot, fdiv, cdiv. rewrite D1, D2. cbn [obind]. repeat match goal with |- exists q, (if ?b then _ else _) = _ => destruct b end; eauto.
Qed.

(** ** Scaling by powers of two with rounding *)
Lemma shift_down a corr e (y : R) : (0 <= corr)%Z -> (0 <= e)%Z -> IZR a <= p2 e * y -> IZR (a * 2 ^ corr / 2 ^ e) <= p2 corr * y.
Proof.
  intros Hc He H. assert (P : (2 ^ e <> 0)%Z) by (pose proof (Z.pow_pos_nonneg 2 e); lia). eapply Rle_trans; [apply floor_le; assumption|]. rewrite mult_IZR, !pow2_IZR by assumption.
  pose proof (p2_pos e). pose proof (p2_pos corr). apply Rmult_le_reg_r with (p2 e); [assumption|]. replace (IZR a * p2 corr / p2 e * p2 e) with (p2 corr * IZR a) by (field; lra).
  replace (p2 corr * y * p2 e) with (p2 corr * (p2 e * y)) by ring. apply Rmult_le_compat_l; lra.
Qed.
Lemma shift_up a corr e (y : R) : (0 <= corr)%Z -> (0 <= e)%Z -> p2 e * y <= IZR a -> p2 corr * y <= IZR (cdiv_2exp (a * 2 ^ corr) e).
Proof.
  intros Hc He H. unfold cdiv_2exp. rewrite opp_IZR. replace (- (a * 2 ^ corr))%Z with (- a * 2 ^ corr)%Z by ring.
  pose proof (shift_down (- a) corr e (- y) Hc He) as K. rewrite opp_IZR in K. specialize (K ltac:(lra)). lra.
Qed.

(** ** Table of powers *)
Lemma powers_length cnt : forall i n c a b, length (powers cnt i n c a b) = cnt.
Proof. induction cnt as [|cnt IH]; intros; cbn [powers length]; [reflexivity|]. rewrite IH. reflexivity. Qed.
Lemma scale_length l : forall i k corr, length (scale_powers l i k corr) = length l.
Proof. induction l as [|r l IH]; intros; cbn [scale_powers length]; [reflexivity|]. rewrite IH. reflexivity. Qed.
Definition pow_inv (n : Z) (i : nat) (X : R) (a b : Z) : Prop :=
  IZR a <= X ^ i <= IZR b /\ (if (0 <=? n)%Z then (0 <= a)%Z else if Nat.even i then (0 <= a)%Z else (b <= 0)%Z).
Lemma powers_ok (X : R) n : IZR n <= X <= IZR (n + 1) -> forall cnt i a b, pow_inv n i X a b ->
  forall j, (j < cnt)%nat -> let r := nth j (powers cnt (Z.of_nat i + 1) n (n + 1) a b) (0, 0)%Z in IZR (fst r) <= X ^ (i + 1 + j) <= IZR (snd r).
Proof.
  intros HX. induction cnt as [|cnt IH]; intros i a b Hi j Hj; [lia|]. cbn [powers].
  set (r := if (0 <=? n)%Z then (a * n, b * (n + 1))%Z else if Z.odd (Z.of_nat i + 1) then (b * n, a * (n + 1))%Z else (b * (n + 1), a * n)%Z).
  assert (Hr : pow_inv n (S i) X (fst r) (snd r)).
  { destruct Hi as [Hi Hs]. unfold pow_inv. cbn [pow]. rewrite plus_IZR in HX. 
    assert (Oe : Z.odd (Z.of_nat i + 1) = Nat.even i).
    { replace (Z.of_nat i + 1)%Z with (Z.succ (Z.of_nat i)) by lia. rewrite Z.odd_succ. destruct (Nat.even i) eqn:Ev.
      - apply Nat.even_spec in Ev. destruct Ev as [m ->]. apply Z.even_spec. exists (Z.of_nat m). lia.
      - destruct (Z.even (Z.of_nat i)) eqn:Ez; [|reflexivity]. apply Z.even_spec in Ez. destruct Ez as [m Em]. assert (Nat.even i = true); [|congruence]. apply Nat.even_spec. exists (Z.to_nat m). lia. }
    unfold r. rewrite Oe, Nat.even_succ, <- Nat.negb_even. destruct (Z.leb_spec 0 n) as [N|N]; cbn [fst snd].
    - apply IZR_le in N as N'. assert (A' : 0 <= IZR a) by (apply IZR_le; assumption). rewrite !mult_IZR, plus_IZR. split; [|nia]. rewrite (Rmult_comm (IZR a)), (Rmult_comm (IZR b)). split; apply Rmult_le_compat; lra.
    - assert (N' : IZR n + 1 <= 0) by (rewrite <- plus_IZR; apply IZR_le; lia). destruct (Nat.even i); cbn [negb fst snd].
      + assert (A' : 0 <= IZR a) by (apply IZR_le; assumption). rewrite !mult_IZR, plus_IZR. split.
        * split.
          -- pose proof (Rmult_le_compat (- X) (- IZR n) (X ^ i) (IZR b) ltac:(lra) ltac:(lra) ltac:(lra) ltac:(lra)). lra.
          -- pose proof (Rmult_le_compat (- (IZR n + 1)) (- X) (IZR a) (X ^ i) ltac:(lra) ltac:(lra) ltac:(lra) ltac:(lra)). lra.
        * nia.
      + assert (B' : IZR b <= 0) by (apply IZR_le; assumption). rewrite !mult_IZR, plus_IZR. split.
        * split.
          -- pose proof (Rmult_le_compat (- (IZR n + 1)) (- X) (- IZR b) (- X ^ i) ltac:(lra) ltac:(lra) ltac:(lra) ltac:(lra)). lra.
          -- pose proof (Rmult_le_compat (- X) (- IZR n) (- X ^ i) (- IZR a) ltac:(lra) ltac:(lra) ltac:(lra) ltac:(lra)). lra.
        * nia. }
  destruct j as [|j]; cbn [nth].
  - replace (i + 1 + 0)%nat with (S i) by lia. apply Hr.
  - replace (Z.of_nat i + 1 + 1)%Z with (Z.of_nat (S i) + 1)%Z by lia. replace (i + 1 + S j)%nat with (S i + 1 + j)%nat by lia. apply IH; [assumption|lia].
Qed.
Lemma scale_nth k corr : forall l i j, (j < length l)%nat -> nth j (scale_powers l i k corr) (0, 0)%Z =
  (let r := nth j l (0, 0) in (fst r * 2 ^ corr / 2 ^ (k * (i + Z.of_nat j)), cdiv_2exp (snd r * 2 ^ corr) (k * (i + Z.of_nat j))))%Z.
Proof.
  induction l as [|r l IH]; intros i j Hj; [cbn in Hj; lia|]. cbn [scale_powers]. destruct j as [|j]; cbn [nth].
  - replace (i + Z.of_nat 0)%Z with i by lia. reflexivity.
  - rewrite IH by (cbn [length] in Hj; lia). replace (i + 1 + Z.of_nat j)%Z with (i + Z.of_nat (S j))%Z by lia. reflexivity.
Qed.
Lemma table_length rt ns corr : (1 <= ns)%Z -> length (table_full rt ns corr) = Z.to_nat ns.
Proof. intros H. unfold table_full. cbn [length]. rewrite scale_length, powers_length. lia. Qed.
Lemma table_ok rt ns corr x : (0 <= corr)%Z -> (0 <= ik rt)%Z -> (1 <= ns)%Z -> IZR (numer rt) <= p2 (ik rt) * x <= IZR (numer rt + 1) ->
  forall j, (j < Z.to_nat ns)%nat -> IZR (nth j (map fst (table_full rt ns corr)) 0%Z) <= p2 corr * x ^ j <= IZR (nth j (map snd (table_full rt ns corr)) 0%Z).
Proof.
  intros Hc Hk Hn Hx j Hj. rewrite (map_nth fst _ (0, 0)%Z j : nth j (map fst _) 0%Z = _), (map_nth snd _ (0, 0)%Z j : nth j (map snd _) 0%Z = _). unfold table_full. destruct j as [|j]; cbn [nth fst snd].
  - rewrite pow2_IZR by assumption. cbn [pow]. lra.
  - rewrite scale_nth by (rewrite powers_length; lia). cbv zeta. cbn [fst snd].
    assert (I0 : pow_inv (numer rt) 0 (p2 (ik rt) * x) 1 1) by (split; [cbn [pow]; lra|destruct (0 <=? numer rt)%Z; cbn; lia]).
    pose proof (powers_ok (p2 (ik rt) * x) (numer rt) Hx (Z.to_nat ns - 1) 0 1 1 I0 j ltac:(lia)) as P. cbv zeta in P. change (Z.of_nat 0 + 1)%Z with 1%Z in P. cbn [Nat.add] in P.
    set (r := nth j _ _) in *. rewrite Rpow_mult_distr in P. replace (p2 (ik rt) ^ S j) with (p2 (ik rt * (1 + Z.of_nat j))) in P.
    2:{ rewrite <- p2_muln. f_equal. lia. }
    assert (0 <= ik rt * (1 + Z.of_nat j))%Z by (apply Z.mul_nonneg_nonneg; lia). split; [apply shift_down|apply shift_up]; try assumption; apply P.
Qed.

(** ** The denominator *)
Lemma same_side_succ n : same_side n (n + 1).
Proof. unfold same_side. lia. Qed.
Lemma newvalue_some d r k corr : exists dn up b, newvalue_denom d r k corr = Some (dn, up, b).
Proof.
  unfold newvalue_denom. destruct (eval_interval_total d k r (r + 1) (same_side_succ r)) as (dn & up & s & -> & L). cbn [obind]. destruct (Z.ltb_spec up dn); [lia|]. eauto.
Qed.
Lemma newvalue_ok d r k corr dn up x : d <> [] -> (0 <= corr)%Z -> (0 <= k)%Z -> newvalue_denom d r k corr = Some (dn, up, false) -> steady d k r (r + 1) ->
  IZR r <= p2 k * x <= IZR (r + 1) -> IZR dn <= p2 corr * zeval d x <= IZR up /\ ((0 < dn)%Z \/ (up < 0)%Z).
Proof.
  intros Hd Hc Hk E St Hx. unfold newvalue_denom in E. destruct (eval_interval d k r (r + 1)) as [[[a b] s]|] eqn:Ee; [cbn [obind] in E|discriminate]. destruct (Z.ltb_spec b a) as [|Lab]; [discriminate|].
  set (e := (k * (Z.of_nat (length d) - 1))%Z) in *. injection E as E1 E2 E3. apply orb_false_elim in E3. destruct E3 as [E3 Nu]. apply orb_false_elim in E3. destruct E3 as [Es Nd].
  pose proof (p2_pos k) as Pk. assert (Hl : (0 < length d)%nat) by (destruct d; [contradiction|cbn; lia]).
  assert (Hx' : IZR r / p2 k <= x <= IZR (r + 1) / p2 k).
  { split; [apply Rmult_le_reg_l with (p2 k); [assumption|]; replace (p2 k * (IZR r / p2 k)) with (IZR r) by (field; lra); lra|
            apply Rmult_le_reg_l with (p2 k); [assumption|]; replace (p2 k * (IZR (r + 1) / p2 k)) with (IZR (r + 1)) by (field; lra); lra]. }
  pose proof (eval_interval_ok d k r (r + 1) a b s x Hk (same_side_succ r) St Ee Hx') as B. rewrite <- p2_muln in B.
  replace (Z.of_nat (length d - 1) * k)%Z with e in B by (unfold e; rewrite Nat2Z.inj_sub by lia; ring). assert (He : (0 <= e)%Z) by (unfold e; apply Z.mul_nonneg_nonneg; lia).
  assert (Bd : IZR dn <= p2 corr * zeval d x <= IZR up) by (rewrite <- E1, <- E2; split; [apply shift_down|apply shift_up]; try assumption; apply B).
  split; [exact Bd|].
  assert (Sg : Z.sgn a = Z.sgn b \/ s = true).
  { unfold eval_interval in Ee. destruct (rev d) as [|l0 [|l1 l]]; [injection Ee as <- <- <-; left; reflexivity|injection Ee as <- <- <-; left; reflexivity|].
    destruct (_ && _)%bool; [discriminate|]. destruct (itv_loop _ _ _ _ _ _ _) as [[q1 q2]|]; [cbn [obind fst snd] in Ee|discriminate]. injection Ee as <- <- <-. destruct (Z.eqb_spec (Z.sgn q1) (Z.sgn q2)); auto. }
  destruct Sg as [Sg|Sg]; [|congruence].
  assert (P2 : (0 < 2 ^ corr)%Z) by (apply Z.pow_pos_nonneg; lia). assert (P3 : (0 < 2 ^ e)%Z) by (apply Z.pow_pos_nonneg; lia).
  assert (Nd' : dn <> 0%Z) by (intros K; rewrite E1, K in Nd; discriminate). assert (Nu' : up <> 0%Z) by (intros K; rewrite E2, K in Nu; discriminate).
  destruct (Z.lt_trichotomy a 0) as [A|[A|A]].
  - right. assert (b < 0)%Z by (destruct a, b; cbn in *; lia). assert (K : (up <= 0)%Z); [|lia]. rewrite <- E2. unfold cdiv_2exp. assert (0 <= - (b * 2 ^ corr) / 2 ^ e)%Z by (apply Z.div_pos; nia). lia.
  - exfalso. apply Nd'. rewrite <- E1, A. reflexivity.
  - left. assert (K : (0 <= dn)%Z); [|lia]. rewrite <- E1. apply Z.div_pos; nia.
Qed.

(** ** Coordinates *)
Definition in_box (b : box) (y : R) : Prop := IZR (val_do b) * p2 (- k_do b) <= y <= IZR (val_up b) * p2 (- k_up b).
Definition coord_at (p : param) (x : R) (vc : list Z * Z) : R := - zeval (fst vc) x / (IZR (snd vc) * zeval (denom p) x).
Lemma unscale a b (y : R) e : IZR a <= y * p2 e <= IZR b -> IZR a * p2 (- e) <= y <= IZR b * p2 (- e).
Proof.
  intros H. pose proof (p2_pos (- e)) as P. assert (E : y = y * p2 e * p2 (- e)) by (rewrite Rmult_assoc, <- p2_add; replace (e + - e)%Z with 0%Z by ring; rewrite p2_0; ring).
  rewrite E. split; apply Rmult_le_compat_r; lra.
Qed.
Lemma exact_coord_ok p rt prec vc b : denom p <> [] -> (0 <= ik rt)%Z -> fst vc <> [] ->
  exact_coord p rt (eval_2exp (denom p) (numer rt) (ik rt)) prec vc = Some b -> in_box b (coord_at p (IZR (numer rt) * p2 (- ik rt)) vc).
Proof.
  intros Hd Hk Hv E. unfold exact_coord in E. set (exp := (ik rt * (Z.of_nat (length (denom p)) - Z.of_nat (length (fst vc))))%Z) in *. destruct (Z.ltb_spec (exp + prec) 0) as [|He]; [discriminate|].
  set (D := eval_2exp (denom p) (numer rt) (ik rt)) in *. set (V := eval_2exp (fst vc) (numer rt) (ik rt)) in *.
  destruct (cdiv (- V * 2 ^ (exp + prec)) (D * snd vc)) as [u|] eqn:Eu; [cbn [obind] in E|discriminate]. destruct (fdiv (- V * 2 ^ (exp + prec)) (D * snd vc)) as [d|] eqn:Ed; [cbn [obind] in E|discriminate]. injection E as <-.
  assert (N : (D * snd vc <> 0)%Z) by (unfold fdiv in Ed; destruct (Z.eqb_spec (D * snd vc) 0); [discriminate|assumption]).
  apply cdiv_ok in Eu. apply fdiv_ok in Ed. unfold in_box. cbn [val_do k_do val_up k_up]. apply unscale. set (x := IZR (numer rt) * p2 (- ik rt)).
  assert (Ex : IZR (numer rt) / p2 (ik rt) = x) by (unfold x; rewrite p2_inv; reflexivity).
  pose proof (eval_2exp_ok (denom p) (numer rt) (ik rt) Hk) as ED. pose proof (eval_2exp_ok (fst vc) (numer rt) (ik rt) Hk) as EV. fold D in ED. fold V in EV. rewrite Ex, <- p2_muln in ED, EV.
  assert (Ld : (0 < length (denom p))%nat) by (destruct (denom p); [contradiction|cbn; lia]). assert (Lv : (0 < length (fst vc))%nat) by (destruct (fst vc); [contradiction|cbn; lia]).
  assert (G : coord_at p x vc * p2 prec = IZR (- V * 2 ^ (exp + prec)) / IZR (D * snd vc)); [|rewrite G; lra].
  unfold coord_at. assert (N1 : IZR D <> 0) by (apply not_0_IZR; intros K; apply N; rewrite K; ring). assert (N2 : IZR (snd vc) <> 0) by (apply not_0_IZR; intros K; apply N; rewrite K; ring).
  rewrite ED in N1. assert (N3 : zeval (denom p) x <> 0) by (intros K; apply N1; rewrite K; ring).
  rewrite !mult_IZR, opp_IZR, pow2_IZR by assumption. rewrite ED, EV, p2_add. set (A := p2 (Z.of_nat (length (denom p) - 1) * ik rt)) in *. set (B := p2 (Z.of_nat (length (fst vc) - 1) * ik rt)) in *.
  assert (EA : A = p2 exp * B) by (unfold A, B; rewrite <- p2_add; f_equal; unfold exp; nia). assert (B0 : 0 < B) by apply p2_pos. assert (X0 : 0 < p2 exp) by apply p2_pos. rewrite EA. field. repeat split; lra.
Qed.
Lemma opt_map_ok {A B} (f : A -> option B) l r : opt_map f l = Some r -> Forall2 (fun a b => f a = Some b) l r.
Proof.
  revert r. induction l as [|a l IH]; intros r H; cbn [opt_map] in H; [injection H as <-; constructor|]. destruct (f a) as [b|] eqn:E; [cbn [obind] in H|discriminate]. destruct (opt_map f l) as [r'|]; [cbn [obind] in H|discriminate]. injection H as <-. constructor; auto.
Qed.
Lemma opt_map_some {A B} (f : A -> option B) l : (forall a, In a l -> exists b, f a = Some b) -> exists r, opt_map f l = Some r.
Proof.
  induction l as [|a l IH]; intros H; cbn [opt_map]; [eauto|]. destruct (H a (or_introl eq_refl)) as (b & ->). cbn [obind]. destruct IH as (r & ->); [intros; apply H; right; assumption|]. cbn [obind]. eauto.
Qed.
Definition param_ok (p : param) : Prop := denom p <> [] /\ forall vc, In vc (coords p) -> fst vc <> [] /\ (0 < snd vc)%Z.
Definition point (p : param) (x : R) : list R := map (coord_at p x) (coords p) ++ [x].
Lemma single_exact_ok p rt prec l : param_ok p -> (0 <= ik rt)%Z -> single_exact p rt prec = Some l -> Forall2 in_box l (point p (IZR (numer rt) * p2 (- ik rt))).
Proof.
  intros [Hd Hp] Hk E. unfold single_exact in E. destruct (opt_map _ (coords p)) as [l'|] eqn:Em; [cbn [obind] in E|discriminate]. injection E as <-. unfold point. apply Forall2_app.
  - apply opt_map_ok in Em. clear - Hd Hp Hk Em. induction Em as [|vc b cs bs E Em IH]; cbn [map]; constructor; [|apply IH; intros; apply Hp; right; assumption].
    eapply exact_coord_ok; try eassumption. apply Hp. left; reflexivity.
  - constructor; [|constructor]. unfold in_box. cbn [val_do k_do val_up k_up]. lra.
Qed.

Lemma dec_nonneg prec a : (0 <= prec)%Z -> (0 <= (if a <=? 0 then prec - a else prec))%Z.
Proof. intros. destruct (Z.leb_spec a 0); lia. Qed.
Lemma lazy_coord_ok p rt corr dn up prec vc b x : (0 <= prec)%Z -> (0 <= corr)%Z -> (0 <= ik rt)%Z -> (1 <= nsols p)%Z -> fst vc <> [] -> (0 < snd vc)%Z -> (length (fst vc) <= Z.to_nat (nsols p))%nat ->
  IZR (numer rt) <= p2 (ik rt) * x <= IZR (numer rt + 1) -> IZR dn <= p2 corr * zeval (denom p) x <= IZR up -> (0 < dn)%Z \/ (up < 0)%Z ->
  lazy_coord (table_full rt (nsols p) corr) corr dn up prec vc = Some b -> in_box b (coord_at p x vc).
Proof.
  intros Hp Hc Hk Hn Hv Hcf Hl Hx Hd Hs E. unfold lazy_coord in E. set (tab := table_full rt (nsols p) corr) in *.
  destruct (scalar_product_interval (fst vc) (map fst tab) (map snd tab) corr) as [[[vd vu] s]|] eqn:Es; [cbn [obind] in E|discriminate].
  pose proof (scalar_product_ok (fst vc) (map fst tab) (map snd tab) corr vd vu s x Hc Es) as B. specialize (B ltac:(intros j Hj; apply table_ok; try assumption; lia)).
  set (dec := (if _ <=? 0 then _ else _)%Z) in E. assert (Hdec : (0 <= dec)%Z) by (apply dec_nonneg; assumption). clearbody dec.
  destruct (Z.ltb_spec (- vd * 2 ^ dec) (- vu * 2 ^ dec)) as [|Lv]; [discriminate|].
  destruct (box_quot dn up (- vu * 2 ^ dec) (- vd * 2 ^ dec) (snd vc)) as [q|] eqn:Eq; [cbn [obind] in E|discriminate]. injection E as <-. unfold in_box. cbn [val_do k_do val_up k_up]. apply unscale.
  pose proof (p2_pos dec) as Pd. pose proof (p2_pos corr) as Pc.
  pose proof (box_quot_ok dn up (- vu * 2 ^ dec) (- vd * 2 ^ dec) (snd vc) q (- (p2 corr * zeval (fst vc) x) * p2 dec) (p2 corr * zeval (denom p) x) Hcf Hs Hd) as K.
  rewrite !mult_IZR, !opp_IZR, !pow2_IZR in K by assumption. specialize (K ltac:(split; apply Rmult_le_compat_r; lra) Eq).
  assert (N : zeval (denom p) x <> 0). { intros N. rewrite N, Rmult_0_r in Hd. destruct Hs as [Hs|Hs]; apply IZR_lt in Hs; lra. }
  assert (C0 : IZR (snd vc) <> 0) by (apply not_0_IZR; lia).
  replace (coord_at p x vc * p2 dec) with (- (p2 corr * zeval (fst vc) x) * p2 dec / (p2 corr * zeval (denom p) x * IZR (snd vc))); [assumption|]. unfold coord_at. field. repeat split; lra.
Qed.

(** ** One refinement of the interval *)
Definition dyadic (rt : interval) : R := IZR (numer rt) * p2 (- ik rt).
Lemma lo_pos rt : (0 < ik rt)%Z -> record_lo rt = dyadic rt.
Proof. intros H. unfold dyadic. rewrite record_lo_eq, Z.max_r by lia. reflexivity. Qed.
Lemma hi_pos rt : (0 < ik rt)%Z -> record_hi rt = IZR (numer rt + 1) * p2 (- ik rt).
Proof. intros H. rewrite record_hi_eq, lo_pos by assumption. unfold dyadic. rewrite plus_IZR. ring. Qed.
Definition bracket (u : list Z) (rt : interval) : Prop := isexact rt = false /\ (0 < ik rt)%Z /\ zeval u (record_lo rt) * zeval u (record_hi rt) < 0.
Definition refined_to (u : list Z) (rt rt' : interval) : Prop :=
  (bracket u rt' /\ record_lo rt <= record_lo rt' /\ record_hi rt' <= record_hi rt /\ (2 * ik rt <= ik rt')%Z) \/
  (isexact rt' = true /\ (0 <= ik rt')%Z /\ record_lo rt < dyadic rt' < record_hi rt /\ root u (dyadic rt')).
Lemma exact_dyadic s x : isexact (rint s) = true -> (0 <= ik (rint s))%Z -> (forall y, record_set (clear_k (rint s)) y <-> y = x) -> dyadic (rint s) = x.
Proof.
  destruct s as [u [n k e] va vb]. cbn [rint isexact ik]. intros -> K H. apply H. apply record_set_exact. rewrite Z.max_r by assumption. reflexivity.
Qed.
Lemma sub_bracket s s' : (0 < ik (rint s))%Z -> sub_of s s' -> bracket (rpol s) (rint s').
Proof.
  intros K (A1 & (O1 & O2 & O3 & O4) & _ & _ & A5). split; [assumption|]. split; [lia|]. rewrite <- A1. eapply sgn_trans; [exact O2|exact O3|]. rewrite <- mult_IZR. apply IZR_lt. assumption.
Qed.
Lemma refine_qir fuel u rt prec s : refine_pos_root fuel u rt prec = Some s ->
  qir_loop fuel {| rpol := u; rint := rt; rva := fst (values_at_bounds u rt); rvb := snd (values_at_bounds u rt) |} prec 2 = Some s.
Proof.
  unfold refine_pos_root. destruct (_ || _)%bool; [discriminate|]. destruct (qir_loop _ _ _ _) as [s'|]; [cbn [obind]|discriminate]. destruct (_ =? _)%Z; [discriminate|]. intros [= ->]. reflexivity.
Qed.
Lemma lazy_refine_ok p rt : lead_ok (elim p) -> bracket (elim p) rt -> exists rt', refined_to (elim p) rt rt' /\
  exists f0, forall fuel, (f0 <= fuel)%nat -> lazy_refine fuel p rt = Some rt'.
Proof.
  intros Hl (Ex & Hk & Hs). unfold lazy_refine. destruct (Z.leb_spec 0 (numer rt)) as [N|N].
  - destruct (refine_pos_ok (elim p) rt (2 * ik rt) Hl Ex Hs) as (s0 & s & E0 & E1 & R & f0 & F). exists (rint s). split.
    + rewrite <- E0, <- E1 in *. destruct R as [[R K]|(x & R1 & R2 & R3 & R4 & R5 & R6 & R7)].
      * left. split; [apply sub_bracket; assumption|]. destruct R as (_ & _ & R1 & R2 & _). auto.
      * right. split; [assumption|]. split; [lia|]. rewrite (exact_dyadic s x R3 ltac:(lia) R4). auto.
    + exists f0. intros fuel Hf. cbv zeta. rewrite (refine_qir _ _ _ _ _ (F fuel Hf)). reflexivity.
  - set (pos := {| numer := - (numer rt + 1); ik := ik rt; isexact := isexact rt |}). set (u := negate_odd false (elim p)).
    assert (Ev : forall x, zeval u x = zeval (elim p) (- x)) by (intros; apply negate_odd_eval).
    assert (L1 : record_lo pos = - record_hi rt) by (rewrite lo_pos, hi_pos by assumption; unfold dyadic, pos; cbn [numer ik]; rewrite opp_IZR; ring).
    assert (L2 : record_hi pos = - record_lo rt) by (rewrite lo_pos, hi_pos by assumption; unfold dyadic, pos; cbn [numer ik]; rewrite plus_IZR, opp_IZR, plus_IZR; ring).
    destruct (refine_pos_ok u pos (2 * ik rt + nsols p) (negate_odd_lead _ _ Hl) Ex) as (s0 & s & E0 & E1 & R & f0 & F).
    { rewrite !Ev, L1, L2, !Ropp_involutive. lra. }
    exists {| numer := if isexact (rint s) then - numer (rint s) else - (numer (rint s) + 1); ik := ik (rint s); isexact := isexact (rint s) |}. split.
    + assert (Ns : (0 <= nsols p)%Z) by (unfold nsols; destruct Hl as [Hl _]; destruct (elim p); [contradiction|cbn [length]; lia]).
      assert (K0 : ik (rint s0) = ik rt) by (rewrite E1; reflexivity).
      destruct R as [[R K]|(x & R1 & R2 & R3 & R4 & R5 & R6 & R7)].
      * left. pose proof (sub_bracket _ _ ltac:(rewrite K0; assumption) R) as (B1 & B2 & B3). destruct R as (_ & _ & R1 & R2 & _). rewrite E1 in R1, R2. rewrite L1 in R1. rewrite L2 in R2. rewrite E0, !Ev in B3.
        rewrite lo_pos, hi_pos in B3 by assumption. rewrite (lo_pos (rint s)) in R1 by assumption. rewrite (hi_pos (rint s)) in R2 by assumption. rewrite B1. unfold bracket. cbn [isexact ik].
        rewrite lo_pos, hi_pos by assumption. unfold dyadic in *. cbn [numer ik].
        assert (F1 : IZR (- (numer (rint s) + 1)) * p2 (- ik (rint s)) = - (IZR (numer (rint s) + 1) * p2 (- ik (rint s)))) by (rewrite opp_IZR; ring).
        assert (F2 : IZR (- (numer (rint s) + 1) + 1) * p2 (- ik (rint s)) = - (IZR (numer (rint s)) * p2 (- ik (rint s)))) by (rewrite plus_IZR, opp_IZR, plus_IZR; ring).
        rewrite F1, F2. repeat split; try assumption; try lia; try lra.
      * right. rewrite R3. cbn [isexact ik]. split; [reflexivity|]. split; [lia|]. pose proof (exact_dyadic s x R3 ltac:(lia) R4) as D.
        replace (dyadic _) with (- x) by (rewrite <- D; unfold dyadic; cbn [numer ik]; rewrite opp_IZR; ring). rewrite E1, L1, L2 in R1. split; [lra|]. unfold root in *. rewrite <- Ev, <- E0. assumption.
    + exists f0. intros fuel Hf. cbv zeta. rewrite (refine_qir _ _ _ _ _ (F fuel Hf)). reflexivity.
Qed.
Lemma lazy_refine_mono f1 f2 p rt r : (f1 <= f2)%nat -> lazy_refine f1 p rt = Some r -> lazy_refine f2 p rt = Some r.
Proof.
  intros L. unfold lazy_refine. destruct (0 <=? numer rt)%Z; cbv zeta.
  - destruct (qir_loop f1 _ _ _) as [s|] eqn:E; [cbn [obind]|discriminate]. rewrite (qir_mono _ _ _ _ _ _ L E). auto.
  - destruct (qir_loop f1 _ _ _) as [s|] eqn:E; [cbn [obind]|discriminate]. rewrite (qir_mono _ _ _ _ _ _ L E). auto.
Qed.
Lemma lazy_refine_sound fuel p rt r : lead_ok (elim p) -> bracket (elim p) rt -> lazy_refine fuel p rt = Some r -> refined_to (elim p) rt r.
Proof.
  intros Hl B E. destruct (lazy_refine_ok p rt Hl B) as (rt' & R & f0 & F). apply (lazy_refine_mono _ (Nat.max f0 fuel)) in E; [|lia]. rewrite F in E by lia. injection E as <-. assumption.
Qed.

(** ** The loop *)
Definition only_root (u : list Z) (rt : interval) (r : R) : Prop := forall y, record_lo rt < y < record_hi rt -> root u y -> y = r.
Lemma bracket_root u rt r : bracket u rt -> only_root u rt r -> record_lo rt < r < record_hi rt /\ root u r.
Proof.
  intros (Ex & Hk & Hs) U. destruct (ivtR (map IZR u) (record_lo rt) (record_hi rt)) as (z & Hz & Ez); [rewrite record_hi_eq; pose proof (p2_pos (- ik rt)); lra|exact Hs|].
  assert (z = r) by (apply U; assumption). subst z. auto.
Qed.
Lemma refined_only u rt rt' r : bracket u rt -> only_root u rt r -> refined_to u rt rt' -> (isexact rt' = true /\ (0 <= ik rt')%Z /\ dyadic rt' = r) \/ (bracket u rt' /\ only_root u rt' r /\ (2 * ik rt <= ik rt')%Z).
Proof.
  intros B U [(B' & L & H & K)|(Ex & K & I & Z)]; [right|left; auto]. split; [assumption|]. split; [|assumption]. intros y Hy Zy. apply U; [lra|assumption].
Qed.
Lemma lazy_loop_sound p r : lead_ok (elim p) -> forall fuel fuel2 rt corr rt' corr' dn up, bracket (elim p) rt -> only_root (elim p) rt r -> (0 <= corr)%Z ->
  lazy_loop fuel fuel2 p rt corr = Some (rt', corr', (dn, up)) ->
  (isexact rt' = true /\ (0 <= ik rt')%Z /\ dyadic rt' = r) \/
  (bracket (elim p) rt' /\ only_root (elim p) rt' r /\ (0 <= corr')%Z /\ newvalue_denom (denom p) (numer rt') (ik rt') corr' = Some (dn, up, false)).
Proof.
  intros Hl. induction fuel as [|fuel IH]; intros fuel2 rt corr rt' corr' dn up B U Hc E; [discriminate|]. cbn [lazy_loop] in E. rewrite (proj1 B) in E.
  destruct (newvalue_denom (denom p) (numer rt) (ik rt) corr) as [[[d u] boo]|] eqn:En; [cbn [obind] in E|discriminate]. destruct boo; cbn [negb] in E.
  - destruct (lazy_refine fuel2 p rt) as [rt1|] eqn:Er; [cbn [obind] in E|discriminate]. pose proof (lazy_refine_sound _ _ _ _ Hl B Er) as R. destruct (refined_only _ _ _ _ B U R) as [(X1 & X2 & X3)|(B' & U' & K)].
    + rewrite X1 in E. destruct fuel as [|fuel]; [discriminate|]. cbn [lazy_loop] in E. rewrite X1 in E. injection E as <- <- <- <-. left. auto.
    + rewrite (proj1 B') in E. eapply IH; [exact B'|exact U'| |exact E]. lia.
  - injection E as <- <- <- <-. right. auto.
Qed.
Theorem lazy_root_sound fuel fuel2 p rt prec r l : lead_ok (elim p) -> param_ok p -> (1 <= nsols p)%Z -> (0 <= prec)%Z -> (forall vc, In vc (coords p) -> (length (fst vc) <= Z.to_nat (nsols p))%nat) ->
  bracket (elim p) rt -> only_root (elim p) rt r -> lazy_root fuel fuel2 p rt prec = Some l ->
  (forall b, last l {| val_do := 0; k_do := 0; val_up := 0; k_up := 0; bexact := true |} = b -> bexact b = true \/ steady (denom p) (k_do b) (val_do b) (val_up b)) ->
  Forall2 in_box l (point p r).
Proof.
  intros Hl Hp Hn Hpr Hlen B U E St. unfold lazy_root in E. rewrite (proj1 B) in E.
  destruct (lazy_loop fuel fuel2 p rt (2 * (nsols p + ik rt))) as [[[rt' corr] [dn up]]|] eqn:El; [cbn [obind] in E|discriminate].
  assert (C0 : (0 <= 2 * (nsols p + ik rt))%Z) by (destruct B as (_ & B & _); lia).
  destruct (lazy_loop_sound p r Hl _ _ _ _ _ _ _ _ B U C0 El) as [(X1 & X2 & X3)|(B' & U' & Hc & En)].
  - rewrite X1 in E. rewrite <- X3. unfold dyadic. eapply single_exact_ok; eassumption.
  - rewrite (proj1 B') in E. destruct (opt_map _ (coords p)) as [l'|] eqn:Em; [cbn [obind] in E|discriminate]. injection E as <-. rewrite last_last in St. specialize (St _ eq_refl). cbn [bexact k_do val_do val_up] in St. destruct St as [St|St]; [discriminate|].
    destruct (bracket_root _ _ _ B' U') as [Hr _]. destruct B' as (Bx & Bk & _). rewrite lo_pos, hi_pos in Hr by assumption. unfold dyadic in Hr. pose proof (p2_pos (ik rt')) as Pk. 
    assert (Hx : IZR (numer rt') <= p2 (ik rt') * r <= IZR (numer rt' + 1)).
    { assert (I : p2 (ik rt') * p2 (- ik rt') = 1) by (rewrite <- p2_add; replace (ik rt' + - ik rt')%Z with 0%Z by ring; apply p2_0).
      assert (F1 : IZR (numer rt') = p2 (ik rt') * (IZR (numer rt') * p2 (- ik rt'))) by (rewrite (Rmult_comm (IZR _)), <- Rmult_assoc, I; ring).
      assert (F2 : IZR (numer rt' + 1) = p2 (ik rt') * (IZR (numer rt' + 1) * p2 (- ik rt'))) by (rewrite (Rmult_comm (IZR _)), <- Rmult_assoc, I; ring).
      rewrite F1, F2. split; apply Rmult_le_compat_l; lra. }
    assert (K0 : (0 <= ik rt')%Z) by lia. destruct Hp as [Hd Hp]. destruct (newvalue_ok _ _ _ _ _ _ r Hd Hc K0 En St Hx) as [D1 D2]. apply opt_map_ok in Em. apply Forall2_app.
    + clear - Hd Hp Hn Hpr Hlen Em Hc K0 Hx D1 D2. set (tab := table_full rt' (nsols p) corr) in *. revert Hp Hlen Em. generalize (coords p) as cs. intros cs Hp Hlen Em.
      induction Em as [|vc b cs bs E Em IH]; cbn [map]; constructor; [|apply IH; intros; [apply Hp|apply Hlen]; right; assumption].
      destruct (Hp vc (or_introl eq_refl)) as [P1 P2]. specialize (Hlen vc (or_introl eq_refl)). exact (lazy_coord_ok p rt' corr dn up prec vc b r Hpr Hc K0 Hn P1 P2 Hlen Hx D1 D2 E).
    + constructor; [|constructor]. unfold in_box. cbn [val_do k_do val_up k_up]. lra.
Qed.

(** ** Convergence: the bounds of the denominator are close to its value, even where they fail to enclose it *)
Fixpoint hf (l : list Z) (v x : R) : R := match l with [] => v | c :: l' => hf l' (v * x + IZR c) x end.
Lemma hf_zeval l : forall v x, hf l v x = zeval (rev l) x + v * x ^ length l.
Proof.
  induction l as [|c l IH]; intros v x; cbn [hf rev length pow]; [rewrite zeval_nil; ring|]. rewrite IH, zeval_app, zeval_cons, zeval_nil, rev_length. ring.
Qed.
Fixpoint cst (l : list Z) (C v x : R) : R := match l with [] => C | c :: l' => cst l' (C * (Rabs x + 1) + Rabs v) (v * x + IZR c) x end.
Lemma cst_nonneg l : forall C v x, 0 <= C -> 0 <= cst l C v x.
Proof.
  induction l as [|c l IH]; intros C v x H; cbn [cst]; [assumption|]. apply IH. pose proof (Rabs_pos x). pose proof (Rabs_pos v). assert (0 <= C * (Rabs x + 1)) by (apply Rmult_le_pos; lra). lra.
Qed.
Lemma close_mul D A v x C h : 0 <= C -> 0 <= h <= 1 -> Rabs (D - v) <= C * h -> Rabs (A - x) <= h -> Rabs (D * A - v * x) <= (C * (Rabs x + 1) + Rabs v) * h.
Proof.
  intros HC Hh HD HA. replace (D * A - v * x) with ((D - v) * A + v * (A - x)) by ring. eapply Rle_trans; [apply Rabs_triang|]. rewrite !Rabs_mult.
  assert (HA' : Rabs A <= Rabs x + 1). { replace A with (A - x + x) by ring. eapply Rle_trans; [apply Rabs_triang|]. lra. }
  pose proof (Rabs_pos v). pose proof (Rabs_pos A). pose proof (Rabs_pos (D - v)).
  assert (Rabs (D - v) * Rabs A <= C * h * (Rabs x + 1)) by (apply Rmult_le_compat; assumption). assert (Rabs v * Rabs (A - x) <= Rabs v * h) by (apply Rmult_le_compat_l; assumption). lra.
Qed.
Lemma itv_step_close a b t dn up k e x v c C : (0 <= k)%Z -> 0 <= C -> Rabs (IZR a * p2 (- k) - x) <= p2 (- k) -> Rabs (IZR b * p2 (- k) - x) <= p2 (- k) ->
  Rabs (IZR dn * p2 (- e) - v) <= C * p2 (- k) -> Rabs (IZR up * p2 (- e) - v) <= C * p2 (- k) -> IZR t = IZR c * p2 (e + k) ->
  let r := itv_step a b t dn up in let C' := C * (Rabs x + 1) + Rabs v in
  Rabs (IZR (fst r) * p2 (- (e + k)) - (v * x + IZR c)) <= C' * p2 (- k) /\ Rabs (IZR (snd r) * p2 (- (e + k)) - (v * x + IZR c)) <= C' * p2 (- k).
Proof.
  intros Hk HC Ha Hb Hd Hu Ht. cbv zeta. assert (Hh : 0 <= p2 (- k) <= 1). { split; [left; apply p2_pos|]. rewrite <- p2_0. apply p2_le. lia. }
  assert (G : forall D A, (D = dn \/ D = up) -> (A = a \/ A = b) -> Rabs (IZR (D * A + t) * p2 (- (e + k)) - (v * x + IZR c)) <= (C * (Rabs x + 1) + Rabs v) * p2 (- k)).
  { intros D A HD HA. replace (IZR (D * A + t) * p2 (- (e + k)) - (v * x + IZR c)) with ((IZR D * p2 (- e)) * (IZR A * p2 (- k)) - v * x).
    - apply close_mul; [assumption|assumption|destruct HD; subst D; assumption|destruct HA; subst A; assumption].
    - rewrite plus_IZR, mult_IZR, Ht. assert (I : p2 (e + k) * p2 (- (e + k)) = 1) by (rewrite <- p2_add; replace (e + k + - (e + k))%Z with 0%Z by ring; apply p2_0).
      replace (p2 (- (e + k))) with (p2 (- e) * p2 (- k)) in * by (rewrite <- p2_add; f_equal; ring). rewrite Rmult_plus_distr_r. rewrite (Rmult_assoc (IZR c)), I. ring. }
  unfold itv_step. destruct (0 <=? a)%Z, (0 <=? dn)%Z; cbn [fst snd]; split; apply G; auto.
Qed.
Lemma itv_loop_close x a b k : (0 <= k)%Z -> Rabs (IZR a * p2 (- k) - x) <= p2 (- k) -> Rabs (IZR b * p2 (- k) - x) <= p2 (- k) ->
  forall l j dn up v C d u, (1 <= j)%Z -> 0 <= C -> Rabs (IZR dn * p2 (- (k * (j - 1))) - v) <= C * p2 (- k) -> Rabs (IZR up * p2 (- (k * (j - 1))) - v) <= C * p2 (- k) ->
  itv_loop l j a b k dn up = Some (d, u) ->
  Rabs (IZR d * p2 (- (k * (j - 1 + Z.of_nat (length l)))) - hf l v x) <= cst l C v x * p2 (- k) /\ Rabs (IZR u * p2 (- (k * (j - 1 + Z.of_nat (length l)))) - hf l v x) <= cst l C v x * p2 (- k).
Proof.
  intros Hk Ha Hb. induction l as [|c l IH]; intros j dn up v C d u Hj HC Hd Hu E; cbn [itv_loop hf cst length] in *.
  - injection E as <- <-. replace (j - 1 + Z.of_nat 0)%Z with (j - 1)%Z by lia. auto.
  - destruct (Z.ltb_spec (snd (itv_step a b (c * 2 ^ (k * j)) dn up)) (fst (itv_step a b (c * 2 ^ (k * j)) dn up))); [discriminate|].
    destruct (itv_step_close a b (c * 2 ^ (k * j)) dn up k (k * (j - 1)) x v c C Hk HC Ha Hb Hd Hu) as [S1 S2].
    { rewrite mult_IZR, pow2_IZR by (apply Z.mul_nonneg_nonneg; lia). f_equal. f_equal. ring. }
    replace (k * (j - 1) + k)%Z with (k * (j + 1 - 1))%Z in S1, S2 by ring.
    replace (j - 1 + Z.of_nat (S (length l)))%Z with (j + 1 - 1 + Z.of_nat (length l))%Z by lia. 
    eapply IH; [lia| |exact S1|exact S2|exact E]. pose proof (Rabs_pos x). pose proof (Rabs_pos v). assert (0 <= C * (Rabs x + 1)) by (apply Rmult_le_pos; lra). lra.
Qed.
Lemma eval_close w x : exists C, 0 <= C /\ forall k a b d u s, (0 <= k)%Z -> Rabs (IZR a * p2 (- k) - x) <= p2 (- k) -> Rabs (IZR b * p2 (- k) - x) <= p2 (- k) ->
  eval_interval w k a b = Some (d, u, s) -> s = negb (Z.sgn d =? Z.sgn u)%Z /\
  Rabs (IZR d * p2 (- (k * Z.of_nat (length w - 1))) - zeval w x) <= C * p2 (- k) /\ Rabs (IZR u * p2 (- (k * Z.of_nat (length w - 1))) - zeval w x) <= C * p2 (- k).
Proof.
  unfold eval_interval. assert (Lw : length w = length (rev w)) by (rewrite rev_length; reflexivity). assert (Zw : zeval w x = zeval (rev (rev w)) x) by (rewrite rev_involutive; reflexivity). rewrite Lw, Zw. destruct (rev w) as [|lead [|c l]].
  - exists 0. split; [lra|]. intros k a b d u s Hk Ha Hb [= <- <- <-]. split; [reflexivity|]. cbn [length Nat.sub rev]. rewrite zeval_nil. replace (0 * p2 (- (k * Z.of_nat 0)) - 0) with 0 by ring. rewrite Rabs_R0. lra.
  - exists 0. split; [lra|]. intros k a b d u s Hk Ha Hb [= <- <- <-]. split; [rewrite Z.eqb_refl; reflexivity|]. cbn [length Nat.sub rev app]. rewrite zeval_cons, zeval_nil. replace (- (k * Z.of_nat 0))%Z with 0%Z by lia. rewrite p2_0.
    replace (IZR lead * 1 - (IZR lead + x * 0)) with 0 by ring. rewrite Rabs_R0. lra.
  - exists (cst (c :: l) 0 (IZR lead) x). split; [apply cst_nonneg; lra|]. intros k a b d u s Hk Ha Hb E. destruct (_ && _)%bool; [discriminate|]. destruct (itv_loop (c :: l) 1 a b k lead lead) as [[d' u']|] eqn:El; [cbn [obind fst snd] in E|discriminate]. injection E as <- <- <-.
    split; [reflexivity|]. assert (Z0 : Rabs (IZR lead * p2 (- (k * (1 - 1))) - IZR lead) <= 0 * p2 (- k)). { replace (- (k * (1 - 1)))%Z with 0%Z by ring. rewrite p2_0. replace (IZR lead * 1 - IZR lead) with 0 by ring. rewrite Rabs_R0. lra. }
    pose proof (itv_loop_close x a b k Hk Ha Hb (c :: l) 1 lead lead (IZR lead) 0 d' u' (Z.le_refl _) (Rle_refl _) Z0 Z0 El) as K. rewrite hf_zeval in K.
    change (rev (lead :: c :: l)) with (rev (c :: l) ++ [lead]). rewrite zeval_app, zeval_cons, zeval_nil, rev_length.
    replace (zeval (rev (c :: l)) x + x ^ length (c :: l) * (IZR lead + x * 0)) with (zeval (rev (c :: l)) x + IZR lead * x ^ length (c :: l)) by ring.
    replace (length (lead :: c :: l) - 1)%nat with (length (c :: l)) by (cbn [length]; lia). replace (1 - 1 + Z.of_nat (length (c :: l)))%Z with (Z.of_nat (length (c :: l))) in K by lia. exact K.
Qed.
Lemma p2_small (eps C : R) : 0 < eps -> 0 <= C -> exists K, (0 <= K)%Z /\ forall k, (K <= k)%Z -> C * p2 (- k) < eps.
Proof.
  intros He HC. destruct (archimed (C / eps)) as [A _]. set (n := Rdefinitions.up (C / eps)) in *. exists (Z.max 0 n). split; [lia|]. intros k Hk.
  assert (Q : 0 <= C / eps) by (apply Rmult_le_pos; [assumption|left; apply Rinv_0_lt_compat; assumption]). assert (N : (0 < n)%Z) by (apply lt_IZR; lra).
  assert (B : IZR n < p2 k). { rewrite <- pow2_IZR by lia. apply IZR_lt. eapply Z.lt_le_trans; [apply Z.pow_gt_lin_r with (a := 2%Z); lia|]. apply Z.pow_le_mono_r; lia. }
  rewrite p2_inv. pose proof (p2_pos k). apply Rmult_lt_reg_r with (p2 k); [assumption|]. rewrite Rmult_assoc, Rinv_l by lra. replace (C * 1) with (C / eps * eps) by (field; lra). rewrite (Rmult_comm eps). apply Rmult_lt_compat_r; lra.
Qed.
Lemma newvalue_stop w x : w <> [] -> zeval w x <> 0 -> exists K, forall r k corr dn up boo, (K <= k)%Z -> (0 <= k)%Z -> (K <= corr)%Z -> (0 <= corr)%Z -> IZR r * p2 (- k) <= x <= IZR (r + 1) * p2 (- k) ->
  newvalue_denom w r k corr = Some (dn, up, boo) -> boo = false.
Proof.
  intros Hw Nw. destruct (eval_close w x) as (C & HC & Cl). set (W := zeval w x) in *. assert (AW : 0 < Rabs W) by (apply Rabs_pos_lt; assumption).
  destruct (p2_small (Rabs W / 2) C ltac:(lra) HC) as (K1 & HK1 & P1). destruct (p2_small (Rabs W / 2) 1 ltac:(lra) ltac:(lra)) as (K2 & HK2 & P2).
  exists (Z.max K1 K2). intros r k corr dn up boo Hk Hk0 Hc Hc0 Hx E. unfold newvalue_denom in E.
  assert (Lw : (0 < length w)%nat) by (destruct w; [contradiction|cbn; lia]). rewrite plus_IZR in Hx. pose proof (p2_pos (- k)) as Pk.
  destruct (eval_interval w k r (r + 1)) as [[[a b] s]|] eqn:Ee; [cbn [obind] in E|discriminate]. destruct (Z.ltb_spec b a); [discriminate|].
  assert (Ea : Rabs (IZR r * p2 (- k) - x) <= p2 (- k)) by (apply Rabs_le; lra). assert (Eb : Rabs (IZR (r + 1) * p2 (- k) - x) <= p2 (- k)) by (rewrite plus_IZR; apply Rabs_le; lra).
  destruct (Cl _ _ _ _ _ _ Hk0 Ea Eb Ee) as (Es & Ca & Cb). specialize (P1 k ltac:(lia)). specialize (P2 corr ltac:(lia)).
  replace (Z.of_nat (length w) - 1)%Z with (Z.of_nat (length w - 1)) in E by lia. set (e := (k * Z.of_nat (length w - 1))%Z) in *. assert (He : (0 <= e)%Z) by (unfold e; apply Z.mul_nonneg_nonneg; lia).
  injection E as <- <- <-. subst s. pose proof (p2_pos (- e)) as Pe. pose proof (p2_pos corr) as Pc.
  assert (G : forall z, Rabs (IZR z * p2 (- e) - W) <= C * p2 (- k) -> (0 < W -> 1 <= IZR z * p2 (- e) * p2 corr) /\ (W < 0 -> IZR z * p2 (- e) * p2 corr <= - 1)).
  { intros z Hz. assert (I : p2 (- corr) * p2 corr = 1) by (rewrite <- p2_add; replace (- corr + corr)%Z with 0%Z by ring; apply p2_0).
    assert (Hz' : - (C * p2 (- k)) <= IZR z * p2 (- e) - W <= C * p2 (- k)) by (unfold Rabs in Hz; destruct (Rcase_abs _); lra). clear Hz.
    split; intros S; [rewrite (Rabs_right W) in * by lra|rewrite (Rabs_left W) in * by lra].
    - rewrite <- I. apply Rmult_le_compat_r; lra.
    - replace (- 1) with (- p2 (- corr) * p2 corr) by lra. apply Rmult_le_compat_r; lra. }
  destruct (G a Ca) as [Ga1 Ga2]. destruct (G b Cb) as [Gb1 Gb2].
  assert (F : forall z, IZR (z * 2 ^ corr) / IZR (2 ^ e) = IZR z * p2 (- e) * p2 corr). { intros z. rewrite mult_IZR, !pow2_IZR by assumption. unfold Rdiv. rewrite <- p2_inv. ring. }
  assert (Ne : (2 ^ e <> 0)%Z) by (pose proof (Z.pow_pos_nonneg 2 e); lia). assert (Pz : (0 < 2 ^ e)%Z) by (apply Z.pow_pos_nonneg; lia).
  assert (Sg : forall z, (0 < IZR z * p2 (- e) * p2 corr -> (0 < z)%Z) /\ (IZR z * p2 (- e) * p2 corr < 0 -> (z < 0)%Z)).
  { intros z. pose proof (Rmult_lt_0_compat _ _ Pe Pc) as PP. split; intros S; apply lt_IZR; apply Rnot_le_lt; intros N.
    - pose proof (Rmult_le_compat_r _ _ _ (Rlt_le _ _ PP) N). rewrite <- Rmult_assoc in *. lra.
    - pose proof (Rmult_le_compat_r _ _ _ (Rlt_le _ _ PP) N). rewrite <- Rmult_assoc in *. lra. }
  assert (NS : forall z, z <> 0%Z -> (Z.sgn z =? 0)%Z = false) by (intros z Hz; apply Z.eqb_neq; intros Hs; apply Hz, Z.sgn_null_iff; assumption).
  unfold cdiv_2exp. destruct (Rtotal_order W 0) as [SW|[SW|SW]]; [|contradiction|].
  - specialize (Ga2 SW). specialize (Gb2 SW). assert (A0 : (a < 0)%Z) by (apply Sg; lra). assert (B0 : (b < 0)%Z) by (apply Sg; lra).
    assert (D1 : (a * 2 ^ corr / 2 ^ e < 0)%Z) by (apply Z.div_lt_upper_bound; [assumption|]; rewrite Z.mul_0_r; apply Z.mul_neg_pos; [assumption|apply Z.pow_pos_nonneg; lia]).
    assert (D2 : (1 <= - (b * 2 ^ corr) / 2 ^ e)%Z). { apply Z.div_le_lower_bound; [assumption|]. apply le_IZR. pose proof (F b) as Fb. apply Rmult_le_reg_r with (/ IZR (2 ^ e)); [apply Rinv_0_lt_compat, IZR_lt; assumption|].
      rewrite opp_IZR, mult_IZR. replace (IZR (2 ^ e) * IZR 1 * / IZR (2 ^ e)) with 1 by (field; apply not_0_IZR; assumption). unfold Rdiv in Fb. lra. }
    rewrite NS by lia. rewrite NS by lia. rewrite orb_false_r, orb_false_r. apply negb_false_iff, Z.eqb_eq. destruct a, b; try lia; reflexivity.
  - specialize (Ga1 SW). specialize (Gb1 SW). assert (A0 : (0 < a)%Z) by (apply Sg; lra). assert (B0 : (0 < b)%Z) by (apply Sg; lra).
    assert (D2 : (- (b * 2 ^ corr) / 2 ^ e < 0)%Z) by (apply Z.div_lt_upper_bound; [assumption|]; rewrite Z.mul_0_r; pose proof (Z.mul_pos_pos b (2 ^ corr) B0 ltac:(apply Z.pow_pos_nonneg; lia)); lia).
    assert (D1 : (1 <= a * 2 ^ corr / 2 ^ e)%Z). { apply Z.div_le_lower_bound; [assumption|]. apply le_IZR. pose proof (F a) as Fa. apply Rmult_le_reg_r with (/ IZR (2 ^ e)); [apply Rinv_0_lt_compat, IZR_lt; assumption|].
      rewrite mult_IZR. replace (IZR (2 ^ e) * IZR 1 * / IZR (2 ^ e)) with 1 by (field; apply not_0_IZR; assumption). unfold Rdiv in Fa. lra. }
    rewrite NS by lia. rewrite NS by lia. rewrite orb_false_r, orb_false_r. apply negb_false_iff, Z.eqb_eq. destruct a, b; try lia; reflexivity.
Qed.

Theorem lazy_loop_total p r : lead_ok (elim p) -> denom p <> [] -> zeval (denom p) r <> 0 -> forall rt corr, bracket (elim p) rt -> only_root (elim p) rt r -> (0 < corr)%Z ->
  exists N, forall f1 f2, (N <= f1)%nat -> (N <= f2)%nat -> exists res, lazy_loop f1 f2 p rt corr = Some res.
Proof.
  intros Hl Hd Nd. destruct (newvalue_stop (denom p) r Hd Nd) as (K & HK).
  assert (G : forall n rt corr, (K - ik rt <= Z.of_nat n)%Z -> (K - corr <= Z.of_nat n)%Z -> bracket (elim p) rt -> only_root (elim p) rt r -> (0 < corr)%Z ->
    exists N, forall f1 f2, (N <= f1)%nat -> (N <= f2)%nat -> exists res, lazy_loop f1 f2 p rt corr = Some res).
  { induction n as [|n IH]; intros rt corr H1 H2 B U Hc; destruct (bracket_root _ _ _ B U) as [Hr _]; pose proof B as (Bx & Bk & _); rewrite lo_pos, hi_pos in Hr by assumption; unfold dyadic in Hr;
      destruct (newvalue_some (denom p) (numer rt) (ik rt) corr) as (dn & up & boo & En).
    - exists 1%nat. intros f1 f2 Hf _. destruct f1 as [|f1]; [lia|]. cbn [lazy_loop]. rewrite Bx, En. cbn [obind].
      rewrite (HK (numer rt) (ik rt) corr dn up boo ltac:(lia) ltac:(lia) ltac:(lia) ltac:(lia) ltac:(lra) En). cbn [negb]. eauto.
    - destruct (lazy_refine_ok p rt Hl B) as (rt' & R & f0 & F). destruct boo.
      + destruct (refined_only _ _ _ _ B U R) as [(X1 & X2 & X3)|(B' & U' & Kk)].
        * exists (S (S f0)). intros f1 f2 Hf1 Hf2. destruct f1 as [|[|f1]]; [lia|lia|]. cbn [lazy_loop]. rewrite Bx, En. cbn [obind negb]. rewrite F by lia. cbn [obind]. rewrite X1. eauto.
        * destruct (IH rt' (2 * corr)%Z ltac:(lia) ltac:(lia) B' U' ltac:(lia)) as (N & HN). exists (S (Nat.max N f0)). intros f1 f2 Hf1 Hf2. destruct f1 as [|f1]; [lia|].
          cbn [lazy_loop]. rewrite Bx, En. cbn [obind negb]. rewrite F by lia. cbn [obind]. rewrite (proj1 B'). apply HN; lia.
      + exists 1%nat. intros f1 f2 Hf _. destruct f1 as [|f1]; [lia|]. cbn [lazy_loop]. rewrite Bx, En. cbn [obind negb]. eauto. }
  intros rt corr. apply (G (Z.to_nat (Z.max (K - ik rt) (K - corr)))); lia.
Qed.

Lemma single_exact_total p rt prec : denom p <> [] -> (0 <= ik rt)%Z -> (ik rt <= prec)%Z -> zeval (denom p) (dyadic rt) <> 0 ->
  (forall vc, In vc (coords p) -> snd vc <> 0%Z /\ (length (fst vc) <= length (denom p) + 1)%nat) -> exists l, single_exact p rt prec = Some l.
Proof.
  intros Hd Hk Hp Nd Hv. unfold single_exact. set (D := eval_2exp (denom p) (numer rt) (ik rt)).
  assert (ND : D <> 0%Z). { intros E. apply Nd. pose proof (eval_2exp_ok (denom p) (numer rt) (ik rt) Hk) as ED. fold D in ED. rewrite E in ED. symmetry in ED. apply Rmult_integral in ED. destruct ED as [ED|ED].
    - exfalso. revert ED. apply pow_nonzero. pose proof (p2_pos (ik rt)). lra.
    - unfold dyadic. rewrite p2_inv. exact ED. }
  destruct (opt_map_some (exact_coord p rt D prec) (coords p)) as (l & ->); [|cbn [obind]; eauto]. intros vc Hi. destruct (Hv vc Hi) as [C L]. unfold exact_coord.
  destruct (Z.ltb_spec (ik rt * (Z.of_nat (length (denom p)) - Z.of_nat (length (fst vc))) + prec) 0) as [N|N]; [exfalso; nia|].
  unfold cdiv, fdiv. destruct (Z.eqb_spec (D * snd vc) 0) as [E|E]; [exfalso; apply Z.mul_eq_0 in E; tauto|]. cbn [obind]. eauto.
Qed.
Theorem lazy_root_total p rt prec r : lead_ok (elim p) -> denom p <> [] -> zeval (denom p) r <> 0 -> (1 <= nsols p)%Z -> (0 <= prec)%Z ->
  (forall vc, In vc (coords p) -> snd vc <> 0%Z /\ (length (fst vc) <= Z.to_nat (nsols p))%nat /\ (length (fst vc) <= length (denom p) + 1)%nat) ->
  bracket (elim p) rt -> only_root (elim p) rt r -> exists N, forall f1 f2, (N <= f1)%nat -> (N <= f2)%nat -> exists l, lazy_root f1 f2 p rt prec = Some l.
Proof.
  intros Hl Hd Nd Hn Hp Hv B U. assert (C0 : (0 < 2 * (nsols p + ik rt))%Z) by (destruct B as (_ & B & _); lia). destruct (lazy_loop_total p r Hl Hd Nd rt _ B U C0) as (N & HN). exists N. intros f1 f2 H1 H2. destruct (HN f1 f2 H1 H2) as ([[rt' corr] [dn up]] & El).
  unfold lazy_root. rewrite (proj1 B), El. cbn [obind].
  destruct (lazy_loop_sound p r Hl _ _ _ _ _ _ _ _ B U ltac:(apply Z.lt_le_incl; exact C0) El) as [(X1 & X2 & X3)|(B' & U' & Hc & En)].
  - rewrite X1. apply single_exact_total; [assumption|assumption|lia|rewrite X3; assumption|]. intros vc Hi. specialize (Hv vc Hi). tauto.
  - rewrite (proj1 B'). destruct (opt_map_some (lazy_coord (table_full rt' (nsols p) corr) corr dn up prec) (coords p)) as (l & ->); [|cbn [obind]; eauto].
    intros vc Hi. destruct (Hv vc Hi) as (V1 & V2 & V3). unfold lazy_coord. set (tab := table_full rt' (nsols p) corr).
    assert (Lt : length tab = Z.to_nat (nsols p)) by (apply table_length; assumption).
    destruct (bracket_root _ _ _ B' U') as [Hr _]. destruct B' as (Bx & Bk & _). rewrite lo_pos, hi_pos in Hr by assumption. unfold dyadic in Hr. pose proof (p2_pos (ik rt')) as Pk. 
    assert (Hx : IZR (numer rt') <= p2 (ik rt') * r <= IZR (numer rt' + 1)).
    { assert (I : p2 (ik rt') * p2 (- ik rt') = 1) by (rewrite <- p2_add; replace (ik rt' + - ik rt')%Z with 0%Z by ring; apply p2_0).
      assert (F1 : IZR (numer rt') = p2 (ik rt') * (IZR (numer rt') * p2 (- ik rt'))) by (rewrite (Rmult_comm (IZR _)), <- Rmult_assoc, I; ring).
      assert (F2 : IZR (numer rt' + 1) = p2 (ik rt') * (IZR (numer rt' + 1) * p2 (- ik rt'))) by (rewrite (Rmult_comm (IZR _)), <- Rmult_assoc, I; ring).
      rewrite F1, F2. split; apply Rmult_le_compat_l; lra. }
    assert (Es : exists d u b, scalar_product_interval (fst vc) (map fst tab) (map snd tab) corr = Some (d, u, b)).
    { unfold scalar_product_interval. destruct (fst vc) as [|c [|c' v]] eqn:Ev; [eauto|eauto|]. destruct (scal_loop_some (c :: c' :: v) (map fst tab) (map snd tab) 0 0) as (q & ->); [rewrite map_length; lia|rewrite map_length; lia|]. cbn [obind]. eauto. }
    destruct Es as (d & u & b & Es). rewrite Es. cbn [obind].
    pose proof (scalar_product_ok (fst vc) (map fst tab) (map snd tab) corr d u b r Hc Es) as Sb. specialize (Sb ltac:(intros j Hj; apply table_ok; try assumption; lia)).
    set (dec := (if _ <=? 0 then _ else _)%Z). assert (Du : (d <= u)%Z) by (apply le_IZR; lra). assert (P : (0 < 2 ^ dec)%Z) by (apply Z.pow_pos_nonneg; [lia|apply dec_nonneg; assumption]).
    destruct (Z.ltb_spec (- d * 2 ^ dec) (- u * 2 ^ dec)) as [Q|Q]; [exfalso; nia|].
    unfold newvalue_denom in En. destruct (eval_interval (denom p) (ik rt') (numer rt') (numer rt' + 1)) as [[[e1 e2] s]|]; [cbn [obind] in En|discriminate]. destruct (e2 <? e1)%Z; [discriminate|]. injection En as E1 E2 E3.
    apply orb_false_elim in E3. destruct E3 as [E3 Nu]. apply orb_false_elim in E3. destruct E3 as [_ Ndn].
    destruct (box_quot_some dn up (- u * 2 ^ dec) (- d * 2 ^ dec) (snd vc) V1) as (q & ->); [intros E; rewrite E1, E in Ndn; discriminate|intros E; rewrite E2, E in Nu; discriminate|]. cbn [obind]. eauto.
Qed.

(** ** Normalisation *)
Lemma twos_ok v : forall fuel b c, (0 <= b)%Z -> (v mod 2 ^ b = 0)%Z -> twos fuel v b = Some c -> (b <= c)%Z /\ (v mod 2 ^ c = 0)%Z /\ (v <> 0 -> v mod 2 ^ (c + 1) <> 0)%Z.
Proof.
  induction fuel as [|fuel IH]; intros b c Hb Hm E; [discriminate|]. cbn [twos] in E. destruct (Z.eqb_spec v 0) as [V|V]; cbn [negb andb] in E.
  - injection E as <-. split; [lia|]. split; [assumption|]. intros N. contradiction.
  - destruct (Z.eqb_spec (v mod 2 ^ (b + 1)) 0) as [M|M].
    + assert (B1 : (0 <= b + 1)%Z) by lia. destruct (IH _ _ B1 M E) as (A1 & A2 & A3). split; [lia|auto].
    + injection E as <-. split; [lia|auto].
Qed.
Lemma twos_S f v b : twos (S f) v b = if (negb (v =? 0) && (v mod 2 ^ (b + 1) =? 0))%bool%Z then twos f v (b + 1) else Some b.
Proof. reflexivity. Qed.
Lemma twos_some v : forall fuel b, (0 <= b)%Z -> (Z.log2 (Z.abs v) + 1 - b <= Z.of_nat fuel)%Z -> exists c, twos (S fuel) v b = Some c.
Proof.
  induction fuel as [|fuel IH]; intros b Hb Hf; rewrite twos_S; (destruct (Z.eqb_spec v 0) as [V|V]; cbn [negb andb]; [eauto|]); (destruct (Z.eqb_spec (v mod 2 ^ (b + 1)) 0) as [M|M]; [|eauto]).
  - exfalso. apply Z.mod_divide in M; [|pose proof (Z.pow_pos_nonneg 2 (b + 1)); lia]. apply Z.divide_abs_r in M. apply Z.divide_pos_le in M; [|lia]. apply Z.log2_le_mono in M. rewrite Z.log2_pow2 in M by lia. lia.
  - apply (IH (b + 1)%Z); lia.
Qed.

Lemma twos_min v c k : (0 <= k <= c)%Z -> (v mod 2 ^ c = 0)%Z -> (v mod 2 ^ k = 0)%Z.
Proof.
  intros H M. assert (N1 : (2 ^ c <> 0)%Z) by (pose proof (Z.pow_pos_nonneg 2 c); lia). assert (N2 : (2 ^ k <> 0)%Z) by (pose proof (Z.pow_pos_nonneg 2 k); lia).
  apply Z.mod_divide in M; [|assumption]. apply Z.mod_divide; [assumption|]. eapply Z.divide_trans; [|exact M]. exists (2 ^ (c - k))%Z. rewrite <- Z.pow_add_r by lia. f_equal. lia.
Qed.
Definition reduced_dyadic (v k : Z) : Prop := v = 0%Z \/ k = 0%Z \/ Z.odd v = true.
Theorem normalize_val_ok v k : (0 <= k)%Z -> exists v' k', normalize_val v k = Some (v', k') /\ IZR v' * p2 (- k') = IZR v * p2 (- k) /\ (0 <= k' <= k)%Z /\ reduced_dyadic v' k'.
Proof.
  intros Hk. unfold normalize_val. destruct (twos_some v (Z.to_nat (sizeb v)) 0 (Z.le_refl _)) as (c & Ec).
  { unfold sizeb. destruct (Z.eqb_spec v 0) as [->|V]; [cbn; lia|]. pose proof (Z.log2_nonneg (Z.abs v)). lia. }
  rewrite Ec. cbn [obind]. assert (M0 : (v mod 2 ^ 0 = 0)%Z) by (rewrite Z.pow_0_r, Z.mod_1_r; reflexivity). destruct (twos_ok v _ 0 c (Z.le_refl _) M0 Ec) as (C1 & C2 & C3). set (b := Z.min c k). assert (Hb : (0 <= b)%Z) by lia.
  destruct (Z.eqb_spec b 0) as [B|B].
  - exists v, k. split; [reflexivity|]. split; [reflexivity|]. split; [lia|]. unfold reduced_dyadic. destruct (Z.eq_dec v 0) as [V|V]; [auto|]. destruct (Z.eq_dec k 0) as [K|K]; [auto|]. right. right.
    replace c with 0%Z in C3 by lia. specialize (C3 V). change (2 ^ (0 + 1))%Z with 2%Z in C3. rewrite Zmod_odd in C3. destruct (Z.odd v); [reflexivity|contradiction].
  - destruct (Z.ltb_spec b 0); [lia|]. assert (Mb : (v mod 2 ^ b = 0)%Z) by (apply (twos_min v c); [lia|assumption]). assert (N : (2 ^ b <> 0)%Z) by (pose proof (Z.pow_pos_nonneg 2 b); lia).
    apply Z.mod_divide in Mb; [|assumption]. destruct Mb as [q Mb]. exists q, (k - b)%Z. assert (Q : Z.quot v (2 ^ b) = q) by (rewrite Mb; apply Z.quot_mul; assumption).
    split; [rewrite Q; reflexivity|]. split.
    { rewrite Mb, mult_IZR, pow2_IZR by assumption. replace (- (k - b))%Z with (b + - k)%Z by ring. rewrite p2_add. ring. }
    split; [lia|]. unfold reduced_dyadic. destruct (Z.eq_dec q 0) as [V|V]; [auto|]. destruct (Z.eq_dec (k - b) 0) as [K|K]; [auto|]. right. right. assert (Bc : b = c) by lia. rewrite Bc in *. destruct (Z.odd q) eqn:O; [reflexivity|]. exfalso.
    apply C3; [rewrite Mb; intros X; apply Z.mul_eq_0 in X; tauto|]. apply Z.mod_divide; [pose proof (Z.pow_pos_nonneg 2 (c + 1)); lia|]. rewrite <- Z.negb_even in O. apply negb_false_iff, Z.even_spec in O. destruct O as [m O]. exists m.
    rewrite Mb, O, Z.pow_add_r by lia. change (2 ^ 1)%Z with 2%Z. ring.
Qed.
Definition same_box (b b' : box) : Prop :=
  IZR (val_do b') * p2 (- k_do b') = IZR (val_do b) * p2 (- k_do b) /\ IZR (val_up b') * p2 (- k_up b') = IZR (val_up b) * p2 (- k_up b) /\ bexact b' = bexact b /\
  (0 <= k_do b' <= k_do b)%Z /\ (0 <= k_up b' <= k_up b)%Z /\ reduced_dyadic (val_do b') (k_do b') /\ reduced_dyadic (val_up b') (k_up b').
Theorem normalize_box_ok b : (0 <= k_do b)%Z -> (0 <= k_up b)%Z -> exists b', normalize_box b = Some b' /\ same_box b b'.
Proof.
  intros H1 H2. unfold normalize_box. destruct (normalize_val_ok (val_up b) (k_up b) H2) as (vu & ku & -> & U1 & U2 & U3). destruct (normalize_val_ok (val_do b) (k_do b) H1) as (vd & kd & -> & D1 & D2 & D3). cbn [obind fst snd].
  eexists. split; [reflexivity|]. unfold same_box. cbn [val_do k_do val_up k_up bexact]. auto 8.
Qed.
Definition k_ok (b : box) : Prop := (0 <= k_do b)%Z /\ (0 <= k_up b)%Z.
Lemma opt_map_forall {A B} (f : A -> option B) (P : B -> Prop) l r : opt_map f l = Some r -> (forall a b, f a = Some b -> P b) -> Forall P r.
Proof. intros E H. apply opt_map_ok in E. induction E; constructor; eauto. Qed.
Lemma single_exact_k p rt prec l : (0 <= ik rt)%Z -> (0 <= prec)%Z -> single_exact p rt prec = Some l -> Forall k_ok l.
Proof.
  intros Hk Hp E. unfold single_exact in E. destruct (opt_map _ _) as [l'|] eqn:Em; [cbn [obind] in E|discriminate]. injection E as <-. apply Forall_app. split; [|repeat constructor; assumption].
  eapply opt_map_forall; [exact Em|]. intros vc b Eb. unfold exact_coord in Eb. destruct (_ <? 0)%Z; [discriminate|]. destruct (cdiv _ _); [cbn [obind] in Eb|discriminate]. destruct (fdiv _ _); [cbn [obind] in Eb|discriminate]. injection Eb as <-. split; assumption.
Qed.
Lemma lazy_coord_k tab corr dn up prec vc b : (0 <= prec)%Z -> lazy_coord tab corr dn up prec vc = Some b -> k_ok b.
Proof.
  intros Hp E. unfold lazy_coord in E. destruct (scalar_product_interval _ _ _ _) as [[[d u] s]|]; [cbn [obind] in E|discriminate]. set (dec := (if _ <=? 0 then _ else _)%Z) in E. assert (Hdec : (0 <= dec)%Z) by (apply dec_nonneg; assumption). clearbody dec.
  destruct (_ <? _)%Z; [discriminate|]. destruct (box_quot _ _ _ _ _); [cbn [obind] in E|discriminate]. injection E as <-. split; assumption.
Qed.
Lemma lazy_root_k f1 f2 p rt prec r l : lead_ok (elim p) -> (0 <= prec)%Z -> (1 <= nsols p)%Z -> (isexact rt = true /\ (0 <= ik rt)%Z) \/ (bracket (elim p) rt /\ only_root (elim p) rt r) -> lazy_root f1 f2 p rt prec = Some l -> Forall k_ok l.
Proof.
  intros Hl Hp Hn H E. unfold lazy_root in E. destruct H as [[X K]|[B U]]; [rewrite X in E; eapply single_exact_k; [exact K| |exact E]; lia|]. rewrite (proj1 B) in E.
  destruct (lazy_loop _ _ _ _ _) as [[[rt' corr] [dn up]]|] eqn:El; [cbn [obind] in E|discriminate]. assert (C0 : (0 <= 2 * (nsols p + ik rt))%Z) by (destruct B as (_ & B & _); lia).
  destruct (lazy_loop_sound p r Hl _ _ _ _ _ _ _ _ B U C0 El) as [(X1 & X2 & X3)|(B' & U' & _)].
  - rewrite X1 in E. eapply single_exact_k; [exact X2| |exact E]. lia.
  - rewrite (proj1 B') in E. destruct (opt_map _ _) as [l'|] eqn:Em; [cbn [obind] in E|discriminate]. injection E as <-. apply Forall_app. split.
    + eapply opt_map_forall; [exact Em|]. intros vc b. apply lazy_coord_k. assumption.
    + destruct B' as (_ & B' & _). constructor; [|constructor]. split; cbn [k_do k_up]; lia.
Qed.
Lemma normalize_all l : Forall k_ok l -> exists l', opt_map normalize_box l = Some l' /\ Forall2 same_box l l'.
Proof.
  induction 1 as [|b l [H1 H2] F IH]; cbn [opt_map]; [exists []; split; [reflexivity|constructor]|]. destruct (normalize_box_ok b H1 H2) as (b' & -> & S). destruct IH as (l' & -> & S'). cbn [obind]. eexists. split; [reflexivity|]. constructor; assumption.
Qed.
Lemma same_in_box b b' y : same_box b b' -> (in_box b y <-> in_box b' y).
Proof. intros (E1 & E2 & _). unfold in_box. rewrite E1, E2. tauto. Qed.
Lemma same_in_boxes l l' ys : Forall2 same_box l l' -> Forall2 in_box l ys -> Forall2 in_box l' ys.
Proof.
  intros H. revert ys. induction H as [|b b' l l' S F IH]; intros ys K; inversion K; subst; constructor; [eapply same_in_box in S; apply S; assumption|apply IH; assumption].
Qed.
Lemma lazy_loop_mono : forall f1 f1' f2 f2' p rt corr res, (f1 <= f1')%nat -> (f2 <= f2')%nat -> lazy_loop f1 f2 p rt corr = Some res -> lazy_loop f1' f2' p rt corr = Some res.
Proof.
  induction f1 as [|f1 IH]; intros f1' f2 f2' p rt corr res L1 L2 E; [discriminate|]. destruct f1' as [|f1']; [lia|]. cbn [lazy_loop] in *. destruct (isexact rt); [assumption|].
  destruct (newvalue_denom _ _ _ _) as [[[d u] boo]|]; cbn [obind] in *; [|discriminate]. destruct (negb boo); [assumption|]. destruct (lazy_refine f2 p rt) as [rt'|] eqn:Er; [cbn [obind] in E|discriminate]. rewrite (lazy_refine_mono _ _ _ _ _ L2 Er). cbn [obind]. eapply IH; [| |exact E]; lia.
Qed.
Lemma lazy_root_mono f1 f1' f2 f2' p rt prec l : (f1 <= f1')%nat -> (f2 <= f2')%nat -> lazy_root f1 f2 p rt prec = Some l -> lazy_root f1' f2' p rt prec = Some l.
Proof.
  intros L1 L2. unfold lazy_root. destruct (isexact rt); [auto|]. destruct (lazy_loop f1 f2 p rt _) as [res|] eqn:E; [|discriminate]. rewrite (lazy_loop_mono _ _ _ _ _ _ _ _ L1 L2 E). auto.
Qed.
