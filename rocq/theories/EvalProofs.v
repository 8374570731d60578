(** Proofs about the evaluation routines. *)
From Coq Require Import ZArith List Arith Bool Lia Reals Lra Psatz.
From Verif Require Import ModInvModel PolySpec PolyProofs TaylorModel IsolSpec IsolProofs EvalModel.
Import ListNotations.
Open Scope R_scope.

Lemma point_loop_ok l : forall val c, l <> [] -> IZR (point_loop l val c) = zeval (rev l) (IZR c) + IZR c ^ (length l - 1) * IZR val.
Proof.
  induction l as [|a l IH]; intros val c N; [contradiction|]. destruct l as [|b l].
  - cbn [point_loop rev app length Nat.sub pow]. rewrite zeval_cons, zeval_nil, plus_IZR. ring.
  - change (point_loop (a :: b :: l) val c) with (point_loop (b :: l) ((val + a) * c) c).
    rewrite IH by discriminate. change (rev (a :: b :: l)) with (rev (b :: l) ++ [a]). rewrite zeval_app, zeval_cons, zeval_nil, rev_length, mult_IZR, plus_IZR.
    cbn [length Nat.sub]. rewrite Nat.sub_0_r. cbn [pow]. ring.
Qed.
Lemma eval_point_ok u c : IZR (eval_point u c) = zeval u (IZR c).
Proof.
  unfold eval_point. destruct u as [|a u]; [reflexivity|]. rewrite point_loop_ok.
  - rewrite rev_involutive. ring.
  - intros E. apply (f_equal (@length Z)) in E. rewrite rev_length in E. discriminate.
Qed.

Lemma pow2_IZR k : (0 <= k)%Z -> IZR (2 ^ k) = p2 k.
Proof.
  intros H. unfold p2. rewrite <- (Z2Nat.id k H). rewrite <- pow_IZR. rewrite pow_powerRZ. reflexivity.
Qed.
Lemma p2_muln j k : p2 (Z.of_nat j * k) = p2 k ^ j.
Proof.
  induction j as [|j IH]; [reflexivity|]. rewrite Nat2Z.inj_succ. replace (Z.succ (Z.of_nat j) * k)%Z with (k + Z.of_nat j * k)%Z by ring.
  rewrite p2_add, IH. reflexivity.
Qed.
Lemma eval2_loop_ok l : forall j val c k, l <> [] -> (0 <= k)%Z -> 
  IZR (eval2_loop l (Z.of_nat j) val c k) = p2 k ^ (j + length l - 1) * zeval (rev l) (IZR c / p2 k) + IZR c ^ (length l - 1) * IZR val.
Proof.
  induction l as [|a l IH]; intros j val c k N Hk; [contradiction|]. pose proof (p2_pos k) as Pk. destruct l as [|b l].
  - cbn [eval2_loop rev app length Nat.sub pow]. rewrite zeval_cons, zeval_nil, plus_IZR, mult_IZR, pow2_IZR, p2_muln by nia.
    replace (j + 1 - 1)%nat with j by lia. ring.
  - change (eval2_loop (a :: b :: l) (Z.of_nat j) val c k) with (eval2_loop (b :: l) (Z.of_nat j + 1) ((val + a * 2 ^ (Z.of_nat j * k)) * c) c k).
    replace (Z.of_nat j + 1)%Z with (Z.of_nat (S j)) by lia.
    rewrite IH by (assumption || discriminate). change (rev (a :: b :: l)) with (rev (b :: l) ++ [a]).
    rewrite zeval_app, zeval_cons, zeval_nil, rev_length, mult_IZR, plus_IZR, mult_IZR, pow2_IZR, p2_muln by nia.
    cbn [length]. replace (S j + S (length l) - 1)%nat with (j + S (length l))%nat by lia. replace (j + S (S (length l)) - 1)%nat with (j + S (length l))%nat by lia.
    replace (S (length l) - 1)%nat with (length l) by lia. replace (S (S (length l)) - 1)%nat with (S (length l)) by lia.
    replace (IZR c ^ S (length l)) with ((IZR c / p2 k) ^ S (length l) * p2 k ^ S (length l)) by (rewrite <- Rpow_mult_distr; f_equal; field; lra).
    replace (IZR c ^ length l) with ((IZR c / p2 k) ^ length l * p2 k ^ length l) by (rewrite <- Rpow_mult_distr; f_equal; field; lra).
    rewrite !pow_add. cbn [pow]. set (X := IZR c / p2 k). replace (IZR c) with (X * p2 k) by (unfold X; field; lra). ring.
Qed.
Theorem eval_2exp_ok u c k : (0 <= k)%Z -> IZR (eval_2exp u c k) = p2 k ^ (length u - 1) * zeval u (IZR c / p2 k).
Proof.
  intros Hk. pose proof (p2_pos k) as Pk. unfold eval_2exp. rewrite <- (rev_length u). set (x := IZR c / p2 k). rewrite <- (rev_involutive u) at 3. set (l := rev u).
  destruct l as [|lead [|b l]].
  - cbn [rev length Nat.sub pow]. rewrite zeval_nil. ring.
  - cbn [rev app length Nat.sub pow]. rewrite zeval_cons, zeval_nil. ring.
  - change 1%Z with (Z.of_nat 1). rewrite eval2_loop_ok by (assumption || discriminate). fold x. change (rev (lead :: b :: l)) with (rev (b :: l) ++ [lead]).
    rewrite zeval_app, zeval_cons, zeval_nil, rev_length, mult_IZR. cbn [length Nat.sub Nat.add]. rewrite !Nat.sub_0_r.
    replace (IZR c ^ length l) with (x ^ length l * p2 k ^ length l) by (rewrite <- Rpow_mult_distr; f_equal; unfold x; field; lra).
    cbn [pow]. replace (IZR c) with (x * p2 k) by (unfold x; field; lra). ring.
Qed.
Lemma eval_2exp_sgn u c k : (0 <= k)%Z -> IZR (Z.sgn (eval_2exp u c k)) * Rabs (zeval u (IZR c / p2 k)) = zeval u (IZR c / p2 k).
Proof.
  intros Hk. pose proof (eval_2exp_ok u c k Hk) as E. pose proof (pow_lt _ (length u - 1) (p2_pos k)) as Pk. set (y := zeval u (IZR c / p2 k)) in *.
  set (v := eval_2exp u c k) in *. destruct (Z.lt_trichotomy v 0) as [L|[L|L]].
  - rewrite Z.sgn_neg by assumption. apply IZR_lt in L. rewrite E in L. assert (y < 0) by nra. rewrite Rabs_left by assumption. lra.
  - rewrite L in *. assert (y = 0). { symmetry in E. apply Rmult_integral in E. destruct E; [lra|assumption]. } rewrite H, Rabs_R0. ring.
  - rewrite Z.sgn_pos by assumption. apply IZR_lt in L. rewrite E in L. assert (0 < y) by nra. rewrite Rabs_right by lra. lra.
Qed.

(** ** Interval evaluation *)
(** Before each multiplication the bounds do not have opposite signs. *)
Fixpoint no_straddle (l : list Z) (j a b k dn up : Z) : Prop :=
  match l with
  | [] => True
  | c :: l' => (0 <= dn \/ up <= 0)%Z /\
               let r := itv_step a b (c * 2 ^ (k * j)) dn up in no_straddle l' (j + 1) a b k (fst r) (snd r)
  end.
Definition steady (u : list Z) (k a b : Z) : Prop :=
  match rev u with [] => True | lead :: rest => no_straddle rest 1 a b k lead lead end.

Definition same_side (a b : Z) : Prop := (0 <= a <= b \/ a <= b <= 0)%Z.
Lemma itv_step_le a b t dn up : same_side a b -> (dn <= up)%Z -> (fst (itv_step a b t dn up) <= snd (itv_step a b t dn up))%Z.
Proof.
  intros H Hd. unfold itv_step. destruct (Z.leb_spec 0 a), (Z.leb_spec 0 dn); cbn [fst snd]; destruct H as [H|H].
  all: try (assert (a = 0%Z) by lia; subst a); try (assert (b = 0%Z) by lia; subst b); try nia.
Qed.
Lemma itv_step_ok a b t dn up (X y : R) : same_side a b -> (0 <= dn \/ up <= 0)%Z -> IZR a <= X <= IZR b -> IZR dn <= y <= IZR up ->
  IZR (fst (itv_step a b t dn up)) <= y * X + IZR t <= IZR (snd (itv_step a b t dn up)).
Proof.
  intros H Hs Hx Hy. assert (Hs' : 0 <= IZR dn \/ IZR up <= 0) by (destruct Hs as [K|K]; apply IZR_le in K; [left|right]; assumption).
  assert (H' : 0 <= IZR a \/ IZR b <= 0) by (destruct H as [[K _]|[_ K]]; apply IZR_le in K; [left|right]; assumption).
  unfold itv_step. destruct (Z.leb_spec 0 a) as [A|A], (Z.leb_spec 0 dn) as [D|D]; cbn [fst snd]; rewrite !plus_IZR, !mult_IZR;
    [apply IZR_le in A, D|apply IZR_le in A; apply IZR_lt in D|apply IZR_lt in A; apply IZR_le in D|apply IZR_lt in A; apply IZR_lt in D].
  - split; nra.
  - assert (IZR up <= 0) by lra. split; nra.
  - assert (IZR b <= 0) by lra. split; nra.
  - assert (IZR b <= 0) by lra. assert (IZR up <= 0) by lra. split; nra.
Qed.
Lemma itv_loop_some l : forall j a b k dn up, same_side a b -> (dn <= up)%Z -> exists d' u', itv_loop l j a b k dn up = Some (d', u') /\ (d' <= u')%Z.
Proof.
  induction l as [|c l IH]; intros j a b k dn up H Hd; cbn [itv_loop]; [eauto|].
  pose proof (itv_step_le a b (c * 2 ^ (k * j)) dn up H Hd) as L. destruct (Z.ltb_spec (snd (itv_step a b (c * 2 ^ (k * j)) dn up)) (fst (itv_step a b (c * 2 ^ (k * j)) dn up))); [lia|].
  apply IH; assumption.
Qed.
Lemma itv_loop_ok l : forall j a b k dn up d' u' (x y : R), (0 <= k)%Z -> same_side a b -> IZR a <= p2 k * x <= IZR b ->
  no_straddle l (Z.of_nat j) a b k dn up -> IZR dn <= y * p2 k ^ (j - 1) <= IZR up -> (1 <= j)%nat -> itv_loop l (Z.of_nat j) a b k dn up = Some (d', u') ->
  IZR d' <= p2 k ^ (j + length l - 1) * (zeval (rev l) x + x ^ length l * y) <= IZR u'.
Proof.
  induction l as [|c l IH]; intros j a b k dn up d' u' x y Hk H Hx Hn Hy Hj E; cbn [itv_loop] in E.
  - injection E as <- <-. cbn [length rev pow]. rewrite zeval_nil, Nat.add_0_r. replace (p2 k ^ (j - 1) * (0 + 1 * y)) with (y * p2 k ^ (j - 1)) by ring. assumption.
  - destruct (snd _ <? fst _)%Z; [discriminate|]. cbn [no_straddle] in Hn. destruct Hn as [Hs Hn].
    replace (Z.of_nat j + 1)%Z with (Z.of_nat (S j)) in E, Hn by lia.
    specialize (IH (S j) a b k _ _ d' u' x (y * x + IZR c) Hk H Hx Hn). 
    assert (K : p2 k ^ (S j + length l - 1) * (zeval (rev l) x + x ^ length l * (y * x + IZR c)) = p2 k ^ (j + length (c :: l) - 1) * (zeval (rev (c :: l)) x + x ^ length (c :: l) * y)).
    { cbn [rev length]. rewrite zeval_app, zeval_cons, zeval_nil, rev_length. replace (S j + length l - 1)%nat with (j + S (length l) - 1)%nat by lia. cbn [pow]. ring. }
    rewrite <- K. apply IH; [|lia|assumption].
    pose proof (itv_step_ok a b (c * 2 ^ (k * Z.of_nat j)) dn up (p2 k * x) (y * p2 k ^ (j - 1)) H Hs Hx Hy) as St.
    replace ((y * x + IZR c) * p2 k ^ (S j - 1)) with (y * p2 k ^ (j - 1) * (p2 k * x) + IZR (c * 2 ^ (k * Z.of_nat j))); [assumption|].
    rewrite mult_IZR, pow2_IZR by nia. rewrite Z.mul_comm, p2_muln. replace (S j - 1)%nat with (S (j - 1)) by lia. replace (p2 k ^ j) with (p2 k ^ S (j - 1)) by (f_equal; lia). cbn [pow]. ring.
Qed.
Lemma side_test a b : same_side a b -> (negb (Z.sgn a =? Z.sgn b)%Z && negb (a =? 0)%Z && negb (b =? 0)%Z)%bool = false.
Proof.
  intros H. destruct (Z.eqb_spec (Z.sgn a) (Z.sgn b)); [reflexivity|]. destruct (Z.eqb_spec a 0); [cbn; rewrite ?andb_false_r; reflexivity|].
  destruct (Z.eqb_spec b 0); [cbn; reflexivity|]. exfalso. unfold same_side in H. destruct a, b; cbn in *; lia.
Qed.
Theorem eval_interval_total u k a b : same_side a b -> exists dn up s, eval_interval u k a b = Some (dn, up, s) /\ (dn <= up)%Z.
Proof.
  intros H. unfold eval_interval. destruct (rev u) as [|lead [|c l]]; [repeat eexists; lia|repeat eexists; lia|]. rewrite (side_test a b H).
  destruct (itv_loop_some (c :: l) 1 a b k lead lead H (Z.le_refl _)) as (d & p & -> & L). cbn [obind fst snd]. eauto 6.
Qed.
Theorem eval_interval_ok u k a b dn up s x : (0 <= k)%Z -> same_side a b -> steady u k a b -> eval_interval u k a b = Some (dn, up, s) ->
  IZR a / p2 k <= x <= IZR b / p2 k -> IZR dn <= p2 k ^ (length u - 1) * zeval u x <= IZR up.
Proof.
  intros Hk H Hn E Hx. pose proof (p2_pos k) as Pk. unfold eval_interval in E. unfold steady in Hn. assert (Lu : length u = length (rev u)) by (rewrite rev_length; reflexivity).
  assert (Zu : zeval u x = zeval (rev (rev u)) x) by (rewrite rev_involutive; reflexivity). rewrite Lu, Zu. set (l := rev u) in *. clearbody l. clear Lu Zu.
  destruct l as [|lead [|c l]].
  - injection E as <- <- _. cbn [rev length Nat.sub pow]. rewrite zeval_nil. lra.
  - injection E as <- <- _. cbn [rev app length Nat.sub pow]. rewrite zeval_cons, zeval_nil. lra.
  - rewrite (side_test a b H) in E. destruct (itv_loop (c :: l) 1 a b k lead lead) as [[d p]|] eqn:El; [|discriminate]. cbn [obind fst snd] in E. injection E as <- <- _.
    change 1%Z with (Z.of_nat 1) in El, Hn. assert (Hx' : IZR a <= p2 k * x <= IZR b).
    { destruct Hx as [X1 X2]. apply (Rmult_le_compat_l (p2 k)) in X1; [|lra]. apply (Rmult_le_compat_l (p2 k)) in X2; [|lra].
      replace (p2 k * (IZR a / p2 k)) with (IZR a) in X1 by (field; lra). replace (p2 k * (IZR b / p2 k)) with (IZR b) in X2 by (field; lra). lra. }
    pose proof (itv_loop_ok (c :: l) 1 a b k lead lead d p x (IZR lead) Hk H Hx' Hn) as K. cbn [Nat.sub pow] in K. rewrite Rmult_1_r in K. specialize (K (conj (Rle_refl _) (Rle_refl _)) (le_n _) El).
    change (rev (lead :: c :: l)) with (rev (c :: l) ++ [lead]). rewrite zeval_app, zeval_cons, zeval_nil, rev_length.
    replace (length (lead :: c :: l) - 1)%nat with (1 + length (c :: l) - 1)%nat by (cbn [length]; lia).
    replace (zeval (rev (c :: l)) x + x ^ length (c :: l) * (IZR lead + x * 0)) with (zeval (rev (c :: l)) x + x ^ length (c :: l) * IZR lead) by ring. exact K.
Qed.

(** ** Scalar product *)
Lemma scal_loop_ok (s x : R) u : forall xdo xup i dn up d' u' (y : R), scal_loop u xdo xup dn up = Some (d', u') ->
  (forall j, (j < length u)%nat -> IZR (nth j xdo 0%Z) <= s * x ^ (i + j) <= IZR (nth j xup 0%Z)) ->
  IZR dn <= y <= IZR up -> IZR d' <= y + s * x ^ i * zeval u x <= IZR u'.
Proof.
  induction u as [|c u IH]; intros xdo xup i dn up d' u' y E Ht Hy; cbn [scal_loop] in E.
  - injection E as <- <-. rewrite zeval_nil. lra.
  - destruct xdo as [|d xdo]; [discriminate|]. destruct xup as [|p xup]; [discriminate|].
    pose proof (Ht 0%nat ltac:(cbn; lia)) as H0. cbn [nth] in H0. rewrite Nat.add_0_r in H0.
    assert (Ht' : forall j, (j < length u)%nat -> IZR (nth j xdo 0%Z) <= s * x ^ (S i + j) <= IZR (nth j xup 0%Z)).
    { intros j Hj. specialize (Ht (S j) ltac:(cbn; lia)). cbn [nth] in Ht. replace (i + S j)%nat with (S i + j)%nat in Ht by lia. assumption. }
    rewrite zeval_cons. replace (y + s * x ^ i * (IZR c + x * zeval u x)) with ((y + s * x ^ i * IZR c) + s * x ^ S i * zeval u x) by (cbn [pow]; ring).
    destruct (Z.leb_spec 0 c) as [C|C]; [apply IZR_le in C|apply IZR_lt in C]; apply (IH _ _ _ _ _ _ _ _ E Ht'); rewrite !plus_IZR, !mult_IZR; nra.
Qed.
Lemma scal_loop_some u : forall xdo xup dn up, (length u <= length xdo)%nat -> (length u <= length xup)%nat -> exists r, scal_loop u xdo xup dn up = Some r.
Proof.
  induction u as [|c u IH]; intros xdo xup dn up H1 H2; cbn [scal_loop]; [eauto|]. destruct xdo; [cbn in H1; lia|]. destruct xup; [cbn in H2; lia|]. cbn [length] in *.
  destruct (0 <=? c)%Z; apply IH; lia.
Qed.
Theorem scalar_product_ok u xdo xup corr dn up b x : (0 <= corr)%Z -> scalar_product_interval u xdo xup corr = Some (dn, up, b) ->
  (forall j, (j < length u)%nat -> IZR (nth j xdo 0%Z) <= p2 corr * x ^ j <= IZR (nth j xup 0%Z)) ->
  IZR dn <= p2 corr * zeval u x <= IZR up.
Proof.
  intros Hc E Ht. unfold scalar_product_interval in E. destruct u as [|c [|c' u]].
  - injection E as <- <- _. rewrite zeval_nil. lra.
  - injection E as <- <- _. rewrite zeval_cons, zeval_nil, mult_IZR, pow2_IZR by assumption. lra.
  - destruct (scal_loop (c :: c' :: u) xdo xup 0 0) as [[d p]|] eqn:El; [|discriminate]. cbn [obind fst snd] in E. injection E as <- <- _.
    pose proof (scal_loop_ok (p2 corr) x _ xdo xup 0 0 0 d p 0 El Ht ltac:(lra)) as K. cbn [pow] in K. lra.
Qed.
