(** Small intervals: at most one sign variation once the interval is short compared with |P| + |P'|. *)
From Coq Require Import ZArith List Arith Lia Reals Lra Bool.
From Verif Require Import PolySpec IsolSpec ModInvModel TaylorModel DescModel IsolModel.
From Verif Require Import PolyProofs TaylorProofs DescProofs DescLoopProofs RootProofs IsolProofs IsolBisProofs.
Import ListNotations.
Open Scope Z_scope.

(** ** Binomial coefficients and the coefficients of (y+1)^n u(1/(y+1)) *)
Fixpoint cb (n i : nat) : Z :=
  match n, i with
  | _, O => 1
  | O, S _ => 0
  | S n', S i' => cb n' i' + cb n' (S i')
  end.
Lemma cb_0 n : cb n 0 = 1. Proof. destruct n; reflexivity. Qed.
Lemma cb_nonneg n : forall i, 0 <= cb n i.
Proof. induction n as [|n IH]; intros [|i]; cbn [cb]; try lia. pose proof (IH i). pose proof (IH (S i)). lia. Qed.
Lemma cb_pos n : forall i, (i <= n)%nat -> 1 <= cb n i.
Proof. induction n as [|n IH]; intros [|i] H; cbn [cb]; try lia. pose proof (IH i ltac:(lia)). pose proof (cb_nonneg n (S i)). lia. Qed.
Lemma cb_mono1 n i : cb n i <= cb (S n) i.
Proof. destruct i; cbn [cb]; [rewrite cb_0; lia|]. pose proof (cb_nonneg n i). lia. Qed.
Lemma cb_mono n m i : (n <= m)%nat -> cb n i <= cb m i.
Proof. induction 1 as [|m H IH]; [lia|]. pose proof (cb_mono1 m i). lia. Qed.
Lemma cb_absorb n : forall i, Z.of_nat (S i) * cb n (S i) = (Z.of_nat n - Z.of_nat i) * cb n i.
Proof.
  induction n as [|n IH]; intros i.
  - destruct i; [reflexivity|]. cbn [cb]. lia.
  - destruct i as [|i].
    + cbn [cb]. rewrite cb_0. pose proof (IH 0%nat) as K. rewrite cb_0 in K. lia.
    + cbn [cb]. pose proof (IH i) as K1. pose proof (IH (S i)) as K2.
      replace (Z.of_nat (S (S i)) * (cb n (S i) + cb n (S (S i)))) with (Z.of_nat (S (S i)) * cb n (S i) + Z.of_nat (S (S i)) * cb n (S (S i))) by ring.
      rewrite K2. replace ((Z.of_nat (S n) - Z.of_nat (S i)) * (cb n i + cb n (S i))) with ((Z.of_nat n - Z.of_nat i) * cb n i + (Z.of_nat n - Z.of_nat i) * cb n (S i)) by (rewrite !Nat2Z.inj_succ; ring).
      rewrite <- K1, !Nat2Z.inj_succ. ring.
Qed.

Fixpoint fq (i : nat) (u : list Z) : Z := match u with [] => 0 | a :: u' => a * cb (length u') i + fq i u' end.
Lemma nth_tsh_app l x : forall i, nth i (tsh (l ++ [x])) 0 = nth i (tsh l) 0 + x * cb (length l) i.
Proof.
  induction l as [|a l IH]; intros i.
  - cbn [app length]. destruct i as [|i]; [cbn; lia|]. cbn [cb]. rewrite nth_overflow by (rewrite tsh_length; cbn; lia). rewrite nth_overflow by (rewrite tsh_length; cbn; lia). lia.
  - cbn [app length]. destruct i as [|i].
    + rewrite !nth_tsh_0, IH, !cb_0. ring.
    + rewrite !nth_tsh_S, !IH. cbn [cb]. ring.
Qed.
Lemma fq_ok u i : nth i (tsh (rev u)) 0 = fq i u.
Proof. induction u as [|a u IH]; cbn [rev fq]; [destruct i; reflexivity|]. rewrite nth_tsh_app, IH, rev_length. ring. Qed.

Fixpoint n1 (u : list Z) : Z := match u with [] => 0 | a :: u' => Z.abs a + n1 u' end.
(** sum of (s + position) * |coefficient| *)
Fixpoint n1d (s : Z) (u : list Z) : Z := match u with [] => 0 | a :: u' => s * Z.abs a + n1d (s + 1) u' end.
Lemma fq_bound i m u : (length u <= S m)%nat -> Z.abs (fq i u) <= cb m i * n1 u.
Proof.
  revert m. induction u as [|a u IH]; intros m H; cbn [fq n1]; [lia|]. cbn [length] in H.
  pose proof (IH m ltac:(lia)) as K. pose proof (cb_mono (length u) m i ltac:(lia)) as M. pose proof (cb_nonneg (length u) i).
  assert (Z.abs (a * cb (length u) i) <= cb m i * Z.abs a). { rewrite Z.abs_mul. rewrite (Z.abs_eq (cb (length u) i)) by assumption. nia. }
  pose proof (Z.abs_triangle (a * cb (length u) i) (fq i u)). lia.
Qed.

Lemma variations_pos (s : Z) l : (s = 1 \/ s = -1) -> (forall i, (i < length l)%nat -> 0 < s * nth i l 0) -> variations l = 0%nat.
Proof.
  intros Hs H. rewrite <- zchg0. destruct l as [|a l]; [reflexivity|].
  assert (Ha : 0 < s * a) by (apply (H 0%nat); cbn; lia). 
  assert (G : forall l b, 0 < s * b -> (forall i, (i < length l)%nat -> 0 < s * nth i l 0) -> zchg b l = 0%nat).
  { clear l H Ha. induction l as [|c l IH]; intros b Hb Hl; [reflexivity|]. assert (Hc : 0 < s * c) by (apply (Hl 0%nat); cbn; lia).
    rewrite zchg_keep; [|nia|nia]. apply IH; [assumption|]. intros i Hi. apply (Hl (S i)). cbn. lia. }
  rewrite zchg0, <- zchg_start by nia. apply G; [assumption|]. intros i Hi. apply (H (S i)). cbn. lia.
Qed.

(** The constant coefficient dominates: no variation. *)
Lemma dvar_small0 u0 rest : n1 rest < Z.abs u0 -> dvar (u0 :: rest) = 0%nat.
Proof.
  intros H. unfold dvar. apply (variations_pos (Z.sgn u0)).
  - pose proof (Z.sgn_spec u0). assert (0 <= n1 rest) by (clear; induction rest; cbn [n1]; lia). lia.
  - intros i Hi. rewrite tsh_length, rev_length in Hi. cbn [length] in Hi. rewrite fq_ok. cbn [fq].
    pose proof (cb_pos (length rest) i ltac:(lia)) as C. pose proof (fq_bound i (length rest) rest ltac:(lia)) as K.
    set (f := fq i rest) in *. set (b := cb (length rest) i) in *. pose proof (Z.sgn_spec u0). nia.
Qed.

(** The derivative keeps its sign: at most one variation. *)
Definition up (s : Z) (l : list Z) : Prop := forall i, (S i < length l)%nat -> 0 <= s * nth i l 0 -> 0 < s * nth (S i) l 0.
Lemma up_tail s a l : up s (a :: l) -> up s l.
Proof. intros H i Hi. apply (H (S i)). cbn. lia. Qed.
Lemma up_pos s a l : up s (a :: l) -> 0 <= s * a -> forall i, (i < length l)%nat -> 0 < s * nth i l 0.
Proof.
  intros H Ha i. induction i as [|i IH]; intros Hi.
  - apply (H 0%nat); [cbn; lia|exact Ha].
  - apply (H (S i)); [cbn; lia|]. cbn [nth]. assert (0 < s * nth i l 0) by (apply IH; lia). lia.
Qed.
Lemma zchg_same s l : (s = 1 \/ s = -1) -> forall b, 0 < s * b -> (forall i, (i < length l)%nat -> 0 < s * nth i l 0) -> zchg b l = 0%nat.
Proof.
  intros Hs. induction l as [|c l IH]; intros b Hb Hl; [reflexivity|]. assert (Hc : 0 < s * c) by (apply (Hl 0%nat); cbn; lia).
  rewrite zchg_keep; [|nia|nia]. apply IH; [assumption|]. intros i Hi. apply (Hl (S i)). cbn. lia.
Qed.
Lemma variations_up s l : (s = 1 \/ s = -1) -> up s l -> (variations l <= 1)%nat.
Proof.
  intros Hs. rewrite <- zchg0.
  assert (G : forall l b, s * b < 0 -> up s l -> (zchg b l <= 1)%nat).
  { clear l. induction l as [|a l IH]; intros b Hb H; [cbn; lia|].
    destruct (Z.lt_ge_cases (s * a) 0) as [L|L].
    - rewrite zchg_keep; [|nia|nia]. apply IH; [assumption|]. apply (up_tail _ _ _ H).
    - destruct (Z.eq_dec a 0) as [->|N].
      + rewrite zchg_keep; [|nia|lia]. pose proof (up_pos s 0 l H ltac:(lia)) as K. destruct l as [|c l]; [cbn; lia|].
        assert (Hc : 0 < s * c) by (apply (K 0%nat); cbn; lia).
        rewrite zchg_turn by nia. rewrite (zchg_same s); [lia|assumption|assumption|]. intros i Hi. apply (K (S i)). cbn. lia.
      + rewrite zchg_turn by nia. rewrite (zchg_same s); [lia|assumption|nia|]. apply (up_pos s a l H L). }
  intros H. destruct l as [|a l]; [cbn; lia|]. destruct (Z.lt_ge_cases (s * a) 0) as [L|L].
  - rewrite zchg0, <- zchg_start by nia. apply G; [assumption|]. apply (up_tail _ _ _ H).
  - pose proof (up_pos s a l H L) as K. destruct (Z.eq_dec a 0) as [->|N].
    + cbn [zchg]. rewrite Z.mul_0_l. cbn [Z.ltb Z.compare Z.eqb]. rewrite zchg0. rewrite (variations_pos s) by assumption. lia.
    + rewrite zchg0, <- zchg_start by assumption. rewrite (zchg_same s); [lia|assumption|nia|assumption].
Qed.

(** (i+1) q_{i+1} - (n-i) q_i as a combination of the coefficients of the derivative; [s] is the position of the head. *)
Fixpoint dq (s : Z) (i : nat) (u : list Z) : Z := match u with [] => 0 | a :: u' => s * a * cb (length u') i + dq (s + 1) i u' end.
Lemma dq_ok i : forall u N s, N = s + Z.of_nat (length u) - 1 ->
  Z.of_nat (S i) * fq (S i) u - (N - Z.of_nat i) * fq i u = - dq s i u.
Proof.
  induction u as [|a u IH]; intros N s H; cbn [fq dq]; [ring|]. cbn [length] in H.
  rewrite <- (Z.opp_involutive (dq (s + 1) i u)), <- (IH N (s + 1)) by lia.
  pose proof (cb_absorb (length u) i) as K.
  replace (Z.of_nat (S i) * (a * cb (length u) (S i) + fq (S i) u)) with (a * (Z.of_nat (S i) * cb (length u) (S i)) + Z.of_nat (S i) * fq (S i) u) by ring.
  rewrite K. replace s with (N + 1 - Z.of_nat (S (length u))) by lia. rewrite !Nat2Z.inj_succ. ring.
Qed.
Lemma dq_bound i m u : forall s, 0 <= s -> (length u <= S m)%nat -> Z.abs (dq s i u) <= cb m i * n1d s u.
Proof.
  induction u as [|a u IH]; intros s Hs H; cbn [dq n1d]; [lia|]. cbn [length] in H.
  pose proof (IH (s + 1) ltac:(lia) ltac:(lia)) as K. pose proof (cb_mono (length u) m i ltac:(lia)) as M. pose proof (cb_nonneg (length u) i).
  assert (Z.abs (s * a * cb (length u) i) <= cb m i * (s * Z.abs a)). { rewrite !Z.abs_mul. rewrite (Z.abs_eq (cb (length u) i)), (Z.abs_eq s) by assumption. rewrite (Z.mul_comm (cb m i)). apply Z.mul_le_mono_nonneg_l; [|assumption]. apply Z.mul_nonneg_nonneg; [assumption|apply Z.abs_nonneg]. }
  pose proof (Z.abs_triangle (s * a * cb (length u) i) (dq (s + 1) i u)). lia.
Qed.
Lemma n1d_nonneg u : forall s, 0 <= s -> 0 <= n1d s u.
Proof. induction u as [|a u IH]; intros s Hs; cbn [n1d]; [lia|]. pose proof (IH (s + 1) ltac:(lia)). nia. Qed.

Lemma dvar_small1 u0 u1 rest : n1d 2 rest < Z.abs u1 -> (dvar (u0 :: u1 :: rest) <= 1)%nat.
Proof.
  intros H. unfold dvar. apply (variations_up (- Z.sgn u1)).
  - pose proof (Z.sgn_spec u1). pose proof (n1d_nonneg rest 2 ltac:(lia)). lia.
  - intros i Hi. rewrite tsh_length, rev_length in Hi. cbn [length] in Hi. rewrite !fq_ok.
    set (N := Z.of_nat (S (length rest))).
    pose proof (dq_ok i (u0 :: u1 :: rest) N 0 ltac:(unfold N; cbn [length]; lia)) as E. cbn [dq] in E.
    pose proof (cb_pos (length rest) i ltac:(lia)) as C. pose proof (dq_bound i (length rest) rest 2 ltac:(lia) ltac:(lia)) as K.
    change (0 + 1 + 1) with 2 in E. set (d := dq 2 i rest) in *. set (b := cb (length rest) i) in *.
    set (q0 := fq i (u0 :: u1 :: rest)) in *. set (q1 := fq (S i) (u0 :: u1 :: rest)) in *. 
    assert (HN : 0 < N - Z.of_nat i) by (unfold N; lia). intros Hq.
    assert (D : 0 < Z.sgn u1 * (u1 * b + d)).
    { pose proof (n1d_nonneg rest 2 ltac:(lia)) as Nn. set (n := n1d 2 rest) in *. clearbody n b d. assert (b * n < b * Z.abs u1) by nia.
      destruct (Z.sgn_spec u1) as [[S1 ->]|[[S1 ->]|[S1 ->]]]; [|lia|]; nia. }
    assert (E' : Z.of_nat (S i) * q1 = (N - Z.of_nat i) * q0 - (u1 * b + d)) by lia.
    assert (0 < Z.of_nat (S i) * (- Z.sgn u1 * q1)).
    { replace (Z.of_nat (S i) * (- Z.sgn u1 * q1)) with (- Z.sgn u1 * (Z.of_nat (S i) * q1)) by ring. rewrite E'. nia. }
    nia.
Qed.

Open Scope R_scope.
(** ** Coefficients are determined by values *)
Lemma peval_inj p : forall q, length p = length q -> (forall x, peval p x = peval q x) -> p = q.
Proof.
  induction p as [|a p IH]; intros [|b q] H E; try discriminate; [reflexivity|].
  assert (Ea : a = b) by (specialize (E 0); cbn [peval] in E; lra). subst b. f_equal. apply IH; [cbn [length] in H; lia|].
  assert (Off : forall x, x <> 0 -> peval p x = peval q x).
  { intros x Hx. specialize (E x). cbn [peval] in E. apply (Rmult_eq_reg_l x); [lra|assumption]. }
  intros x. destruct (Req_dec x 0) as [->|N]; [|apply Off; assumption]. apply Rminus_diag_uniq.
  apply (cont_zero (fun x => peval p x - peval q x)); [apply continuity_pt_minus; apply peval_cont|]. intros x N. rewrite (Off x N). ring.
Qed.

(** ** Derivative and Taylor expansion of real polynomials *)
Fixpoint pd (n : R) (p : list R) : list R := match p with [] => [] | a :: p' => n * a :: pd (n + 1) p' end.
Definition pderR (p : list R) : list R := match p with [] => [] | _ :: p' => pd 1 p' end.
Lemma pd_eval p : forall n x, peval (pd n p) x = n * peval p x + x * peval (pderR p) x.
Proof.
  induction p as [|a p IH]; intros n x; cbn [pd peval pderR]; [ring|]. rewrite (IH (n + 1)), (IH 1). ring.
Qed.
Lemma pderR_cons a p x : peval (pderR (a :: p)) x = peval p x + x * peval (pderR p) x.
Proof. cbn [pderR]. rewrite pd_eval. ring. Qed.
Lemma pderR_mulx r q : forall c x, peval (pderR (mulx r c q)) x = peval q x + (x - r) * peval (pderR q) x.
Proof.
  induction q as [|a q IH]; intros c x; [cbn; ring|]. change (mulx r c (a :: q)) with ((c - r * a) :: mulx r a q).
  rewrite !pderR_cons, IH, mulx_eval. cbn [peval]. ring.
Qed.
Definition simpleR (P : list R) : Prop := forall x, peval P x = 0 -> peval (pderR P) x <> 0.
Lemma mulx_length r q : forall c, length (mulx r c q) = S (length q).
Proof. induction q as [|a q IH]; intros c; cbn [mulx length]; [reflexivity|]. rewrite IH. reflexivity. Qed.
Lemma simple_quot P Q r : length P = S (length Q) -> (forall y, peval P y = (y - r) * peval Q y) -> simpleR P -> simpleR Q /\ peval Q r <> 0.
Proof.
  intros HL HE HS. assert (EP : P = mulx r 0 Q).
  { apply peval_inj; [rewrite mulx_length; assumption|]. intros x. rewrite mulx_eval, HE. ring. }
  assert (Nr : peval Q r <> 0).
  { intros N. apply (HS r); [rewrite HE, N; ring|]. rewrite EP, pderR_mulx, N. ring. }
  split; [|assumption]. intros x Hx N. apply (HS x); [rewrite HE, Hx; ring|]. rewrite EP, pderR_mulx, Hx, N. ring.
Qed.
Lemma simple_quots rs : forall P Q, length P = (length rs + length Q)%nat -> (forall y, peval P y = prodr rs y * peval Q y) -> simpleR P -> simpleR Q.
Proof.
  induction rs as [|r rs IH]; intros P Q HL HE HS.
  - replace Q with P; [assumption|]. apply peval_inj; [assumption|]. intros x. rewrite HE. cbn [prodr]. ring.
  - set (M := fold_right (fun r q => mulx r 0 q) Q rs).
    assert (LM : length M = (length rs + length Q)%nat). { unfold M. clear. induction rs as [|a rs IH]; cbn [fold_right length]; [reflexivity|]. rewrite mulx_length, IH. reflexivity. }
    assert (EM : forall y, peval M y = prodr rs y * peval Q y). { intros y. unfold M. clear. induction rs as [|a rs IH]; cbn [fold_right prodr]; [ring|]. rewrite mulx_eval, IH. ring. }
    apply (IH M Q LM EM). apply (simple_quot P M r).
    + rewrite LM, HL. reflexivity.
    + intros y. rewrite EM, HE. cbn [prodr]. ring.
    + assumption.
Qed.

Fixpoint tay (p : list R) (a : R) : list R := match p with [] => [] | b :: p' => mulx (- a) b (tay p' a) end.
Lemma tay_eval p a : forall z, peval (tay p a) z = peval p (a + z) .
Proof. induction p as [|b p IH]; intros z; cbn [tay peval]; [reflexivity|]. rewrite mulx_eval, IH. ring. Qed.
Lemma tay_length p a : length (tay p a) = length p.
Proof. induction p as [|b p IH]; cbn [tay length]; [reflexivity|]. rewrite mulx_length, IH. reflexivity. Qed.
Lemma tay_0 p a : nth 0 (tay p a) 0 = peval p a.
Proof. pose proof (tay_eval p a 0) as K. rewrite Rplus_0_r in K. rewrite <- K. destruct (tay p a); cbn [nth peval]; ring. Qed.
Lemma tay_1 p a : nth 1 (tay p a) 0 = peval (pderR p) a.
Proof.
  induction p as [|b p IH]; [reflexivity|]. rewrite pderR_cons, <- IH, <- tay_0. cbn [tay]. destruct (tay p a) as [|t0 [|t1 t]]; cbn [mulx nth]; ring.
Qed.

Fixpoint nr (p : list R) : R := match p with [] => 0 | a :: p' => Rabs a + nr p' end.
Lemma nr_pos p : 0 <= nr p.
Proof. induction p as [|a p IH]; cbn [nr]; [lra|]. pose proof (Rabs_pos a). lra. Qed.
Lemma mulx_nr r q : forall c, nr (mulx r c q) <= Rabs c + (1 + Rabs r) * nr q.
Proof.
  induction q as [|a q IH]; intros c; cbn [mulx nr]; [lra|]. specialize (IH a).
  pose proof (Rabs_triang c (- (r * a))) as T. rewrite Rabs_Ropp, Rabs_mult in T. replace (c + - (r * a)) with (c - r * a) in T by ring. lra.
Qed.
Fixpoint bd (p : list R) : R := match p with [] => 0 | b :: p' => Rabs b + 2 * bd p' end.
Lemma tay_bd p a : 0 <= a <= 1 -> nr (tay p a) <= bd p.
Proof.
  intros Ha. induction p as [|b p IH]; cbn [tay bd]; [cbn; lra|]. pose proof (mulx_nr (- a) (tay p a) b) as K. rewrite Rabs_Ropp, (Rabs_right a) in K by lra.
  pose proof (nr_pos (tay p a)). assert ((1 + a) * nr (tay p a) <= 2 * nr (tay p a)) by (apply Rmult_le_compat_r; lra). lra.
Qed.

(** Coefficients scaled by l w^j, starting from a given power. *)
Fixpoint sc (l w : R) (p : list R) : list R := match p with [] => [] | a :: p' => l * a :: sc (l * w) w p' end.
Lemma sc_eval w p : forall l x, peval (sc l w p) x = l * peval p (w * x).
Proof. induction p as [|a p IH]; intros l x; cbn [sc peval]; [ring|]. rewrite IH. ring. Qed.
Lemma sc_length w p : forall l, length (sc l w p) = length p.
Proof. induction p as [|a p IH]; intros l; cbn [sc length]; [reflexivity|]. rewrite IH. reflexivity. Qed.
Lemma sc_nr w p : 0 <= w <= 1 -> forall l, nr (sc l w p) <= Rabs l * nr p.
Proof.
  intros Hw. induction p as [|a p IH]; intros l; cbn [sc nr]; [lra|]. specialize (IH (l * w)). rewrite Rabs_mult in *.
  rewrite (Rabs_right w) in IH by lra. pose proof (nr_pos p). pose proof (Rabs_pos l).
  assert (Rabs l * w * nr p <= Rabs l * nr p). { rewrite Rmult_assoc. apply Rmult_le_compat_l; [assumption|]. rewrite <- (Rmult_1_l (nr p)) at 2. apply Rmult_le_compat_r; lra. }
  lra.
Qed.
Lemma n1_nr u : IZR (n1 u) = nr (map IZR u).
Proof. induction u as [|a u IH]; cbn [n1 nr map]; [reflexivity|]. rewrite plus_IZR, IH, abs_IZR. reflexivity. Qed.
Lemma n1d_le u : forall s, (0 <= s)%Z -> (n1d s u <= (s + Z.of_nat (length u)) * n1 u)%Z.
Proof.
  induction u as [|a u IH]; intros s Hs; cbn [n1d n1 length]; [lia|]. specialize (IH (s + 1)%Z ltac:(lia)).
  assert (0 <= n1 u)%Z by (clear; induction u; cbn [n1]; lia). rewrite Nat2Z.inj_succ. nia.
Qed.

Lemma inv_coeffs P a w u : inv P a w u -> exists l, l <> 0 /\ map IZR u = sc l w (tay P a).
Proof.
  intros (L & _ & l & Hl & E). exists l. split; [assumption|]. apply peval_inj; [rewrite map_length, sc_length, tay_length; assumption|].
  intros x. rewrite sc_eval, tay_eval. exact (E x).
Qed.

(** ** The interval is short enough *)
Lemma small_interval P a w u m : 0 <= a <= 1 -> 0 < w <= 1 -> inv P a w u -> (2 <= length P)%nat ->
  m <= Rabs (peval P a) + Rabs (peval (pderR P) a) -> w * (INR (length P) + 1) * (bd P + 1) < m / 2 ->
  (dvar u <= 1)%nat.
Proof.
  intros Ha Hw I HP Hm Hs. destruct (inv_coeffs _ _ _ _ I) as (l & Hl & E). pose proof I as (L & _).
  pose proof (tay_bd P a Ha) as TB. pose proof (tay_0 P a) as T0. pose proof (tay_1 P a) as T1.
  assert (LT : length (tay P a) = length P) by apply tay_length.
  destruct (tay P a) as [|t0 [|t1 t]]; [cbn in LT; lia|cbn in LT; lia|]. cbn [nth] in T0, T1. subst t0 t1. cbn [nr] in TB.
  destruct u as [|u0 [|u1 rest]]; [cbn in L; lia|cbn in L; lia|]. cbn [map sc] in E. injection E as E0 E1 ER.
  pose proof (Rabs_pos_lt l Hl) as L0. set (p0 := peval P a) in *. set (p1 := peval (pderR P) a) in *. set (B := bd P) in *.
  pose proof (nr_pos t) as Nt. pose proof (Rabs_pos p0) as P0. pose proof (Rabs_pos p1) as P1.
  assert (LP : 2 <= INR (length P)) by (apply le_INR in HP; exact HP).
  assert (B0 : 0 <= B) by lra.
  assert (Hd : m / 2 <= Rabs p0 \/ m / 2 <= Rabs p1) by lra. destruct Hd as [Hd|Hd].
  - assert (V : dvar (u0 :: u1 :: rest) = 0%nat); [|lia]. apply dvar_small0. apply lt_IZR. rewrite n1_nr, abs_IZR. cbn [map nr]. rewrite E0, E1, ER.
    pose proof (sc_nr w t ltac:(lra) (l * w * w)) as K. rewrite !Rabs_mult in *. rewrite (Rabs_right w) in * by lra.
    assert (K2 : Rabs l * w * Rabs p1 + Rabs l * w * w * nr t <= Rabs l * (w * B)).
    { replace (Rabs l * w * Rabs p1 + Rabs l * w * w * nr t) with (Rabs l * (w * (Rabs p1 + w * nr t))) by ring.
      apply Rmult_le_compat_l; [lra|]. apply Rmult_le_compat_l; [lra|]. assert (w * nr t <= 1 * nr t) by (apply Rmult_le_compat_r; lra). lra. }
    assert (K3 : w * B < Rabs p0).
    { assert (w * B <= w * (INR (length P) + 1) * (B + 1)); [|lra]. rewrite Rmult_assoc. apply Rmult_le_compat_l; [lra|].
      assert (1 * (B + 1) <= (INR (length P) + 1) * (B + 1)) by (apply Rmult_le_compat_r; lra). lra. }
    apply Rle_lt_trans with (Rabs l * (w * B)); [lra|]. apply Rmult_lt_compat_l; assumption.
  - apply dvar_small1. apply lt_IZR. rewrite abs_IZR, E1. pose proof (n1d_le rest 2 ltac:(lia)) as K. apply IZR_le in K.
    rewrite mult_IZR, plus_IZR, <- INR_IZR_INZ, n1_nr, ER in K.
    assert (LR : INR (length rest) + 2 = INR (length P)). { rewrite <- L. cbn [length]. rewrite !S_INR. ring. }
    pose proof (sc_nr w t ltac:(lra) (l * w * w)) as K1. rewrite !Rabs_mult in *. rewrite (Rabs_right w) in * by lra.
    assert (K2 : IZR (n1d 2 rest) <= INR (length P) * (Rabs l * w * w * B)).
    { apply Rle_trans with (1 := K). replace (2 + INR (length rest)) with (INR (length P)) by lra. apply Rmult_le_compat_l; [lra|].
      apply Rle_trans with (1 := K1). apply Rmult_le_compat_l; [|lra]. apply Rmult_le_pos; [apply Rmult_le_pos; lra|lra]. }
    assert (K3 : w * INR (length P) * B < Rabs p1).
    { assert (w * INR (length P) * B <= w * (INR (length P) + 1) * (B + 1)); [|lra]. rewrite !Rmult_assoc. apply Rmult_le_compat_l; [lra|]. apply Rmult_le_compat; lra. }
    apply Rle_lt_trans with (1 := K2). replace (INR (length P) * (Rabs l * w * w * B)) with (Rabs l * w * (w * INR (length P) * B)) by ring.
    apply Rmult_lt_compat_l; [apply Rmult_lt_0_compat; lra|assumption].
Qed.

Lemma wd_small eps : 0 < eps -> exists K, forall k, (K <= k)%nat -> wd k < eps.
Proof.
  intros He. destruct (archimed_cor1 eps He) as (N & H1 & H2). exists N. intros k Hk. apply Rle_lt_trans with (2 := H1). unfold wd.
  apply Rinv_le_contravar; [apply lt_0_INR; assumption|]. apply Rle_trans with (INR k); [apply le_INR; assumption|].
  clear. induction k as [|k IH]; [cbn; lra|]. rewrite S_INR. cbn [pow]. assert (1 <= 2 ^ k) by (apply pow_R1_Rle; lra). lra.
Qed.

Theorem separation P : simpleR P -> (2 <= length P)%nat -> exists K, forall k a u, (K <= k)%nat -> 0 <= a <= 1 -> inv P a (wd k) u -> (dvar u <= 1)%nat.
Proof.
  intros HS HP. set (g := fun x => Rabs (peval P x) + Rabs (peval (pderR P) x)).
  destruct (continuity_ab_min g 0 1 ltac:(lra)) as (x0 & H1 & H2).
  { intros c _. unfold g. apply continuity_pt_plus.
    - apply (continuity_pt_comp (peval P) Rabs); [apply peval_cont|apply Rcontinuity_abs].
    - apply (continuity_pt_comp (peval (pderR P)) Rabs); [apply peval_cont|apply Rcontinuity_abs]. }
  assert (G0 : 0 < g x0).
  { unfold g. pose proof (Rabs_pos (peval P x0)). pose proof (Rabs_pos (peval (pderR P) x0)). destruct (Req_dec (peval P x0) 0) as [E|E].
    - pose proof (Rabs_pos_lt _ (HS x0 E)). lra.
    - pose proof (Rabs_pos_lt _ E). lra. }
  assert (LP : 2 <= INR (length P)) by (apply le_INR in HP; exact HP).
  assert (B0 : 0 <= bd P). { clear. induction P as [|a P IH]; cbn [bd]; [lra|]. pose proof (Rabs_pos a). lra. }
  set (C := (INR (length P) + 1) * (bd P + 1)). assert (C0 : 0 < C) by (apply Rmult_lt_0_compat; lra).
  destruct (wd_small (g x0 / 2 / C)) as (K & HK); [apply Rmult_lt_0_compat; [lra|apply Rinv_0_lt_compat; assumption]|].
  exists K. intros k a u Hk Ha I. apply (small_interval P a (wd k) u (g x0)); try assumption.
  - split; [apply wd_pos|]. unfold wd. rewrite <- Rinv_1. apply Rinv_le_contravar; [lra|]. apply pow_R1_Rle. lra.
  - apply H1. assumption.
  - specialize (HK k Hk). rewrite Rmult_assoc. fold C. replace (g x0 / 2) with (g x0 / 2 / C * C) by (field; lra). apply Rmult_lt_compat_r; assumption.
Qed.
