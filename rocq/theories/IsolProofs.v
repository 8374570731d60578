(** Operations of the isolation seen on the roots: rescaling, shift, division by x - 1/2. *)
From Coq Require Import ZArith List Arith Lia Reals Lra Bool.
From Verif Require Import PolySpec IsolSpec ModInvModel TaylorModel DescModel IsolModel.
From Verif Require Import PolyProofs TaylorProofs DescProofs DescLoopProofs RootProofs.
Import ListNotations.
Open Scope R_scope.

Definition wd (k : nat) : R := / 2 ^ k.
Lemma wd_pos k : 0 < wd k.
Proof. apply Rinv_0_lt_compat, pow_lt. lra. Qed.
Lemma wd_S k : wd (S k) = wd k / 2.
Proof. unfold wd. cbn [pow]. field. apply pow_nonzero. lra. Qed.

Lemma zeval_scale c u x : zeval (map (fun a => (a * c)%Z) u) x = IZR c * zeval u x.
Proof. induction u as [|a u IH]; cbn [map]; rewrite ?zeval_nil, ?zeval_cons; [ring|]. rewrite IH, mult_IZR. ring. Qed.
Lemma last_map {A B} (g : A -> B) l d : last (map g l) (g d) = g (last l d).
Proof. induction l as [|a [|b l] IH]; [reflexivity|reflexivity|exact IH]. Qed.
Lemma last_nth {A} (l : list A) d : last l d = nth (length l - 1) l d.
Proof.
  induction l as [|a [|b l] IH]; [reflexivity|reflexivity|].
  change (last (a :: b :: l) d) with (last (b :: l) d). rewrite IH. cbn [length]. replace (S (S (length l)) - 1)%nat with (S (length l)) by lia.
  replace (S (length l) - 1)%nat with (length l) by lia. reflexivity.
Qed.
Lemma lead_ok_nth u d : length u = S d -> (lead_ok u <-> nth d u 0%Z <> 0%Z).
Proof.
  intros H. unfold lead_ok. rewrite last_nth, H. replace (S d - 1)%nat with d by lia. split; [tauto|]. intros N. split; [|assumption].
  intros ->. discriminate.
Qed.
Lemma p2_IZR b : (0 <= b)%Z -> IZR (2 ^ b) = p2 b.
Proof.
  intros H. unfold p2. destruct b as [|p|p]; [reflexivity| |lia]. cbn [powerRZ]. rewrite <- (positive_nat_Z p), <- pow_IZR. reflexivity.
Qed.
Lemma p2_pos b : 0 < p2 b.
Proof. unfold p2. apply powerRZ_lt. lra. Qed.
Lemma p2_add a b : p2 (a + b) = p2 a * p2 b.
Proof. unfold p2. apply powerRZ_add. lra. Qed.
Lemma p2_0 : p2 0 = 1. Proof. reflexivity. Qed.
Lemma p2_inv a : p2 (- a) = / p2 a.
Proof.
  assert (E : p2 (- a) * p2 a = 1) by (rewrite <- p2_add, Z.add_opp_diag_l; reflexivity).
  pose proof (p2_pos a). apply (Rmult_eq_reg_r (p2 a)); [|lra]. rewrite E, Rinv_l; lra.
Qed.
Lemma p2_nat k : p2 (Z.of_nat k) = 2 ^ k.
Proof. rewrite <- p2_IZR by lia. rewrite <- pow_IZR. reflexivity. Qed.
Lemma wd_p2 k : wd k = p2 (- Z.of_nat k).
Proof. rewrite p2_inv, p2_nat. reflexivity. Qed.

(** ** The link between the polynomial in memory and the polynomial whose roots are sought *)
Definition inv (P : list R) (a w : R) (u : list Z) : Prop :=
  length u = length P /\ lead_ok u /\ exists l, l <> 0 /\ forall x, zeval u x = l * peval P (a + w * x).

Lemma inv_root P a w u x : inv P a w u -> (root u x <-> peval P (a + w * x) = 0).
Proof.
  intros (_ & _ & l & Hl & E). unfold root. rewrite E. split; intros H.
  - apply Rmult_integral in H. destruct H; [contradiction|assumption].
  - rewrite H. ring.
Qed.
Lemma inv_root' P a w u y : w <> 0 -> inv P a w u -> (peval P y = 0 <-> root u ((y - a) / w)).
Proof. intros Hw H. rewrite (inv_root _ _ _ _ _ H). replace (a + w * ((y - a) / w)) with y by (field; assumption). reflexivity. Qed.

Lemma inv_unscale P a w u c v : u = map (fun x => (x * 2 ^ Z.of_nat c)%Z) v -> length v = length u -> inv P a w u -> inv P a w v.
Proof.
  intros Eu Hv (H1 & H2 & l & Hl & E). split; [congruence|]. 
  assert (L2 : lead_ok v).
  { destruct H2 as [N2 L2]. split; [intros ->; subst u; contradiction|].
    rewrite Eu in L2. change 0%Z with (0 * 2 ^ Z.of_nat c)%Z in L2 at 1. rewrite (last_map (fun x => (x * 2 ^ Z.of_nat c)%Z)) in L2. intros Z0. rewrite Z0 in L2. apply L2. reflexivity. }
  split; [assumption|]. exists (l * / IZR (2 ^ Z.of_nat c)). assert (P2 : 0 < IZR (2 ^ Z.of_nat c)) by (apply IZR_lt, Z.pow_pos_nonneg; lia).
  split; [apply Rmult_integral_contrapositive; split; [assumption|apply Rinv_neq_0_compat; lra]|].
  intros x. specialize (E x). rewrite Eu, zeval_scale in E. apply (Rmult_eq_reg_l (IZR (2 ^ Z.of_nat c))); [|lra]. rewrite E. field. lra.
Qed.
Lemma inv_content P a w u : inv P a w u -> exists c v, remove_binary_content u = Some (c, v) /\ inv P a w v.
Proof.
  intros H. destruct (remove_content_ok u) as (c & v & E & L & Eu). exists c, v. split; [assumption|]. eapply inv_unscale; eassumption.
Qed.

Lemma scale_up_eval b : (0 <= b)%Z -> forall u i x, (0 <= i)%Z ->
  zeval (scale_up u i b) x = p2 (i * b) * zeval u (p2 b * x).
Proof.
  intros Hb. induction u as [|a u IH]; intros i x Hi; cbn [scale_up]; rewrite ?zeval_nil, ?zeval_cons; [ring|].
  rewrite IH by lia. rewrite mult_IZR, p2_IZR by lia. replace ((i + 1) * b)%Z with (i * b + b)%Z by ring. rewrite p2_add. ring.
Qed.
Lemma scale_up_length b u : forall i, length (scale_up u i b) = length u.
Proof. induction u as [|a u IH]; intros i; cbn [scale_up length]; [reflexivity|]. rewrite IH. reflexivity. Qed.
Lemma scale_up_last b u : (0 <= b)%Z -> forall i, (0 <= i)%Z -> last u 0%Z <> 0%Z -> last (scale_up u i b) 0%Z <> 0%Z.
Proof.
  intros Hb. induction u as [|a [|c u] IH]; intros i Hi H; [assumption| |].
  - cbn [scale_up last] in *. pose proof (Z.pow_pos_nonneg 2 (i * b)). nia.
  - cbn [scale_up] in *. apply (IH (i + 1)%Z); [lia|exact H].
Qed.
Lemma scale_down_eval b : (b <= 0)%Z -> forall u j x, (Z.of_nat (length u) - 1 <= j)%Z ->
  zeval (scale_down u j b) x = p2 (j * (- b)) * zeval u (p2 b * x).
Proof.
  intros Hb. induction u as [|a u IH]; intros j x Hj; cbn [scale_down]; rewrite ?zeval_nil, ?zeval_cons; [ring|].
  cbn [length] in Hj. rewrite IH by lia. rewrite mult_IZR, p2_IZR by nia.
  replace (j * - b)%Z with ((j - 1) * - b + - b)%Z by ring. rewrite p2_add.
  assert (E : p2 (- b) * p2 b = 1) by (rewrite <- p2_add, Z.add_opp_diag_l; reflexivity).
  replace (p2 ((j - 1) * - b) * p2 (- b) * (IZR a + p2 b * x * zeval u (p2 b * x))) with
    (p2 ((j - 1) * - b) * p2 (- b) * IZR a + p2 ((j - 1) * - b) * (p2 (- b) * p2 b) * x * zeval u (p2 b * x)) by ring.
  rewrite E. ring.
Qed.
Lemma scale_down_length b u : forall j, length (scale_down u j b) = length u.
Proof. induction u as [|a u IH]; intros i; cbn [scale_down length]; [reflexivity|]. rewrite IH. reflexivity. Qed.
Lemma scale_down_last b u : (b <= 0)%Z -> forall j, (Z.of_nat (length u) - 1 <= j)%Z -> last u 0%Z <> 0%Z -> last (scale_down u j b) 0%Z <> 0%Z.
Proof.
  intros Hb. induction u as [|a [|c u] IH]; intros j Hj H; [assumption| |].
  - cbn [scale_down last length] in *. pose proof (Z.pow_pos_nonneg 2 (j * - b) ltac:(lia) ltac:(nia)). nia.
  - cbn [scale_down length] in *. apply (IH (j - 1)%Z); [lia|exact H].
Qed.

Lemma rescale_inv P a w u b : inv P a w u -> exists v, rescale_normalize u b = Some v /\ inv P a (w * p2 b) v.
Proof.
  intros (H1 & [H2 H3] & l & Hl & E). unfold rescale_normalize.
  assert (G : forall v, length v = length u -> (last v 0%Z <> 0%Z) -> (exists m, m <> 0 /\ forall x, zeval v x = m * zeval u (p2 b * x)) ->
     exists v', (let? r := remove_binary_content v in Some (snd r)) = Some v' /\ inv P a (w * p2 b) v').
  { intros v Lv Hv (m & Hm & Em).
    assert (Iv : inv P a (w * p2 b) v).
    { split; [congruence|]. split; [split; [intros ->; destruct u; [contradiction|discriminate]|assumption]|].
      exists (m * l). split; [apply Rmult_integral_contrapositive; auto|]. intros x. rewrite Em, E.
      replace (a + w * (p2 b * x)) with (a + w * p2 b * x) by ring. ring. }
    destruct (inv_content _ _ _ _ Iv) as (c & v' & E' & Iv'). exists v'. rewrite E'. split; [reflexivity|assumption]. }
  destruct (Z.ltb_spec 0 b) as [B|B]; apply G.
  - apply scale_up_length.
  - apply scale_up_last; [lia|lia|assumption].
  - exists 1. split; [lra|]. intros x. rewrite scale_up_eval by lia. change (0 * b)%Z with 0%Z. rewrite p2_0. ring.
  - apply scale_down_length.
  - apply scale_down_last; [lia|lia|assumption].
  - eexists. split; [|intros x; apply scale_down_eval; lia]. pose proof (p2_pos ((Z.of_nat (length u) - 1) * - b)). lra.
Qed.

Lemma tsh_lead u : lead_ok u -> lead_ok (tsh u).
Proof.
  intros [H L]. split; [intros E; pose proof (tsh_length u) as K; rewrite E in K; destruct u; [contradiction|discriminate]|].
  rewrite last_nth, tsh_length, tsh_last by assumption. rewrite <- last_nth. assumption.
Qed.
Lemma tsh_inv P a w u : inv P a w u -> inv P (a + w) w (tsh u).
Proof.
  intros (H1 & H2 & l & Hl & E). split; [rewrite tsh_length; assumption|]. split; [apply tsh_lead; assumption|].
  exists l. split; [assumption|]. intros x. rewrite zeval_tsh, E. f_equal. f_equal. ring.
Qed.

(** ** Tables *)
Definition flags_ok (f : flags) (d : nat) : Prop :=
  (d <= pwx f)%nat \/ ((2 <= pwx f)%nat /\ good_table (pwx f) (tbl f) (Nat.log2 (nblocks_of d (pwx f)))).
Lemma nblocks_mono d d' s : (d' <= d)%nat -> (Nat.log2 (nblocks_of d' s) <= Nat.log2 (nblocks_of d s))%nat.
Proof.
  intros H. unfold nblocks_of. destruct (Nat.leb_spec d' s); [cbn; lia|]. destruct (Nat.leb_spec d s); [lia|].
  rewrite !Nat.log2_pow2 by lia. apply Nat.log2_le_mono. destruct s; [cbn; lia|]. apply Nat.div_le_mono; lia.
Qed.
Lemma flags_ok_le f d d' : flags_ok f d -> (d' <= d)%nat -> flags_ok f d'.
Proof.
  intros [H|[H1 H2]] L; [left; lia|right]. split; [assumption|]. intros i Hi. apply H2. pose proof (nblocks_mono d d' (pwx f) L). lia.
Qed.
Lemma make_tables_ok d p : (1 <= p <= d)%nat -> (p = 1 -> d = 1)%nat -> exists f, make_tables d p = Some f /\ flags_ok f d.
Proof.
  intros H1 H2. unfold make_tables. set (n := if (d <=? p)%nat then 0%nat else Nat.log2 (2 ^ Nat.log2 (d / p))).
  destruct (compute_shift_pwx_ok n p ltac:(lia)) as (t & E & G). rewrite E. cbn [obind]. eexists. split; [reflexivity|].
  unfold flags_ok. cbn [pwx tbl]. destruct (Nat.le_gt_cases d p) as [L|L]; [left; lia|right]. split; [lia|].
  replace (Nat.log2 (nblocks_of d p)) with n; [assumption|]. unfold n, nblocks_of. destruct (Nat.leb_spec d p); [lia|]. reflexivity.
Qed.
Lemma init_flags_ok d : (1 <= d)%nat -> exists f, init_flags d = Some f /\ flags_ok f d.
Proof.
  intros H. unfold init_flags. destruct (compute_degpower_ok d H) as (q & E & Q1 & Q2). rewrite E. cbn [obind]. apply make_tables_ok; assumption.
Qed.
Lemma update_flags_ok d f : (1 <= d)%nat -> flags_ok f d -> exists f', update_flags d f = Some f' /\ flags_ok f' d.
Proof.
  intros H F. unfold update_flags. destruct (compute_degpower_ok d H) as (q & E & Q1 & Q2). rewrite E. cbn [obind].
  destruct (q =? pwx f)%nat; [eauto|]. apply make_tables_ok; assumption.
Qed.
Lemma dac_flags u d f : length u = S d -> d <> 0%nat -> flags_ok f d -> taylorshift1_dac u d (tbl f) (pwx f) = Some (tsh u).
Proof.
  intros Hl Hd [L|[L G]]; [|apply dac_ok; assumption].
  unfold taylorshift1_dac, nblocks_of. destruct (Nat.leb_spec d (pwx f)); [|lia]. apply naive_ok; assumption.
Qed.
Lemma descartes_flags u d f : length u = S d -> d <> 0%nat -> flags_ok f d -> nth 0 u 0%Z <> 0%Z ->
  descartes u d (tbl f) (pwx f) = Some (Nat.min 3 (dvar u)).
Proof. intros Hl Hd [L|[L G]] H0; [apply descartes_ok_small; assumption|apply descartes_ok; assumption]. Qed.

(** ** Division by x - 1/2 *)
Lemma eval_onehalf_ok u : forall d, (Z.of_nat (length u) - 1 <= d)%Z -> IZR (eval_onehalf u d) = p2 d * zeval u (/ 2) \/ u = [].
Proof.
  induction u as [|a u IH]; intros d Hd; [right; reflexivity|left]. cbn [eval_onehalf length] in *.
  rewrite plus_IZR, mult_IZR, p2_IZR, zeval_cons by lia. destruct (IH (d - 1)%Z ltac:(lia)) as [E| ->].
  - rewrite E. replace d with (d - 1 + 1)%Z at 1 3 by ring. rewrite p2_add. change (p2 1) with (2 * 1). field.
  - cbn [eval_onehalf]. rewrite zeval_nil. ring.
Qed.
Lemma IZR_sgn a : IZR (Z.sgn a) = 0 <-> a = 0%Z.
Proof. split; [intros H; apply eq_IZR in H; apply Z.sgn_null_iff; assumption|intros ->; reflexivity]. Qed.
Lemma sgn_onehalf_zero u : u <> [] -> (sgn_onehalf u = 0%Z <-> root u (/ 2)).
Proof.
  intros Hu. unfold sgn_onehalf, root. rewrite Z.sgn_null_iff.
  destruct (eval_onehalf_ok u (Z.of_nat (length u) - 1) ltac:(lia)) as [E|K]; [|contradiction].
  pose proof (p2_pos (Z.of_nat (length u) - 1)) as P. split; intros H.
  - rewrite H in E. symmetry in E. apply Rmult_integral in E. destruct E; [lra|assumption].
  - rewrite H, Rmult_0_r in E. apply eq_IZR in E. assumption.
Qed.
(** sign at 1/2, as a real *)
Lemma sgn_onehalf_sign u t : u <> [] -> ((Z.sgn t * sgn_onehalf u <? 0)%Z = true <-> IZR t * zeval u (/ 2) < 0).
Proof.
  intros Hu. unfold sgn_onehalf. rewrite Z.ltb_lt.
  destruct (eval_onehalf_ok u (Z.of_nat (length u) - 1) ltac:(lia)) as [E|K]; [|contradiction].
  pose proof (p2_pos (Z.of_nat (length u) - 1)) as P. set (v := eval_onehalf u _) in *. clearbody v.
  assert (Q : (Z.sgn t * Z.sgn v < 0 <-> t * v < 0)%Z) by (pose proof (Z.sgn_spec t); pose proof (Z.sgn_spec v); nia).
  rewrite Q, <- IZR_neg, E. set (x := zeval u (/ 2)). set (s := IZR t). set (p := p2 _) in *. clearbody x s p. split; intros H.
  - destruct (Rlt_le_dec (s * x) 0); [assumption|]. exfalso. assert (0 <= p * (s * x)) by (apply Rmult_le_pos; lra). lra.
  - replace (s * (p * x)) with (p * (s * x)) by ring. assert (p * (s * x) < p * 0) by (apply Rmult_lt_compat_l; lra). lra.
Qed.

(** Synthetic division on integers, coefficients listed from the leading one. *)
Fixpoint divs (l : list Z) (prev : Z) : Prop :=
  match l with [] => True | a :: l' => (2 | prev)%Z /\ divs l' (a + prev / 2) end.
Lemma quo_loop_length l : forall p, length (quo_loop l p) = length l.
Proof. induction l as [|a l IH]; intros p; cbn [quo_loop length]; [reflexivity|]. rewrite IH. reflexivity. Qed.
Lemma last_default {A} (m : list A) : forall e d1 d2, last (e :: m) d1 = last (e :: m) d2.
Proof. induction m as [|x m IH]; intros e d1 d2; [reflexivity|]. exact (IH x d1 d2). Qed.
Lemma last_skip {A} (m : list A) e d : last (e :: m) d = last m e.
Proof. destruct m as [|x m]; [reflexivity|]. exact (last_default m x d e). Qed.
(** Value at [x] of the polynomial whose coefficients are listed from the leading one: Horner from [acc]. *)
Fixpoint horner (l : list Z) (acc x : R) : R := match l with [] => acc | a :: l' => horner l' (acc * x + IZR a) x end.
Lemma horner_rev l : forall acc x, horner l acc x = zeval (rev l) x + x ^ length l * acc.
Proof.
  induction l as [|a l IH]; intros acc x; cbn [horner rev length pow]; [rewrite zeval_nil; ring|].
  rewrite IH, zeval_app, rev_length, zeval_cons, zeval_nil. ring.
Qed.
Lemma half_div p : (2 | p)%Z -> IZR (p / 2) = IZR p / 2.
Proof. intros [q ->]. rewrite Z.div_mul by lia. rewrite mult_IZR. field. Qed.
Lemma quo_loop_eval a0 l : forall prev acc x, divs l prev ->
  horner (l ++ [a0]) ((x - / 2) * acc + IZR prev) x =
  (x - / 2) * horner (quo_loop l prev) (acc * x + IZR prev) x + (IZR a0 + IZR (last (quo_loop l prev) prev) / 2).
Proof.
  induction l as [|a l IH]; intros prev acc x H; cbn [app quo_loop horner]; [cbn [last]; field|].
  destruct H as [H1 H2]. rewrite last_skip. specialize (IH (a + prev / 2)%Z (acc * x + IZR prev) x H2).
  rewrite <- IH. f_equal. rewrite plus_IZR, half_div by assumption. field.
Qed.
Lemma divs_ok l : forall prev, (2 ^ Z.of_nat (length l) | prev)%Z -> Forall (fun a => (2 ^ Z.of_nat (length l) | a)%Z) l -> divs l prev.
Proof.
  induction l as [|a l IH]; intros prev Hp Hl; cbn [divs]; [exact I|]. cbn [length] in *.
  rewrite Nat2Z.inj_succ, Z.pow_succ_r in * by lia. destruct Hp as [q ->].
  replace (q * (2 * 2 ^ Z.of_nat (length l)))%Z with (q * 2 ^ Z.of_nat (length l) * 2)%Z by ring. rewrite Z.div_mul by lia.
  split; [exists (q * 2 ^ Z.of_nat (length l))%Z; ring|]. inversion_clear Hl as [|? ? Ha Hl']. apply IH.
  - apply Z.divide_add_r; [|exists q; ring]. destruct Ha as [t ->]. exists (t * 2)%Z. ring.
  - eapply Forall_impl; [|exact Hl']. cbv beta. intros b [t ->]. exists (t * 2)%Z. ring.
Qed.

Lemma cont_zero f r : continuity_pt f r -> (forall x, x <> r -> f x = 0) -> f r = 0.
Proof.
  intros C Z. destruct (Req_dec (f r) 0) as [E|E]; [assumption|exfalso].
  assert (Hp : 0 < Rabs (f r)) by (apply Rabs_pos_lt; assumption).
  destruct (C (Rabs (f r)) Hp) as (d & Hd & D). specialize (D (r + d / 2)). unfold dist in D. cbn in D. unfold R_dist in D.
  assert (K : Rabs (f (r + d / 2) - f r) < Rabs (f r)).
  { apply D. split; [split; [exact I|lra]|]. replace (r + d / 2 - r) with (d / 2) by ring. rewrite Rabs_right; lra. }
  rewrite Z in K by lra. rewrite Rminus_0_l, Rabs_Ropp in K. lra.
Qed.
Lemma affine_cont P a w : continuity (fun x => peval P (a + w * x)).
Proof. intros x. apply (continuity_pt_comp (fun x => a + w * x) (peval P)); [reg|apply peval_cont]. Qed.

Lemma numer_quotient_ok P a w u : (2 <= length P)%nat -> inv P a w u -> root u (/ 2) -> w <> 0 ->
  exists q Q, numer_quotient u = Some q /\ length P = S (length Q) /\ inv Q a w q /\
    (forall y, peval P y = (y - (a + w / 2)) * peval Q y).
Proof.
  intros HP (H1 & [H2 H3] & l & Hl & E) Hr Hw.
  destruct u as [|a0 t]; [contradiction|]. cbn [length] in H1.
  assert (HP2 : peval P (a + w / 2) = 0).
  { specialize (E (/ 2)). unfold root in Hr. rewrite Hr in E. symmetry in E. apply Rmult_integral in E. destruct E as [E|E]; [contradiction|exact E]. }
  set (r := a + w / 2) in *.
  destruct (exists_last (l := t)) as (t0 & ld & Et); [intros ->; cbn in H1; lia|].
  set (s := (2 ^ (Z.of_nat (length (a0 :: t)) - 2))%Z).
  assert (Er : rev (map (fun a => (a * s)%Z) t) = (ld * s)%Z :: rev (map (fun a => (a * s)%Z) t0)).
  { rewrite Et, map_app, rev_app_distr. reflexivity. }
  set (rest := rev (map (fun a => (a * s)%Z) t0)) in *.
  assert (Lt : length t = S (length t0)) by (rewrite Et, app_length; cbn; lia).
  assert (Hs : s = (2 ^ Z.of_nat (length rest))%Z).
  { unfold s, rest. rewrite rev_length, map_length. f_equal. cbn [length]. lia. }
  assert (S0 : 0 < IZR s) by (apply IZR_lt; unfold s; apply Z.pow_pos_nonneg; cbn [length]; lia).
  set (q := rev ((ld * s)%Z :: quo_loop rest (ld * s))).
  assert (Dv : divs rest (ld * s)%Z).
  { apply divs_ok; rewrite <- Hs; [exists ld; ring|]. unfold rest. apply Forall_forall. intros b Hb. rewrite <- in_rev in Hb.
    apply in_map_iff in Hb. destruct Hb as (b0 & <- & _). exists b0. ring. }
  set (rem := IZR (a0 * s) + IZR (last (quo_loop rest (ld * s)) (ld * s)%Z) / 2).
  assert (Ev : forall x, IZR s * zeval (a0 :: t) x = (x - / 2) * zeval q x + rem).
  { intros x. pose proof (quo_loop_eval (a0 * s) rest (ld * s) 0 x Dv) as K.
    replace ((x - / 2) * 0 + IZR (ld * s)) with (IZR (ld * s)) in K by ring. replace (0 * x + IZR (ld * s)) with (IZR (ld * s)) in K by ring.
    rewrite (horner_rev (quo_loop rest (ld * s))) in K. fold rem in K.
    replace (zeval q x) with (zeval (rev (quo_loop rest (ld * s))) x + x ^ length (quo_loop rest (ld * s)) * IZR (ld * s)).
    2:{ unfold q. cbn [rev]. rewrite zeval_app, rev_length, zeval_cons, zeval_nil. ring. }
    rewrite <- K. rewrite horner_rev. rewrite <- zeval_scale. unfold rest. rewrite rev_app_distr, rev_involutive. cbn [rev app map].
    rewrite Et, map_app. cbn [map]. rewrite !zeval_cons, zeval_app, zeval_cons, zeval_nil, app_length, rev_length, map_length. cbn [length].
    rewrite Nat.add_1_r. cbn [pow]. ring. }
  assert (R0 : rem = 0).
  { specialize (Ev (/ 2)). unfold root in Hr. rewrite Hr in Ev. lra. }
  assert (Hq : (length q = length P - 1)%nat).
  { unfold q. rewrite rev_length. cbn [length]. rewrite quo_loop_length. unfold rest. rewrite rev_length, map_length. lia. }
  assert (Lq : lead_ok q).
  { assert (ld <> 0%Z).
    { intros Z0. apply H3. subst ld. rewrite Et. rewrite app_comm_cons, last_last. reflexivity. }
    unfold q. cbn [rev]. split; [intros N; apply (f_equal (@length Z)) in N; rewrite app_length in N; cbn in N; lia|].
    rewrite last_last. assert (0 < s)%Z by (apply lt_IZR; assumption). nia. }
  set (Qf := fst (sdiv r P)).
  assert (Qz : exists Q, length P = S (length Q) /\ forall y, peval Q y = peval Qf y).
  { assert (G : forall p, (1 <= length p)%nat -> exists Q, fst (sdiv r p) = Q ++ [0]).
    { induction p as [|b [|b' p] IHp]; intros K; [cbn in K; lia| |].
      - exists []. reflexivity.
      - destruct IHp as [Q EQ]; [cbn; lia|]. remember (b' :: p) as p' eqn:Ep'. cbn [sdiv]. destruct (sdiv r p') as [m v]. cbn [fst] in *. subst m. exists (v :: Q). reflexivity. }
    destruct (G P ltac:(lia)) as [Q EQ]. exists Q. fold Qf in EQ. split.
    - pose proof (sdiv_len r P) as K. fold Qf in K. rewrite EQ, app_length in K. cbn in K. lia.
    - intros y. rewrite EQ, peval_app. cbn [peval]. ring. }
  destruct Qz as (Q & LQ & EQ).
  assert (EP : forall y, peval P y = (y - r) * peval Q y).
  { intros y. rewrite (sdiv_eval r P y), HP2, EQ. fold Qf. ring. }
  assert (Eq : forall x, zeval q x = IZR s * l * w * peval Q (a + w * x)).
  { assert (Off : forall x, x <> / 2 -> zeval q x = IZR s * l * w * peval Q (a + w * x)).
    { intros x Hx. apply (Rmult_eq_reg_l (x - / 2)); [|lra]. specialize (Ev x). rewrite R0, E, EP in Ev.
      replace (a + w * x - r) with (w * (x - / 2)) in Ev by (unfold r; field). lra. }
    intros x. destruct (Req_dec x (/ 2)) as [->|N]; [|apply Off; assumption].
    apply Rminus_diag_uniq. apply (cont_zero (fun x => zeval q x - IZR s * l * w * peval Q (a + w * x))).
    - apply continuity_pt_minus; [apply peval_cont|]. apply continuity_pt_mult; [apply continuity_pt_const; intros ? ?; reflexivity|apply affine_cont].
    - intros x N. rewrite (Off x N). ring. }
  assert (Iq : inv Q a w q).
  { split; [lia|]. split; [assumption|]. exists (IZR s * l * w). split; [|assumption].
    apply Rmult_integral_contrapositive. split; [apply Rmult_integral_contrapositive; split; [lra|assumption]|assumption]. }
  destruct (inv_content _ _ _ _ Iq) as (c & v & Ec & Iv). exists v, Q. split; [|split; [assumption|split; assumption]].
  unfold numer_quotient. fold s. cbn [tl]. rewrite Er. fold q. rewrite Ec. reflexivity.
Qed.
