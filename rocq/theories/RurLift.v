(** The coordinates multiplied by the derivative of the eliminating polynomial: over the rationals, modulo primes, and at points. *)
From Coq Require Import ZArith NArith Arith List Bool Lia Znumtheory Setoid Morphisms Ring Ring_theory.
From Verif Require Import ModInvModel LinSpec MonoSpec GbSpec FpSpec NmodModel FpProofs FglmSpec FglmModel BmProps PointSpec PointProofs QgbProofs QparSpec QparModel QparProps RurSpec RurProofs.
Import ListNotations.
Open Scope Z_scope.

(** * Pseudo-division over the integers *)
Section PD.
Variables (E : list Z) (d : nat).
Hypothesis D0 : (0 < d)%nat.
Hypothesis LE : length E = S d.
Let c := nth d E 0.
Hypothesis NE : c <> 0.
Lemma pseudo_div a : exists M q r, M <> 0 /\ (length r <= d)%nat /\ forall i, M * pc a i = pc (FpSpec.pmul q E) i + pc r i.
Proof.
  induction a as [|x a (M & q & r & NM & Lr & H)].
  - exists 1, [], []. split; [lia|]. split; [cbn; lia|]. intros i. cbn [FpSpec.pmul]. rewrite pc_nil. lia.
  - set (y := pc r (d - 1)). set (r2 := padd [c * (M * x)] (padd (pscal c (0 :: r)) (pscal (- y) E))). exists (c * M), (padd (pscal c (0 :: q)) [y]), (firstn d r2).
    split; [intros X; apply Z.mul_eq_0 in X; tauto|]. split; [rewrite firstn_length; lia|]. intros i.
    assert (TOP : forall j, (d <= j)%nat -> pc r2 j = 0).
    { intros j Hj. unfold r2. rewrite !pc_padd, !pc_pscal. destruct j as [|j]; [lia|]. rewrite !pc_consS, pc_nil. destruct (Nat.eq_dec (S j) d) as [Ej|Nj].
      - rewrite Ej. replace j with (d - 1)%nat by lia. fold y. change (pc E d) with c. ring.
      - rewrite (pc_over r) by lia. rewrite (pc_over E) by lia. ring. }
    assert (R2 : pc (firstn d r2) i = pc r2 i).
    { destruct (Nat.lt_ge_cases i d) as [Hi|Hi]; [|rewrite (TOP i Hi); apply pc_over; rewrite firstn_length; lia]. unfold pc. rewrite <- (firstn_skipn d r2) at 2. destruct (Nat.lt_ge_cases i (length (firstn d r2))) as [Hl|Hl]; [rewrite app_nth1 by exact Hl; reflexivity|].
      rewrite (nth_overflow (firstn d r2)) by exact Hl. rewrite firstn_length in Hl. rewrite (nth_overflow (_ ++ _)); [reflexivity|]. rewrite firstn_skipn. lia. }
    rewrite R2. unfold r2. rewrite !pc_padd, !pc_pscal.
    assert (PM : forall j, pc (FpSpec.pmul (padd (pscal c (0 :: q)) [y]) E) j = c * pc (0 :: FpSpec.pmul q E) j + y * pc E j).
    { intros j. assert (X : FpSpec.peq 0 (FpSpec.pmul (padd (pscal c (0 :: q)) [y]) E) (padd (pscal c (0 :: FpSpec.pmul q E)) (pscal y E))) by (rewrite (pmul_add_l 0), (pmul_scal_l 0), (pmul_x_l 0), (pscal_pmul 0 y); reflexivity). specialize (X j). apply eqp_zero in X. rewrite X, pc_padd, !pc_pscal. reflexivity. }
    rewrite PM. destruct i as [|i].
    + rewrite !pc_cons0. ring.
    + rewrite !pc_consS, pc_nil. specialize (H i). replace (c * M * pc a i) with (c * (M * pc a i)) by ring. rewrite H. ring.
Qed.
End PD.

Lemma normal_exists d E a e : (0 < d)%nat -> length E = S d -> nth d E 0 <> 0 -> e <> 0 -> exists B R, normal_coord d E a e B R.
Proof.
  intros D0 LE NE Ne. destruct (pseudo_div E d D0 LE NE (FpSpec.pmul a (pderiv E))) as (M & q & r & NM & Lr & H). exists (M * e * nth d E 0 * Z.of_nat d), (strip r).
  assert (SL : (length (strip r) <= length r)%nat). { clear. induction r as [|x r IH]; [cbn; lia|]. cbn [strip]. destruct (strip r); [destruct (x =? 0); cbn; lia|]. cbn [length] in *. lia. }
  split; [repeat (intros X; apply Z.mul_eq_0 in X as [X|X]; [revert X|lia]); contradiction|]. split; [lia|]. split.
  - destruct (strip r) as [|x l] eqn:ES; [cbn; lia|]. assert (HL : last (x :: l) 1 = last (x :: l) 0) by (clear; revert x; induction l as [|y l IH]; intros x; [reflexivity|exact (IH y)]). rewrite HL. exact (strip_last _ _ _ ES).
  - exists M, q. split; [exact NM|]. split; [reflexivity|]. intros i. rewrite H. f_equal. pose proof (strip_peq 0 r i) as X. apply eqp_zero in X. symmetry. exact X.
Qed.

(** * Modulo a prime *)
Section NM.
Variables (p : Z) (d : nat) (E : list Z) (cs : list (list Z * Z)) (el : list Z) (cp : list (list Z)) (k : nat) (B : Z) (R : list Z).
Hypothesis Pp : prime p.
Hypothesis D0 : (0 < d)%nat.
Hypothesis Pd : Z.of_nat d < p.
Hypothesis LE : length E = S d.
Hypothesis NB : ~ (p | B).
Hypothesis NR : ~ (p | last R 1).
Hypothesis Hk : (k < length cs)%nat.
Hypothesis PI : param_image p d E cs el cp.
Hypothesis NC : normal_coord d E (rc cs k) (rd cs k) B R.
Notation "a == b" := (FpSpec.peq p a b) (at level 70).
Notation pmul := FpSpec.pmul.
Add Ring nm_ring : (pring p) (setoid (peq_eq p) (prext p)).
Lemma normal_mod w : normalize_coord p el (nth k cp []) = Some w -> length w = length R /\ forall j, eqp p (B * pc w j) (pc R j).
Proof.
  intros HN. destruct PI as (I1 & I2 & I3 & I4 & I5 & I6). destruct (I6 k Hk) as (_ & _ & J). destruct NC as (_ & LR & _ & M & q & NM & EB & HM). pose proof (prime_ge_2 p Pp) as P2.
  set (X := nth k cp []) in *. unfold normalize_coord in HN. rewrite I1 in HN. replace (S d - 1)%nat with d in HN by lia. set (inv := zinv p (Z.of_nat d)) in *. set (den := map _ (seq 1 d)) in HN.
  assert (MD : monic_of_degree p el d) by (split; [exact I1|split; [exact I2|exact I3]]). destruct (BmProps.nf_of_monic p Pp el d MD) as [NFE HD].
  assert (DI : eqp p (inv * Z.of_nat d) 1). { apply (zinv_ok p Pp). intros X1. unfold eqp in X1. rewrite Z.sub_0_r in X1. apply Z.divide_pos_le in X1; lia. }
  destruct (ndivrem_ok p Pp (nmul p X den) el d (nf_norm p Pp _) NFE HD) as (q2 & r & ER & EQ & DR & _ & NFR). rewrite ER in HN. cbn [obind snd] in HN. injection HN as <-.
  assert (DEN : den == pmul [inv] (pderiv el)).
  { rewrite <- (pscal_pmul p). intros i. unfold den, pderiv. rewrite pc_pscal, !pc_map_seq. rewrite I1. replace (S d - 1)%nat with d by lia. destruct (i <? d)%nat; [|rewrite Z.mul_0_r; reflexivity]. unfold eqp. change (co el (S i)) with (nth (S i) el 0). set (y := Z.of_nat (S i) * nth (S i) el 0). pose proof (Z.div_mod y p ltac:(lia)) as M1. pose proof (Z.div_mod (inv * (y mod p)) p ltac:(lia)) as M2. exists (- ((inv * (y mod p)) / p) - inv * (y / p)). nia. }
  set (lc := nth d E 0) in *. set (e := rd cs k) in *. set (cc := rc cs k) in *. clearbody lc e cc.
  assert (EE : E == pmul [lc] el) by (rewrite <- (pscal_pmul p); intros i; rewrite pc_pscal; symmetry; apply I4).
  assert (DE : pderiv E == pmul [lc] (pderiv el)) by (transitivity (pderiv (pmul [lc] el)); [apply pderiv_m; exact EE|]; rewrite <- !(pscal_pmul p); apply pderiv_scal).
  assert (CX : cc == pmul [e] X) by (rewrite <- (pscal_pmul p); intros i; rewrite pc_pscal; symmetry; apply J).
  assert (H1 : pmul [M] (pmul cc (pderiv E)) == padd (pmul q E) R) by (rewrite <- (pscal_pmul p); intros i; rewrite pc_pscal, pc_padd, HM; reflexivity).
  assert (SB : [B] == pmul [M] (pmul [e] (pmul [lc] [Z.of_nat d]))) by (intros [|i]; rewrite EB; cbn; exists 0; [ring|destruct i; reflexivity]).
  assert (SI : pmul [inv] [Z.of_nat d] == [1]) by (intros [|i]; [cbn; rewrite !Z.add_0_r; exact DI|cbn; destruct i; reflexivity]).
  assert (EQ2 : pmul X den == padd (pmul q2 el) r) by (rewrite <- EQ; symmetry; apply (nmul_peq p Pp)).
  destruct (div_unique p Pp (pmul [B] q2) (pmul q [lc]) el d (pmul [B] r) R HD) as [_ KR].
  - rewrite <- (pscal_pmul p). apply dlt_scal. exact DR.
  - apply (dlt_le p _ (length R)); [exact LR|apply dlt_len].
  - transitivity (pmul [B] (padd (pmul q2 el) r)); [ring|]. rewrite <- EQ2, DEN, SB. transitivity (padd (pmul q E) R); [|rewrite EE; ring]. rewrite <- H1, DE, CX. transitivity (pmul (pmul [inv] [Z.of_nat d]) (pmul [M] (pmul (pmul [e] X) (pmul [lc] (pderiv el))))); [ring|]. rewrite SI. ring.
  - assert (KJ : forall j, eqp p (B * pc r j) (pc R j)) by (intros j; specialize (KR j); rewrite <- KR; rewrite <- pc_pscal; apply (pscal_pmul p)). split; [|exact KJ].
    assert (NBE : ~ eqp p B 0) by (unfold eqp; rewrite Z.sub_0_r; exact NB). destruct R as [|x R'] eqn:ERR.
    + rewrite (nf_zero p Pp r NFR); [reflexivity|]. intros j. rewrite pc_nil. specialize (KJ j). rewrite pc_nil in KJ. destruct (eqp_integral p Pp _ _ KJ) as [Q|Q]; [contradiction|exact Q].
    + rewrite <- ERR in *. assert (NN : R <> []) by (rewrite ERR; discriminate). clear x R' ERR. destruct (exists_last NN) as (R' & x & ER'). rewrite ER', last_last in NR. rewrite ER', app_length. cbn [length]. rewrite Nat.add_1_r. apply (nf_len p Pp); [exact NFR|]. split.
      * intros j Hj. specialize (KJ j). rewrite (pc_over R) in KJ by (rewrite ER', app_length; cbn; lia). destruct (eqp_integral p Pp _ _ KJ) as [Q|Q]; [contradiction|exact Q].
      * intros Q. apply NR. specialize (KJ (length R')). rewrite Q, Z.mul_0_r in KJ. unfold pc in KJ. rewrite ER', app_nth2, Nat.sub_diag in KJ by lia. cbn [nth] in KJ. symmetry in KJ. unfold eqp in KJ. rewrite Z.sub_0_r in KJ. exact KJ.
Qed.
End NM.

(** * Values at points *)
Section Val.
Variables (K : Type) (k0 k1 : K) (add mul sub : K -> K -> K) (opp : K -> K).
Hypothesis CZ : char_zero K k0 k1 add mul sub opp.
Let RK : ring_theory k0 k1 add mul sub opp eq := proj1 CZ.
Add Ring Val_ring : RK.
Notation kz := (kz K k0 k1 add mul opp).
Notation uval := (uval K k0 k1 add mul opp).
Let Z0 : kz 0 = k0 := kz_0 K k0 k1 add mul sub opp RK.
Lemma uval_padd x a : forall b, uval x (padd a b) = add (uval x a) (uval x b).
Proof. induction a as [|y a IH]; intros [|z b]; cbn [padd PointSpec.uval]; try ring. rewrite IH, (kz_add K k0 k1 add mul sub opp RK). ring. Qed.
Lemma uval_pscal x c a : uval x (pscal c a) = mul (kz c) (uval x a).
Proof. unfold pscal. induction a as [|y a IH]; cbn [map PointSpec.uval]; [ring|]. rewrite IH, (kz_mul K k0 k1 add mul sub opp RK). ring. Qed.
Lemma uval_pmul x a b : uval x (FpSpec.pmul a b) = mul (uval x a) (uval x b).
Proof. induction a as [|y a IH]; cbn [FpSpec.pmul PointSpec.uval]; [ring|]. rewrite uval_padd, uval_pscal. cbn [PointSpec.uval]. rewrite IH, Z0. ring. Qed.
Lemma uval_zero x a : (forall i, pc a i = 0) -> uval x a = k0.
Proof. induction a as [|y a IH]; intros H; [reflexivity|]. cbn [PointSpec.uval]. rewrite IH by (intros i; exact (H (S i))). pose proof (H 0%nat) as H0. rewrite pc_cons0 in H0. rewrite H0, Z0. ring. Qed.
Lemma uval_ext x a : forall b, (forall i, pc a i = pc b i) -> uval x a = uval x b.
Proof.
  induction a as [|y a IH]; intros b H.
  - symmetry. apply uval_zero. intros i. rewrite <- H, pc_nil. reflexivity.
  - destruct b as [|z b]; [apply uval_zero; intros i; rewrite H, pc_nil; reflexivity|]. cbn [PointSpec.uval]. rewrite (IH b) by (intros i; exact (H (S i))). pose proof (H 0%nat) as H0. rewrite !pc_cons0 in H0. rewrite H0. reflexivity.
Qed.
Lemma uval_const x s : uval x [s] = kz s.
Proof. cbn [PointSpec.uval]. ring. Qed.
Lemma kz_cancel n x y : n <> 0 -> mul (kz n) x = mul (kz n) y -> x = y.
Proof. intros Nn H. assert (E : add x (opp y) = k0) by (apply (proj2 CZ n _ Nn); transitivity (add (mul (kz n) x) (opp (mul (kz n) y))); [ring|rewrite H; ring]). transitivity (add (add x (opp y)) y); [ring|rewrite E; ring]. Qed.

Variables (d : nat) (E S0 : list Z).
Hypothesis NE : nth d E 0 <> 0.
Hypothesis NS : nth d S0 0 <> 0.
Hypothesis PE : forall i, nth d S0 0 * pc E i = nth d E 0 * pc S0 i.
Lemma prop_deriv i : nth d S0 0 * pc (pderiv E) i = nth d E 0 * pc (pderiv S0) i.
Proof. rewrite !pc_pderiv. specialize (PE (S i)). replace (nth d S0 0 * (Z.of_nat (S i) * pc E (S i))) with (Z.of_nat (S i) * (nth d S0 0 * pc E (S i))) by ring. rewrite PE. ring. Qed.
Lemma prop_val t a b : (forall i, nth d S0 0 * pc a i = nth d E 0 * pc b i) -> mul (kz (nth d S0 0)) (uval t a) = mul (kz (nth d E 0)) (uval t b).
Proof. intros H. rewrite <- !uval_pscal. apply uval_ext. intros i. rewrite !pc_pscal. apply H. Qed.
Lemma prop_root t : uval t E = k0 <-> uval t S0 = k0.
Proof.
  pose proof (prop_val t E S0 PE) as H. split; intros R; rewrite R in H.
  - apply (proj2 CZ _ _ NE). rewrite <- H. ring.
  - apply (proj2 CZ _ _ NS). rewrite H. ring.
Qed.
Hypothesis SE : separable S0.
Lemma prop_coord t x a e f A B R : e <> 0 -> f <> 0 -> normal_coord d E a e B R -> (forall j, f * (nth d S0 0 * Z.of_nat d) * pc R j = pc A j * B) -> uval t S0 = k0 ->
  add (mul (kz e) x) (uval t a) = k0 <-> add (mul (mul (kz f) (uval t (pderiv S0))) x) (uval t A) = k0.
Proof.
  intros Ne Nf (NB & _ & _ & M & q & NM & EB & HM) HA RS. pose proof (proj2 (prop_root t) RS) as RE. pose proof (prop_val t _ _ prop_deriv) as HD.
  assert (H1 : mul (kz M) (mul (uval t a) (uval t (pderiv E))) = uval t R).
  { rewrite <- uval_pmul, <- uval_pscal. transitivity (uval t (padd (FpSpec.pmul q E) R)); [apply uval_ext; intros i; rewrite pc_pscal, pc_padd; apply HM|]. rewrite uval_padd, uval_pmul, RE. ring. }
  assert (H2 : mul (kz (f * (nth d S0 0 * Z.of_nat d))) (uval t R) = mul (kz B) (uval t A)) by (rewrite <- !uval_pscal; apply uval_ext; intros i; rewrite !pc_pscal, HA; ring).
  assert (H3 : mul (kz e) (uval t A) = mul (mul (kz f) (uval t a)) (uval t (pderiv S0))).
  { apply (kz_cancel (M * nth d E 0 * Z.of_nat d)). { intros X. apply NB. rewrite EB. replace (M * e * nth d E 0 * Z.of_nat d) with (M * nth d E 0 * Z.of_nat d * e) by ring. rewrite X. reflexivity. }
    rewrite <- H1, EB in H2. rewrite !(kz_mul K k0 k1 add mul sub opp RK) in *. set (k := kz (nth d S0 0)) in *. set (l := kz (nth d E 0)) in *. set (m := kz M) in *. set (n := kz (Z.of_nat d)) in *. transitivity (mul (mul (mul (mul m (kz e)) l) n) (uval t A)); [ring|]. rewrite <- H2.
    transitivity (mul (mul (mul (mul (kz f) n) m) (uval t a)) (mul k (uval t (pderiv E)))); [ring|]. rewrite HD. ring. }
  destruct SE as (u & w & s & Ns & HB). assert (HW : mul (uval t w) (uval t (pderiv S0)) = kz s).
  { rewrite <- (uval_const t s). transitivity (uval t (padd (FpSpec.pmul u S0) (FpSpec.pmul w (pderiv S0)))); [|apply uval_ext; intros i; apply eqp_zero; apply HB]. rewrite uval_padd, !uval_pmul, RS. ring. }
  set (y := add (mul (kz e) x) (uval t a)). set (z := add (mul (mul (kz f) (uval t (pderiv S0))) x) (uval t A)).
  assert (KEY : mul (kz e) z = mul (kz f) (mul (uval t (pderiv S0)) y)) by (unfold y, z; transitivity (add (mul (mul (mul (kz e) (kz f)) (uval t (pderiv S0))) x) (mul (kz e) (uval t A))); [ring|rewrite H3; ring]).
  split; intros H.
  - apply (proj2 CZ e _ Ne). rewrite KEY, H. ring.
  - rewrite H in KEY. assert (X : mul (uval t (pderiv S0)) y = k0) by (apply (proj2 CZ f _ Nf); rewrite <- KEY; ring). apply (proj2 CZ s _ Ns). rewrite <- HW. transitivity (mul (uval t w) (mul (uval t (pderiv S0)) y)); [ring|rewrite X; ring].
Qed.
End Val.

Add Ring z_ring : (pring 0) (setoid (peq_eq 0) (prext 0)).
Lemma prop_separable d E S0 : nth d E 0 <> 0 -> nth d S0 0 <> 0 -> (forall i, nth d S0 0 * pc E i = nth d E 0 * pc S0 i) -> separable E -> separable S0.
Proof.
  intros NE NS PE (u & v & s & Ns & H). exists (pscal (nth d E 0) u), (pscal (nth d E 0) v), (nth d S0 0 * s). split; [intros X; apply Z.mul_eq_0 in X; tauto|].
  assert (E1 : FpSpec.peq 0 (pscal (nth d S0 0) E) (pscal (nth d E 0) S0)) by (intros i; rewrite !pc_pscal, PE; reflexivity). assert (E2 : FpSpec.peq 0 (pscal (nth d S0 0) (pderiv E)) (pscal (nth d E 0) (pderiv S0))) by (intros i; rewrite !pc_pscal, (prop_deriv d E S0 PE i); reflexivity).
  set (k := nth d S0 0) in *. set (l := nth d E 0) in *. clearbody k l. transitivity (pscal k (padd (FpSpec.pmul u E) (FpSpec.pmul v (pderiv E)))).
  - intros i. rewrite pc_pscal, !pc_padd. assert (Y : forall w a b, FpSpec.peq 0 (pscal k a) (pscal l b) -> k * pc (FpSpec.pmul w a) i = pc (FpSpec.pmul (pscal l w) b) i).
    { intros w a b Q. assert (W : FpSpec.peq 0 (pscal k (FpSpec.pmul w a)) (FpSpec.pmul (pscal l w) b)). { rewrite !(pscal_pmul 0) in Q |- *. transitivity (FpSpec.pmul w (FpSpec.pmul [k] a)); [ring|rewrite Q; ring]. } specialize (W i). apply eqp_zero in W. rewrite pc_pscal in W. exact W. }
    rewrite <- (Y u E S0 E1), <- (Y v _ _ E2). exists 0. ring.
  - rewrite H. reflexivity.
Qed.

(** * The lifted polynomials *)
Lemma represents_intro nv F d E cs S0 AF : (1 <= nv)%nat -> (forall h t, In h F -> In t h -> length (snd t) = nv) -> rational_param nv F d E cs ->
  length S0 = S d -> nth d S0 0 <> 0 -> (forall i, nth d S0 0 * pc E i = nth d E 0 * pc S0 i) -> length AF = (nv - 1)%nat -> (forall A f, In (A, f) AF -> 0 < f /\ length A = d) ->
  (forall k, (k < nv - 1)%nat -> exists B R, normal_coord d E (rc cs k) (rd cs k) B R /\ forall j, rd AF k * (nth d S0 0 * Z.of_nat d) * pc R j = pc (rc AF k) j * B) -> represents nv F d S0 AF.
Proof.
  intros NV LF RP LS NS PE LA HA HC. pose proof RP as (D0 & LE & NE & SE & LC & HE & _). pose proof (prop_separable d E S0 NE NS PE SE) as SS. repeat (split; [assumption|]). intros K k0 k1 add mul sub opp CZ a.
  rewrite (rational_points K k0 k1 add mul sub opp CZ nv F d E cs a NV LF RP). unfold rational_point, lifted_point. cbv zeta. pose proof (prop_root K k0 k1 add mul sub opp CZ d E S0 NE NS PE (a (nv - 1)%nat)) as RT.
  assert (KC : PointSpec.uval K k0 k1 add mul opp (a (nv - 1)%nat) S0 = k0 -> forall k, (k < nv - 1)%nat -> add (mul (PointSpec.kz K k0 k1 add mul opp (rd cs k)) (a k)) (PointSpec.uval K k0 k1 add mul opp (a (nv - 1)%nat) (rc cs k)) = k0 <-> add (mul (mul (PointSpec.kz K k0 k1 add mul opp (rd AF k)) (PointSpec.uval K k0 k1 add mul opp (a (nv - 1)%nat) (pderiv S0))) (a k)) (PointSpec.uval K k0 k1 add mul opp (a (nv - 1)%nat) (rc AF k)) = k0).
  { intros RS k Hk. destruct (HC k Hk) as (B & R & NC & HR). apply (prop_coord K k0 k1 add mul sub opp CZ d E S0 NE NS PE SS _ _ _ _ _ _ B R); [| |exact NC|exact HR|exact RS].
    - apply (HE (rc cs k) (rd cs k)). unfold rc, rd. rewrite <- surjective_pairing. apply nth_In. rewrite LC. exact Hk.
    - enough (0 < rd AF k) by lia. apply (HA (rc AF k) (rd AF k)). unfold rc, rd. rewrite <- surjective_pairing. apply nth_In. rewrite LA. exact Hk. }
  split; intros [A B]; (split; [tauto|]); intros k Hk; apply (KC ltac:(tauto) k Hk); apply B; exact Hk.
Qed.
