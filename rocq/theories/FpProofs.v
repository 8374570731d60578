(** Proofs about polynomials over the integers modulo a prime. *)
From Coq Require Import ZArith Arith List Bool Lia Znumtheory Setoid Morphisms Ring.
From Verif Require Import LinSpec FpSpec ModInvModel ModInvProofs NmodModel.
Import ListNotations.
Open Scope Z_scope.

Lemma pc_nil i : pc [] i = 0. Proof. destruct i; reflexivity. Qed.
Lemma pc_cons0 x a : pc (x :: a) O = x. Proof. reflexivity. Qed.
Lemma pc_consS x a i : pc (x :: a) (S i) = pc a i. Proof. reflexivity. Qed.
Lemma pc_over a i : (length a <= i)%nat -> pc a i = 0. Proof. apply nth_overflow. Qed.
Lemma pc_padd a : forall b i, pc (padd a b) i = pc a i + pc b i.
Proof. induction a as [|x a IH]; intros [|y b] i; cbn [padd]; rewrite ?pc_nil; try lia. destruct i; rewrite ?pc_cons0, ?pc_consS; auto. Qed.
Lemma pc_pscal c a : forall i, pc (pscal c a) i = c * pc a i.
Proof. unfold pscal. induction a as [|x a IH]; intros i; cbn [map]; rewrite ?pc_nil; try lia. destruct i; rewrite ?pc_cons0, ?pc_consS; auto. Qed.
Lemma pc_popp a : forall i, pc (popp a) i = - pc a i.
Proof. unfold popp. induction a as [|x a IH]; intros i; cbn [map]; rewrite ?pc_nil; try lia. destruct i; rewrite ?pc_cons0, ?pc_consS; auto. Qed.
Lemma pc_psub a b i : pc (psub a b) i = pc a i - pc b i.
Proof. unfold psub. rewrite pc_padd, pc_popp. lia. Qed.
Lemma pc_pmul_cons x a b i : pc (pmul (x :: a) b) i = x * pc b i + match i with O => 0 | S j => pc (pmul a b) j end.
Proof. cbn [pmul]. rewrite pc_padd, pc_pscal. destruct i; rewrite ?pc_cons0, ?pc_consS; reflexivity. Qed.
Lemma pc_pshift n a i : pc (pshift n a) i = if (i <? n)%nat then 0 else pc a (i - n).
Proof.
  unfold pc, pshift. destruct (Nat.ltb_spec i n).
  - rewrite app_nth1 by (rewrite repeat_length; lia). apply nth_repeat.
  - rewrite app_nth2 by (rewrite repeat_length; lia). rewrite repeat_length. reflexivity.
Qed.
Lemma pc_pX n i : pc (pX n) i = if (i =? n)%nat then 1 else 0.
Proof.
  unfold pX. rewrite pc_pshift. destruct (Nat.ltb_spec i n); destruct (Nat.eqb_spec i n); try lia; try reflexivity.
  - subst. rewrite Nat.sub_diag. reflexivity.
  - destruct (i - n)%nat eqn:E; [lia|]. rewrite pc_consS. apply pc_nil.
Qed.

Section P.
Variable p : Z.
Notation "a == b" := (peq p a b) (at level 70).
Notation "a =p b" := (eqp p a b) (at level 70).
#[local] Instance peq_eq : Equivalence (peq p).
Proof. split; [intros a i; reflexivity|intros a b H i; symmetry; apply H|intros a b c H K i; transitivity (pc b i); auto]. Qed.
Lemma peq_ext a b : (forall i, pc a i = pc b i) -> a == b.
Proof. intros H i. rewrite H. reflexivity. Qed.
#[local] Instance pc_m : Proper (peq p ==> eq ==> eqp p) pc.
Proof. intros a b H i j <-. apply H. Qed.
#[local] Instance padd_m : Proper (peq p ==> peq p ==> peq p) padd.
Proof. intros a b H c d K i. rewrite !pc_padd, (H i), (K i). reflexivity. Qed.
#[local] Instance popp_m : Proper (peq p ==> peq p) popp.
Proof. intros a b H i. rewrite !pc_popp, (H i). reflexivity. Qed.
#[local] Instance psub_m : Proper (peq p ==> peq p ==> peq p) psub.
Proof. intros a b H c d K i. rewrite !pc_psub, (H i), (K i). reflexivity. Qed.
#[local] Instance pscal_m : Proper (eqp p ==> peq p ==> peq p) pscal.
Proof. intros a b H c d K i. rewrite !pc_pscal, H, (K i). reflexivity. Qed.
#[local] Instance pcons_m : Proper (eqp p ==> peq p ==> peq p) cons.
Proof. intros a b H c d K [|i]; rewrite ?pc_cons0, ?pc_consS; auto. Qed.
#[local] Instance pshift_m n : Proper (peq p ==> peq p) (pshift n).
Proof. intros a b H i. rewrite !pc_pshift. destruct (_ <? _)%nat; [reflexivity|apply H]. Qed.
Lemma pmul_zero_l a : a == [] -> forall b, pmul a b == [].
Proof.
  induction a as [|x a IH]; intros H b; [reflexivity|]. intros i. rewrite pc_pmul_cons, pc_nil. pose proof (H O) as H0. rewrite pc_cons0, pc_nil in H0. rewrite H0.
  assert (K : a == []) by (intros j; pose proof (H (S j)) as Hj; rewrite pc_consS, pc_nil in Hj; rewrite pc_nil; exact Hj). destruct i; [reflexivity|]. rewrite (IH K b i), pc_nil. reflexivity.
Qed.
#[local] Instance pmul_m : Proper (peq p ==> peq p ==> peq p) pmul.
Proof.
  intros a b H c d K. transitivity (pmul a d).
  - clear b H. induction a as [|x a IH]; [reflexivity|]. intros i. rewrite !pc_pmul_cons, (K i). destruct i; [reflexivity|]. rewrite (IH i). reflexivity.
  - clear c K. revert b H. induction a as [|x a IH]; intros b H; [symmetry; apply pmul_zero_l; symmetry; exact H|]. destruct b as [|y b].
    + apply pmul_zero_l. exact H.
    + assert (E : x =p y) by exact (H O). assert (K : a == b) by (intros j; exact (H (S j))). intros i. rewrite !pc_pmul_cons, E. destruct i; [reflexivity|]. rewrite (IH b K i). reflexivity.
Qed.

Lemma padd_comm a b : padd a b == padd b a. Proof. apply peq_ext. intros i. rewrite !pc_padd. lia. Qed.
Lemma padd_assoc a b c : padd a (padd b c) == padd (padd a b) c. Proof. apply peq_ext. intros i. rewrite !pc_padd. lia. Qed.
Lemma pmul_cons_r x b : forall a, pmul a (x :: b) == padd (pscal x a) (0 :: pmul a b).
Proof.
  induction a as [|y a IH]; [apply peq_ext; intros [|i]; rewrite pc_nil, pc_padd, pc_pscal, pc_nil; [rewrite pc_cons0; lia|rewrite pc_consS; cbn [pmul]; rewrite pc_nil; lia]|].
  intros i. rewrite pc_pmul_cons, pc_padd, pc_pscal. destruct i as [|i]; rewrite ?pc_cons0, ?pc_consS; [rewrite Z.mul_comm; reflexivity|]. rewrite (IH i), pc_padd, pc_pscal, pc_pmul_cons. destruct i as [|i]; rewrite ?pc_cons0, ?pc_consS.
  - replace (y * pc b 0 + (x * pc a 0 + 0)) with (x * pc a 0 + (y * pc b 0 + 0)) by ring. reflexivity.
  - replace (y * pc b (S i) + (x * pc a (S i) + pc (pmul a b) i)) with (x * pc a (S i) + (y * pc b (S i) + pc (pmul a b) i)) by ring. reflexivity.
Qed.
Lemma pmul_comm a : forall b, pmul a b == pmul b a.
Proof.
  induction a as [|x a IH]; intros b.
  - symmetry. cbn [pmul]. induction b as [|y b IHb]; [reflexivity|]. intros [|i]; rewrite pc_pmul_cons, !pc_nil; [|rewrite (IHb i), pc_nil]; replace (y * 0 + 0) with 0 by ring; reflexivity.
  - rewrite pmul_cons_r. cbn [pmul]. rewrite (IH b). reflexivity.
Qed.
Lemma pmul_add_l a : forall b c, pmul (padd a b) c == padd (pmul a c) (pmul b c).
Proof.
  induction a as [|x a IH]; intros [|y b] c; cbn [padd]; try (apply peq_ext; intros i; rewrite pc_padd; cbn [pmul]; rewrite ?pc_nil; lia).
  intros i. rewrite pc_padd, !pc_pmul_cons. destruct i as [|i]; [replace ((x + y) * pc c 0 + 0) with (x * pc c 0 + 0 + (y * pc c 0 + 0)) by ring; reflexivity|]. rewrite (IH b c i), pc_padd.
  replace ((x + y) * pc c (S i) + (pc (pmul a c) i + pc (pmul b c) i)) with (x * pc c (S i) + pc (pmul a c) i + (y * pc c (S i) + pc (pmul b c) i)) by ring. reflexivity.
Qed.
Lemma pmul_scal_l x a : forall c, pmul (pscal x a) c == pscal x (pmul a c).
Proof.
  induction a as [|y a IH]; intros c; [reflexivity|]. intros i. cbn [pscal map]. fold (pscal x a). rewrite pc_pscal, !pc_pmul_cons. destruct i as [|i]; [replace (x * y * pc c 0 + 0) with (x * (y * pc c 0 + 0)) by ring; reflexivity|].
  rewrite (IH c i), pc_pscal. replace (x * y * pc c (S i) + x * pc (pmul a c) i) with (x * (y * pc c (S i) + pc (pmul a c) i)) by ring. reflexivity.
Qed.
Lemma pmul_x_l a c : pmul (0 :: a) c == 0 :: pmul a c.
Proof. apply peq_ext. intros i. rewrite pc_pmul_cons. destruct i; rewrite ?pc_cons0, ?pc_consS; lia. Qed.
Lemma pmul_assoc a : forall b c, pmul a (pmul b c) == pmul (pmul a b) c.
Proof.
  induction a as [|x a IH]; intros b c; [reflexivity|]. cbn [pmul]. rewrite pmul_add_l, pmul_scal_l, pmul_x_l, (IH b c). reflexivity.
Qed.
Lemma pmul_1_l a : pmul [1] a == a.
Proof. apply peq_ext. intros i. rewrite pc_pmul_cons. destruct i; cbn [pmul]; rewrite ?pc_nil; lia. Qed.
Definition pring : ring_theory [] [1] padd pmul psub popp (peq p).
Proof.
  constructor.
  - intros a. reflexivity.
  - apply padd_comm.
  - apply padd_assoc.
  - apply pmul_1_l.
  - intros; apply pmul_comm.
  - apply pmul_assoc.
  - apply pmul_add_l.
  - intros; reflexivity.
  - intros a. apply peq_ext. intros i. rewrite pc_padd, pc_popp, pc_nil. lia.
Qed.
Definition prext : ring_eq_ext padd pmul popp (peq p).
Proof. constructor; [apply padd_m|apply pmul_m|apply popp_m]. Qed.
Add Ring fp_ring : pring (setoid peq_eq prext).
Goal forall a b c, pmul (padd a b) (psub c a) == psub (padd (pmul a c) (pmul c b)) (padd (pmul a a) (pmul b a)). Proof. intros. ring. Qed.
Lemma pscal_pmul c a : pscal c a == pmul [c] a.
Proof. apply peq_ext. intros i. rewrite pc_pscal, pc_pmul_cons. destruct i; cbn [pmul]; rewrite ?pc_nil; lia. Qed.
Lemma pshift_pmul n a : pshift n a == pmul (pX n) a.
Proof.
  induction n as [|n IH]; [unfold pX, pshift; cbn [repeat app]; symmetry; apply pmul_1_l|].
  change (pshift (S n) a) with (0 :: pshift n a). change (pX (S n)) with (0 :: pX n). rewrite pmul_x_l, IH. reflexivity.
Qed.
Lemma pX_add m n : pX (m + n) == pmul (pX m) (pX n).
Proof. rewrite <- pshift_pmul. apply peq_ext. intros i. rewrite pc_pshift, !pc_pX. destruct (Nat.ltb_spec i m); destruct (Nat.eqb_spec i (m + n)); try lia. all: destruct (Nat.eqb_spec (i - m) n); lia. Qed.
End P.
#[export] Existing Instance peq_eq.
#[export] Existing Instance pc_m.
#[export] Existing Instance padd_m.
#[export] Existing Instance popp_m.
#[export] Existing Instance psub_m.
#[export] Existing Instance pscal_m.
#[export] Existing Instance pcons_m.
#[export] Existing Instance pshift_m.
#[export] Existing Instance pmul_m.

(** * Degrees *)
Section D.
Variable p : Z.
Hypothesis Hp : prime p.
Notation "a == b" := (peq p a b) (at level 70).
Notation "a =p b" := (eqp p a b) (at level 70).
Add Ring fp_ring2 : (pring p) (setoid (peq_eq p) (prext p)).
Lemma p2 : 2 <= p. Proof. apply prime_ge_2. exact Hp. Qed.
Lemma eqp_dec a b : {a =p b} + {~ a =p b}.
Proof.
  destruct (Z.eq_dec (a mod p) (b mod p)) as [E|E]; [left|right]; [apply eqp_iff_mod; [pose proof p2; lia|exact E]|intros H; apply E; apply eqp_iff_mod; [pose proof p2; lia|exact H]].
Qed.
Lemma eqp_integral a b : a * b =p 0 -> a =p 0 \/ b =p 0.
Proof. unfold eqp. rewrite !Z.sub_0_r. apply prime_mult. exact Hp. Qed.
Lemma one_ne : ~ 1 =p 0.
Proof. intros H. pose proof p2. apply eqp_0_small in H; lia. Qed.
Lemma zinv_ok a : ~ a =p 0 -> zinv p a * a =p 1 /\ 0 < zinv p a < p.
Proof.
  intros Ha. pose proof p2. pose proof (Z.log2_spec p ltac:(lia)) as [_ L]. pose proof (Z.log2_nonneg p). pose proof (Z.mod_pos_bound a p ltac:(lia)).
  assert (L' : p < 2 ^ (Z.log2 p + 1)) by exact L. assert (2 ^ (Z.log2 p + 1) <= 2 ^ (Z.log2 p + 3 - 1)) by (apply Z.pow_le_mono_r; lia). assert (0 < 2 ^ (Z.log2 p + 3 - 1)) by (apply Z.pow_pos_nonneg; lia).
  destruct (mod_p_inverse_prime (Z.log2 p + 3) (Z.log2 p + 1) (a mod p) p) as (x & E & B & M); try lia; try assumption.
  - intros D. apply Ha. rewrite <- (eqp_mod p a) by lia. unfold eqp. rewrite Z.sub_0_r. exact D.
  - unfold zinv. rewrite E. split; [|exact B]. rewrite <- (eqp_mod p a) at 1 by lia. apply eqp_iff_mod; [lia|]. rewrite M. symmetry. apply Z.mod_small. lia.
Qed.
#[local] Instance dlt_m : Proper (peq p ==> eq ==> iff) (dlt p).
Proof. intros a b H n m <-. split; intros K i Hi; [rewrite <- (H i)|rewrite (H i)]; auto. Qed.
#[local] Instance hdeg_m : Proper (peq p ==> eq ==> iff) (hdeg p).
Proof. intros a b H n m <-. unfold hdeg. rewrite H. reflexivity. Qed.
Lemma dlt_le a m n : (m <= n)%nat -> dlt p a m -> dlt p a n.
Proof. intros L H i Hi. apply H. lia. Qed.
Lemma dlt_0 a : dlt p a 0 <-> a == [].
Proof. split; intros H i; [rewrite pc_nil; apply H; lia|intros _; rewrite (H i), pc_nil; reflexivity]. Qed.
Lemma dlt_nil n : dlt p [] n. Proof. intros i _. rewrite pc_nil. reflexivity. Qed.
Lemma dlt_len a : dlt p a (length a). Proof. intros i Hi. rewrite pc_over by exact Hi. reflexivity. Qed.
Lemma dlt_add a b n : dlt p a n -> dlt p b n -> dlt p (padd a b) n.
Proof. intros H K i Hi. rewrite pc_padd, (H i Hi), (K i Hi). reflexivity. Qed.
Lemma dlt_sub a b n : dlt p a n -> dlt p b n -> dlt p (psub a b) n.
Proof. intros H K i Hi. rewrite pc_psub, (H i Hi), (K i Hi). reflexivity. Qed.
Lemma dlt_opp a n : dlt p a n -> dlt p (popp a) n.
Proof. intros H i Hi. rewrite pc_popp, (H i Hi). reflexivity. Qed.
Lemma dlt_scal c a n : dlt p a n -> dlt p (pscal c a) n.
Proof. intros H i Hi. rewrite pc_pscal, (H i Hi), Z.mul_0_r. reflexivity. Qed.
Lemma dlt_shift k a n : dlt p a n -> dlt p (pshift k a) (k + n).
Proof. intros H i Hi. rewrite pc_pshift. destruct (Nat.ltb_spec i k); [reflexivity|]. apply H. lia. Qed.
Lemma hdeg_dlt a n : hdeg p a n -> dlt p a (S n). Proof. intros [H _]; exact H. Qed.
Lemma hdeg_nz a n : hdeg p a n -> ~ a == [].
Proof. intros [_ H] E. apply H. rewrite (E n), pc_nil. reflexivity. Qed.
Lemma hdeg_dlt_lt a n m : hdeg p a n -> dlt p a m -> (n < m)%nat.
Proof. intros [_ H] K. destruct (Nat.lt_ge_cases n m) as [L|L]; [exact L|]. destruct (H (K n L)). Qed.
Lemma hdeg_uniq a m n : hdeg p a m -> hdeg p a n -> m = n.
Proof. intros H K. pose proof (hdeg_dlt_lt a m (S n) H (hdeg_dlt _ _ K)). pose proof (hdeg_dlt_lt a n (S m) K (hdeg_dlt _ _ H)). lia. Qed.
Lemma dlt_split a n : dlt p a (S n) -> dlt p a n \/ hdeg p a n.
Proof.
  intros H. destruct (eqp_dec (pc a n) 0) as [E|E]; [left|right; split; assumption]. intros i Hi. destruct (Nat.eq_dec i n) as [->|N]; [exact E|apply H; lia].
Qed.
Lemma dlt_hdeg a n : dlt p a n -> a == [] \/ exists m, (m < n)%nat /\ hdeg p a m.
Proof.
  induction n as [|n IH]; intros H; [left; apply dlt_0; exact H|]. destruct (dlt_split a n H) as [K|K]; [|right; exists n; split; [lia|exact K]].
  destruct (IH K) as [E|(m & Hm & E)]; [left; exact E|right; exists m; split; [lia|exact E]].
Qed.
Lemma deg_cases a : a == [] \/ exists n, hdeg p a n.
Proof. destruct (dlt_hdeg a _ (dlt_len a)) as [E|(m & _ & E)]; [left; exact E|right; exists m; exact E]. Qed.
Lemma hdeg_add a b n : hdeg p a n -> dlt p b n -> hdeg p (padd a b) n.
Proof.
  intros [H K] L. split; [apply dlt_add; [exact H|apply (dlt_le b n); [lia|exact L]]|]. rewrite pc_padd, (L n (le_n _)), Z.add_0_r. exact K.
Qed.
Lemma hdeg_opp a n : hdeg p a n -> hdeg p (popp a) n.
Proof. intros [H K]. split; [apply dlt_opp; exact H|]. rewrite pc_popp. intros E. apply K. rewrite <- (Z.opp_involutive (pc a n)), E. reflexivity. Qed.
Lemma hdeg_sub a b n : hdeg p a n -> dlt p b n -> hdeg p (psub a b) n.
Proof. intros H K. unfold psub. apply hdeg_add; [exact H|apply dlt_opp; exact K]. Qed.
Lemma hdeg_sub_r a b n : hdeg p b n -> dlt p a n -> hdeg p (psub a b) n.
Proof. intros H K. assert (E : psub a b == popp (psub b a)) by ring. rewrite E. apply hdeg_opp, hdeg_sub; assumption. Qed.
Lemma pmul_top a : forall b m n, dlt p a (S m) -> dlt p b (S n) -> dlt p (pmul a b) (S (m + n)) /\ pc (pmul a b) (m + n) =p pc a m * pc b n.
Proof.
  induction a as [|x a IH]; intros b m n Ha Hb.
  - cbn [pmul]. split; [apply dlt_nil|]. rewrite !pc_nil, Z.mul_0_l. reflexivity.
  - destruct m as [|m].
    + assert (Z : a == []) by (intros i; rewrite pc_nil; apply (Ha (S i)); lia). assert (E : pmul (x :: a) b == pscal x b).
      { intros i. rewrite pc_pmul_cons, pc_pscal. destruct i as [|i]; [rewrite Z.add_0_r; reflexivity|]. rewrite (pmul_zero_l p a Z b i), pc_nil, Z.add_0_r. reflexivity. }
      split; [rewrite E; apply dlt_scal; exact Hb|]. rewrite (E n), pc_pscal. reflexivity.
    + assert (Ha' : dlt p a (S m)) by (intros i Hi; apply (Ha (S i)); lia). destruct (IH b m n Ha' Hb) as [K1 K2]. split.
      * intros i Hi. rewrite pc_pmul_cons. destruct i as [|i]; [lia|]. rewrite (K1 i) by lia. rewrite (Hb (S i)) by lia. rewrite Z.mul_0_r. reflexivity.
      * cbn [plus]. rewrite pc_pmul_cons, pc_consS, K2. rewrite (Hb (S (m + n))) by lia. rewrite Z.mul_0_r. reflexivity.
Qed.
Lemma dlt_mul a b m n : dlt p a (S m) -> dlt p b n -> dlt p (pmul a b) (m + n).
Proof.
  intros Ha Hb. destruct n as [|n]; [|rewrite Nat.add_succ_r; apply pmul_top; assumption]. apply dlt_0 in Hb. rewrite Hb, pmul_comm. cbn [pmul]. apply dlt_nil.
Qed.
Lemma dlt_mul_l a b m n : dlt p a m -> dlt p b (S n) -> dlt p (pmul a b) (m + n).
Proof. intros Ha Hb. rewrite pmul_comm, Nat.add_comm. apply dlt_mul; assumption. Qed.
Lemma hdeg_mul a b m n : hdeg p a m -> hdeg p b n -> hdeg p (pmul a b) (m + n).
Proof.
  intros [Ha Ka] [Hb Kb]. destruct (pmul_top a b m n Ha Hb) as [K1 K2]. split; [exact K1|]. rewrite K2. intros E. destruct (eqp_integral _ _ E); auto.
Qed.
Lemma pmul_integral a b : pmul a b == [] -> a == [] \/ b == [].
Proof.
  intros E. destruct (deg_cases a) as [Ea|(m & Ha)]; [left; exact Ea|]. destruct (deg_cases b) as [Eb|(n & Hb)]; [right; exact Eb|]. destruct (hdeg_nz _ _ (hdeg_mul a b m n Ha Hb) E).
Qed.
Lemma psub_zero a b : psub a b == [] -> a == b.
Proof. intros H. assert (E : a == padd (psub a b) b) by ring. rewrite E, H. reflexivity. Qed.
Lemma pmul_cancel a b c : ~ c == [] -> pmul a c == pmul b c -> a == b.
Proof.
  intros Hc H. assert (E : pmul (psub a b) c == []) by (transitivity (psub (pmul a c) (pmul b c)); [ring|rewrite H; ring]). destruct (pmul_integral _ _ E) as [K|K]; [apply psub_zero; exact K|destruct (Hc K)].
Qed.
Lemma hdeg_pX n : hdeg p (pX n) n.
Proof.
  split; [intros i Hi; rewrite pc_pX; destruct (Nat.eqb_spec i n); [lia|reflexivity]|]. rewrite pc_pX, Nat.eqb_refl. apply one_ne.
Qed.
Lemma hdeg_const c : ~ c =p 0 -> hdeg p [c] 0.
Proof. intros H. split; [intros [|i] Hi; [lia|rewrite pc_consS, pc_nil; reflexivity]|exact H]. Qed.
Lemma hdeg_shift k a n : hdeg p a n -> hdeg p (pshift k a) (k + n).
Proof. intros H. rewrite pshift_pmul. apply hdeg_mul; [apply hdeg_pX|exact H]. Qed.
(** degrees of the factors of a product *)
Lemma hdeg_factor a b n : hdeg p (pmul a b) n -> exists i j, hdeg p a i /\ hdeg p b j /\ (i + j = n)%nat.
Proof.
  intros H. destruct (deg_cases a) as [Ea|(i & Ha)]; [exfalso; apply (hdeg_nz _ _ H); rewrite Ea; reflexivity|]. destruct (deg_cases b) as [Eb|(j & Hb)]; [exfalso; apply (hdeg_nz _ _ H); rewrite Eb, pmul_comm; reflexivity|].
  exists i, j. split; [exact Ha|split; [exact Hb|]]. exact (hdeg_uniq _ _ _ (hdeg_mul a b i j Ha Hb) H).
Qed.
(** uniqueness of division *)
Lemma div_unique q q' b n r r' : hdeg p b n -> dlt p r n -> dlt p r' n -> padd (pmul q b) r == padd (pmul q' b) r' -> q == q' /\ r == r'.
Proof.
  intros Hb Hr Hr' E. assert (E1 : pmul (psub q q') b == psub r' r).
  { transitivity (psub (padd (pmul q b) r) (padd (pmul q' b) r)); [ring|]. rewrite E. ring. }
  destruct (deg_cases (psub q q')) as [Z|(m & Hm)].
  - assert (Eq : q == q') by (apply psub_zero; exact Z). split; [exact Eq|]. symmetry. apply psub_zero. rewrite <- E1, Z. reflexivity.
  - exfalso. pose proof (hdeg_mul _ _ _ _ Hm Hb) as K. rewrite E1 in K. pose proof (hdeg_dlt_lt _ _ _ K (dlt_sub _ _ _ Hr' Hr)). lia.
Qed.

(** * Stored forms *)
Definition nf (a : list Z) : Prop := norm p a = a.
Lemma strip_peq a : strip a == a.
Proof.
  apply peq_ext. induction a as [|x a IH]; [reflexivity|]. intros i. cbn [strip]. destruct (strip a) as [|y r] eqn:E.
  - destruct (Z.eqb_spec x 0) as [->|N]; destruct i; rewrite ?pc_nil, ?pc_cons0, ?pc_consS; try reflexivity; [specialize (IH i)|specialize (IH i)]; rewrite pc_nil in IH; rewrite ?pc_nil; exact IH.
  - destruct i; [reflexivity|]. rewrite !pc_consS. apply IH.
Qed.
Lemma map_mod_peq a : map (fun x => x mod p) a == a.
Proof. pose proof p2. induction a as [|x a IH]; [reflexivity|]. cbn [map]. rewrite IH. rewrite eqp_mod by lia. reflexivity. Qed.
Lemma norm_peq a : norm p a == a.
Proof. unfold norm. rewrite strip_peq. apply map_mod_peq. Qed.
Lemma strip_idem a : strip (strip a) = strip a.
Proof.
  induction a as [|x a IH]; [reflexivity|]. cbn [strip]. destruct (strip a) as [|y r] eqn:E; [destruct (Z.eqb_spec x 0) as [->|N]; [reflexivity|cbn; destruct (Z.eqb_spec x 0); [contradiction|reflexivity]]|]. cbn [strip] in *. rewrite IH. reflexivity.
Qed.
Lemma strip_In a x : In x (strip a) -> In x a.
Proof.
  induction a as [|y a IH]; [auto|]. cbn [strip]. destruct (strip a) as [|z r]; [destruct (y =? 0); [intros []|intros [->|[]]; left; reflexivity]|]. intros [->|H]; [left; reflexivity|right; auto].
Qed.
Lemma map_mod_id (a : list Z) : (forall x, In x a -> 0 <= x < p) -> map (fun x => x mod p) a = a.
Proof. intros H. rewrite <- (map_id a) at 2. apply map_ext_in. intros x Hx. apply Z.mod_small. auto. Qed.
Lemma norm_In a x : In x (norm p a) -> 0 <= x < p.
Proof. intros H. apply strip_In in H. apply in_map_iff in H. destruct H as (y & <- & _). apply Z.mod_pos_bound. pose proof p2. lia. Qed.
Lemma nf_norm a : nf (norm p a).
Proof. unfold nf. unfold norm at 1. rewrite map_mod_id by (intros x; apply norm_In). apply strip_idem. Qed.
Lemma nf_range a : nf a -> forall x, In x a -> 0 <= x < p.
Proof. intros H x Hx. rewrite <- H in Hx. apply norm_In in Hx. exact Hx. Qed.
Lemma nf_pc a i : nf a -> 0 <= pc a i < p.
Proof. intros H. pose proof p2. unfold pc. destruct (nth_in_or_default i a 0) as [K|K]; [apply (nf_range a H); exact K|rewrite K; lia]. Qed.
Lemma nf_nil : nf []. Proof. reflexivity. Qed.
Lemma strip_last a x r : strip a = x :: r -> last (x :: r) 0 <> 0.
Proof.
  revert x r. induction a as [|y a IH]; intros x r; [discriminate|]. cbn [strip]. destruct (strip a) as [|z s] eqn:E.
  - destruct (Z.eqb_spec y 0) as [->|N]; [discriminate|]. intros K. injection K as <- <-. exact N.
  - intros K. injection K as <- <-. exact (IH z s eq_refl).
Qed.
Lemma last_nth (a : list Z) : last a 0 = pc a (length a - 1).
Proof.
  induction a as [|x a IH]; [reflexivity|]. destruct a as [|y a]; [reflexivity|]. change (last (x :: y :: a) 0) with (last (y :: a) 0). rewrite IH. cbn [length]. rewrite !Nat.sub_succ, !Nat.sub_0_r. reflexivity.
Qed.
Lemma nf_hdeg a n : nf a -> length a = S n -> hdeg p a n.
Proof.
  intros H L. split; [rewrite <- L; apply dlt_len|]. intros E. destruct a as [|x r]; [discriminate|]. pose proof (strip_last (map (fun x => x mod p) (x :: r)) x r H) as K. rewrite last_nth in K. rewrite L in K. rewrite Nat.sub_succ, Nat.sub_0_r in K. apply K. apply (eqp_0_small p); [apply nf_pc; exact H|exact E].
Qed.
Lemma nf_len a n : nf a -> hdeg p a n -> length a = S n.
Proof. intros H K. destruct (length a) as [|m] eqn:L; [|f_equal; exact (hdeg_uniq a _ _ (nf_hdeg a m H L) K)]. apply length_zero_iff_nil in L. subst a. destruct (hdeg_nz _ _ K). reflexivity. Qed.
Lemma nf_zero a : nf a -> a == [] -> a = [].
Proof. intros H E. destruct a as [|x r]; [reflexivity|]. exfalso. apply (hdeg_nz (x :: r) (length r) (nf_hdeg _ _ H eq_refl) E). Qed.
Lemma nf_dlt a n : nf a -> dlt p a n <-> (length a <= n)%nat.
Proof.
  intros H. split; [|intros L; apply (dlt_le a (length a)); [exact L|apply dlt_len]]. intros K. destruct (length a) as [|m] eqn:L; [lia|]. exact (hdeg_dlt_lt a m n (nf_hdeg a m H L) K).
Qed.
Lemma nf_ext a b : nf a -> nf b -> a == b -> a = b.
Proof.
  intros Ha Hb E. apply nth_ext with (d := 0) (d' := 0).
  - apply Nat.le_antisymm; [apply (nf_dlt a _ Ha); rewrite E; apply dlt_len|apply (nf_dlt b _ Hb); rewrite <- E; apply dlt_len].
  - intros n _. apply (eqp_small p); [apply (nf_pc a n Ha)|apply (nf_pc b n Hb)|apply E].
Qed.
Lemma norm_ext a b : a == b -> norm p a = norm p b.
Proof. intros E. apply nf_ext; try apply nf_norm. rewrite !norm_peq. exact E. Qed.
Lemma norm_nil_iff a : norm p a = [] <-> a == [].
Proof. split; intros H; [rewrite <- (norm_peq a), H; reflexivity|apply nf_zero; [apply nf_norm|rewrite norm_peq; exact H]]. Qed.
Lemma ndeg_lt a n : nf a -> ndeg a < Z.of_nat n <-> dlt p a n.
Proof. intros H. rewrite nf_dlt by exact H. unfold ndeg. lia. Qed.
Lemma nsub_peq a b : nsub p a b == psub a b. Proof. apply norm_peq. Qed.
Lemma nadd_peq a b : nadd p a b == padd a b. Proof. apply norm_peq. Qed.
Lemma nmul_peq a b : nmul p a b == pmul a b. Proof. apply norm_peq. Qed.
Lemma nscal_peq c a : nscal p c a == pscal c a. Proof. apply norm_peq. Qed.
Lemma nshift_peq n a : nshift p n a == pshift n a. Proof. apply norm_peq. Qed.
Lemma nmonic_ok a n : nf a -> hdeg p a n -> exists b, nmonic p a = Some b /\ nf b /\ b == pscal (zinv p (pc a n)) a /\ ~ zinv p (pc a n) =p 0 /\ hdeg p b n /\ pc b n = 1 /\ length b = S n.
Proof.
  intros H K. pose proof (nf_len a n H K) as L. destruct (zinv_ok (pc a n) (proj2 K)) as [Z1 Z2]. assert (Zn : ~ zinv p (pc a n) =p 0) by (intros E; apply eqp_0_small in E; lia).
  exists (nscal p (zinv p (pc a n)) a). assert (E : nscal p (zinv p (pc a n)) a == pscal (zinv p (pc a n)) a) by apply nscal_peq. assert (Hd : hdeg p (nscal p (zinv p (pc a n)) a) n).
  { rewrite E, pscal_pmul. apply (hdeg_mul _ _ 0 n); [apply hdeg_const; exact Zn|exact K]. }
  split; [unfold nmonic; destruct a; [discriminate|]; rewrite last_nth, L, Nat.sub_succ, Nat.sub_0_r; reflexivity|]. split; [apply nf_norm|]. split; [exact E|]. split; [exact Zn|]. split; [exact Hd|]. split; [|apply nf_len; [apply nf_norm|exact Hd]].
  pose proof p2. apply (eqp_small p); [apply nf_pc, nf_norm|lia|]. rewrite (E n), pc_pscal. exact Z1.
Qed.

Lemma divrem_loop_ok b n : nf b -> hdeg p b n -> forall fuel a, nf a -> (length a < fuel)%nat -> exists q r, divrem_loop fuel p a b (zinv p (last b 0)) = Some (q, r) /\ a == padd (pmul q b) r /\ dlt p r n /\ nf q /\ nf r.
Proof.
  intros Hb Hd. pose proof (nf_len b n Hb Hd) as Lb. assert (Eb : last b 0 = pc b n) by (rewrite last_nth, Lb, Nat.sub_succ, Nat.sub_0_r; reflexivity). rewrite Eb. destruct (zinv_ok (pc b n) (proj2 Hd)) as [Z1 _].
  induction fuel as [|fuel IH]; intros a Ha F; [lia|]. cbn [divrem_loop]. destruct (Nat.ltb_spec (length a) (length b)) as [L|L].
  - exists [], a. split; [reflexivity|]. split; [ring|]. split; [apply nf_dlt; [exact Ha|lia]|]. split; [apply nf_nil|exact Ha].
  - destruct (length a) as [|m] eqn:La; [lia|]. pose proof (nf_hdeg a m Ha La) as Da. set (c := (last a 0 * zinv p (pc b n)) mod p). set (k := (S m - length b)%nat). set (a' := nsub p a (pshift k (pscal c b))).
    assert (Ec : c * pc b n =p pc a m). { unfold c. rewrite eqp_mod by (pose proof p2; lia). rewrite last_nth, La, Nat.sub_succ, Nat.sub_0_r. replace (pc a m * zinv p (pc b n) * pc b n) with (pc a m * (zinv p (pc b n) * pc b n)) by ring. rewrite Z1, Z.mul_1_r. reflexivity. }
    assert (Na : nf a') by apply nf_norm. assert (E' : a' == psub a (pmul (pshift k [c]) b)). { unfold a'. rewrite nsub_peq, !pshift_pmul, pscal_pmul. ring. }
    assert (D' : dlt p a' m).
    { unfold a'. rewrite nsub_peq. intros i Hi. rewrite pc_psub, pc_pshift, pc_pscal. replace (i <? k)%nat with false by (symmetry; apply Nat.ltb_ge; unfold k; lia). destruct (Nat.eq_dec i m) as [->|N].
      - replace (m - k)%nat with n by (unfold k; lia). rewrite Ec, Z.sub_diag. reflexivity.
      - rewrite (hdeg_dlt a m Da i) by lia. rewrite (hdeg_dlt b n Hd (i - k)%nat) by (unfold k; lia). rewrite Z.mul_0_r. reflexivity. }
    destruct (IH a' Na) as (q & r & E1 & E2 & E3 & E4 & E5); [apply nf_dlt in D'; [lia|exact Na]|]. rewrite E1. unfold obind. cbn [fst snd].
    eexists; exists r; split; [reflexivity|]. split; [|split; [exact E3|split; [apply nf_norm|exact E5]]]. rewrite nadd_peq. assert (Ea : a == padd (pmul (pshift k [c]) b) a') by (rewrite E'; ring). rewrite Ea, E2. ring.
Qed.
Lemma ndivrem_ok a b n : nf a -> nf b -> hdeg p b n -> exists q r, ndivrem p a b = Some (q, r) /\ a == padd (pmul q b) r /\ dlt p r n /\ nf q /\ nf r.
Proof.
  intros Ha Hb Hd. unfold ndivrem. destruct b as [|x b]; [destruct (hdeg_nz _ _ Hd); reflexivity|]. apply divrem_loop_ok; auto.
Qed.
(** degree of the quotient *)
Lemma quot_deg a b q r m n : hdeg p a m -> hdeg p b n -> (n <= m)%nat -> a == padd (pmul q b) r -> dlt p r n -> hdeg p q (m - n).
Proof.
  intros Ha Hb L E Hr. assert (K : hdeg p (pmul q b) m). { assert (E' : pmul q b == psub a r) by (rewrite E; ring). rewrite E'. apply hdeg_sub; [exact Ha|apply (dlt_le r n); assumption]. }
  destruct (hdeg_factor q b m K) as (i & j & Hi & Hj & S'). rewrite (hdeg_uniq b n j Hb Hj). replace (m - j)%nat with i by lia. exact Hi.
Qed.
End D.
#[export] Existing Instance dlt_m.
#[export] Existing Instance hdeg_m.
