(** Numerators of the generating series of a sequence, with respect to a polynomial: N(V, s) is the polynomial part of V(T) (s_0/T + s_1/T^2 + ...). *)
From Coq Require Import ZArith NArith Arith List Bool Lia Znumtheory Setoid Morphisms Ring.
From Verif Require Import LinSpec FpSpec ModInvModel NmodModel FpProofs BmModel BmProofs BmProps RexFp.
Import ListNotations.
Open Scope Z_scope.

Fixpoint Nm (V : list Z) (s : nat -> Z) : list Z := match V with [] => [] | _ :: V' => apply_at V' s 0 :: Nm V' s end.
Lemma Nm_len V s : length (Nm V s) = length V.
Proof. induction V as [|c V IH]; [reflexivity|]. cbn [Nm length]. rewrite IH. reflexivity. Qed.
Lemma Nm_pc V s : forall e, pc (Nm V s) e = apply_at (skipn (S e) V) s 0.
Proof.
  induction V as [|c V IH]; intros e; [rewrite pc_nil; reflexivity|]. destruct e as [|e]; cbn [Nm]; [rewrite pc_cons0; reflexivity|]. rewrite pc_consS, IH. reflexivity.
Qed.
Lemma padd_nil_r a : padd a [] = a.
Proof. destruct a; reflexivity. Qed.
Lemma skipn_padd n : forall a b, skipn n (padd a b) = padd (skipn n a) (skipn n b).
Proof.
  induction n as [|n IH]; intros [|x a] [|y b]; try reflexivity; cbn [padd skipn]; [rewrite padd_nil_r; reflexivity|apply IH].
Qed.
Lemma skipn_pscal n c a : skipn n (pscal c a) = pscal c (skipn n a).
Proof. unfold pscal. revert a. induction n as [|n IH]; intros [|x a]; try reflexivity. cbn [map skipn]. apply IH. Qed.
Lemma pc_skipn n a i : pc (skipn n a) i = pc a (n + i).
Proof. unfold pc. revert a. induction n as [|n IH]; intros [|x a]; [reflexivity|reflexivity|destruct i; reflexivity|]. cbn [skipn Nat.add nth]. apply IH. Qed.
(** the computation by the program *)
Lemma num_pc s n : forall V e, (length V <= S n)%nat -> pc (pmul V (rev (map s (seq 0 n)))) (n + e) = apply_at (skipn (S e) V) s 0.
Proof.
  induction V as [|c V IH]; intros e L; [cbn [pmul]; rewrite pc_nil; reflexivity|]. cbn [length] in L. rewrite pc_pmul_cons. rewrite (pc_over (rev _)) by (rewrite rev_length, map_length, seq_length; lia). rewrite Z.mul_0_r, Z.add_0_l. destruct e as [|e].
  - rewrite Nat.add_0_r. change (skipn 1 (c :: V)) with V. destruct n as [|n]; [destruct V; [reflexivity|cbn [length] in L; lia]|]. rewrite pc_mul_seq by lia. f_equal. lia.
  - replace (n + S e)%nat with (S (n + e)) by lia. rewrite IH by lia. reflexivity.
Qed.

Section Num.
Variable p : Z.
Hypothesis Hp : prime p.
Notation "a == b" := (peq p a b) (at level 70).
Notation "a =p b" := (eqp p a b) (at level 70).
Add Ring nm_ring : (pring p) (setoid (peq_eq p) (prext p)).
Lemma skipn_peq n a b : a == b -> skipn n a == skipn n b.
Proof. intros H i. rewrite !pc_skipn. apply H. Qed.
Lemma Nm_peq V W s : V == W -> Nm V s == Nm W s.
Proof. intros H e. rewrite !Nm_pc. apply apply_peq. apply skipn_peq. exact H. Qed.
Lemma Nm_ext V s t : (forall i, s i =p t i) -> Nm V s == Nm V t.
Proof. intros H e. rewrite !Nm_pc. apply apply_ext. exact H. Qed.
Lemma Nm_padd V W s : Nm (padd V W) s == padd (Nm V s) (Nm W s).
Proof. intros e. rewrite pc_padd, !Nm_pc, skipn_padd, apply_padd. reflexivity. Qed.
Lemma Nm_pscal c V s : Nm (pscal c V) s == pscal c (Nm V s).
Proof. intros e. rewrite pc_pscal, !Nm_pc, skipn_pscal, apply_pscal. reflexivity. Qed.
Lemma Nm_scal_seq V c s : Nm V (fun i => c * s i) == pscal c (Nm V s).
Proof. intros e. rewrite pc_pscal, !Nm_pc. generalize (skipn (S e) V) as q. intros q. replace (apply_at q (fun i => c * s i) 0) with (c * apply_at q s 0); [reflexivity|]. generalize 0%nat as i. induction q as [|a q IH]; intros i; cbn [apply_at]; [ring|]. rewrite <- IH. ring. Qed.
Lemma Nm_add_seq V s t : Nm V (fun i => s i + t i) == padd (Nm V s) (Nm V t).
Proof. intros e. rewrite pc_padd, !Nm_pc. generalize (skipn (S e) V) as q. intros q. replace (apply_at q (fun i => s i + t i) 0) with (apply_at q s 0 + apply_at q t 0); [reflexivity|]. generalize 0%nat as i. induction q as [|a q IH]; intros i; cbn [apply_at]; [ring|]. rewrite <- IH. ring. Qed.
Lemma Nm_zero V s : (forall i, s i =p 0) -> Nm V s == [].
Proof. intros H e. rewrite Nm_pc, pc_nil. rewrite (apply_ext p _ s (fun _ => 0) H 0). generalize (skipn (S e) V), 0%nat. induction l as [|a q IH]; intros i; cbn [apply_at]; [reflexivity|]. rewrite IH. exists 0. ring. Qed.
(** the numerator of a product *)
Lemma Nm_mul A B s : Nm (pmul A B) s == padd (pmul A (Nm B s)) (Nm A (apply_at B s)).
Proof.
  induction A as [|a A IH]; [reflexivity|]. cbn [pmul]. rewrite Nm_padd, Nm_pscal. cbn [Nm]. rewrite IH, apply_pmul. intros e. rewrite !pc_padd. destruct e as [|e]; rewrite ?pc_cons0, ?pc_consS; [|rewrite !pc_padd]; exists 0; ring.
Qed.
Lemma Nm_dlt V s n : dlt p V (S n) -> dlt p (Nm V s) n.
Proof. intros H e He. rewrite Nm_pc. apply apply_zero. intros i. rewrite pc_skipn, pc_nil. apply H. lia. Qed.
(** a sequence annihilated by g and with numerator zero is zero *)
Lemma Nm_inj g n s : hdeg p g n -> annihilates p g s -> Nm g s == [] -> forall i, s i =p 0.
Proof.
  intros Hg An Z0. apply (recurrence_zero p Hp g s n Hg An). intros i. induction i as [i IH] using lt_wf_ind. intros Hi.
  pose proof (Z0 (n - 1 - i)%nat) as E. rewrite Nm_pc, pc_nil in E. rewrite (apply_top p (skipn (S (n - 1 - i)) g) s i 0) in E.
  - rewrite pc_skipn in E. replace (S (n - 1 - i) + i)%nat with n in E by lia. destruct (eqp_integral p Hp _ _ E) as [K|K]; [destruct (proj2 Hg K)|exact K].
  - intros j Hj. rewrite pc_skipn. apply (proj1 Hg). lia.
  - intros j Hj. apply IH; lia.
Qed.
(** multiples: modulo V the numerator of c(shift) s is c times the numerator of s, for s annihilated by V *)
Lemma Nm_shift V c s : annihilates p V s -> pdvd p V (psub (Nm V (apply_at c s)) (pmul c (Nm V s))).
Proof.
  intros An. pose proof (Nm_mul c V s) as E1. pose proof (Nm_mul V c s) as E2. assert (E3 : Nm (pmul c V) s == Nm (pmul V c) s) by (apply Nm_peq; ring).
  rewrite (Nm_zero c (apply_at V s) An) in E1. exists (popp (Nm c s)).
  assert (E : padd (pmul V (Nm c s)) (Nm V (apply_at c s)) == pmul c (Nm V s)) by (rewrite <- E2, <- E3, E1; ring). rewrite <- E. ring.
Qed.
(** modulo E the numerator with respect to QE is the numerator with respect to E of Q(shift) s *)
Lemma Nm_part V Q E s : V == pmul Q E -> pdvd p E (psub (Nm V s) (Nm E (apply_at Q s))).
Proof.
  intros H. exists (Nm Q s). assert (K : Nm V s == padd (pmul E (Nm Q s)) (Nm E (apply_at Q s))) by (rewrite <- Nm_mul; apply Nm_peq; rewrite H; ring). rewrite K. ring.
Qed.
(** the minimal polynomial and the numerator have no common factor *)
Lemma Nm_coprime V w s g n : hdeg p V w -> minimal_polynomial p V s -> hdeg p g n -> pdvd p g V -> pdvd p g (Nm V s) -> n = 0%nat.
Proof.
  intros HV [An Mn] Hg (W & EW) GN. destruct n as [|n]; [reflexivity|]. exfalso.
  assert (K : Nm V s == padd (pmul g (Nm W s)) (Nm g (apply_at W s))) by (rewrite <- Nm_mul; apply Nm_peq; rewrite EW; ring).
  assert (GA : annihilates p g (apply_at W s)). { intros i. rewrite <- apply_pmul. rewrite (apply_peq p (pmul g W) V); [apply An|]. rewrite EW. ring. }
  assert (Z0 : Nm g (apply_at W s) == []).
  { destruct GN as (c & Ec). destruct (div_unique p Hp (psub c (Nm W s)) [] g (S n) [] (Nm g (apply_at W s)) Hg) as [_ R].
    - apply dlt_nil.
    - apply Nm_dlt. apply Hg.
    - assert (E : Nm g (apply_at W s) == psub (pmul c g) (pmul g (Nm W s))) by (rewrite <- Ec, K; ring). rewrite E. ring.
    - symmetry. exact R. }
  pose proof (Nm_inj g (S n) _ Hg GA Z0) as WA. destruct (Mn W WA) as (c & Ec). rewrite EW in HV. destruct (hdeg_factor p Hp _ _ _ HV) as (i & j & Hi & Hj & Sj). pose proof (hdeg_uniq p _ _ _ Hj Hg) as ->.
  assert (HW : hdeg p (pmul c V) i) by (apply (hdeg_ext p W); [exact Ec|exact Hi]). assert (HV' : hdeg p V w) by (apply (hdeg_ext p (pmul W g)); [symmetry; exact EW|exact HV]). destruct (hdeg_factor p Hp _ _ _ HW) as (i' & j' & _ & Hj' & S'). pose proof (hdeg_uniq p _ _ _ Hj' HV'). lia.
Qed.
End Num.
