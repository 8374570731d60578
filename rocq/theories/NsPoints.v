(** The zeros of the input and the points of a parametrisation of the colon ideal. *)
From Coq Require Import ZArith NArith Arith List Bool Lia Znumtheory Setoid Morphisms Ring.
From Verif Require Import LinSpec MonoSpec MonoSpecProofs GbSpec GbProofs GbIdeal PointSpec PointProofs.
From Verif Require Import FpSpec FglmSpec ModInvModel NmodModel FpProofs BmModel BmProofs BmProps FglmModel MatVecProofs ParamProofs FglmCore StepSpec ParamIdeal RexFp NsSpec NsProofs.
Import ListNotations.
Open Scope Z_scope.

Section Val.
Variables (K : Type) (k0 k1 : K) (add mul sub : K -> K -> K) (opp : K -> K) (p : Z).
Hypothesis RK : ring_theory k0 k1 add mul sub opp eq.
Add Ring NsVal_ring : RK.
Notation kz := (kz K k0 k1 add mul opp).
Notation uval := (uval K k0 k1 add mul opp).
Notation pval := (pval K k0 k1 add mul opp).
Notation kpow := (kpow K k1 mul).
Hypothesis RP : kz p = k0.
Notation zero_at := (zero_at K k0 k1 add mul opp p).
Let Z0 : kz 0 = k0 := kz_0 K k0 k1 add mul sub opp RK.
Lemma nval_padd x a : forall b, uval x (padd a b) = add (uval x a) (uval x b).
Proof. induction a as [|y a IH]; intros [|z b]; cbn [padd PointSpec.uval]; try ring. rewrite IH, (kz_add K k0 k1 add mul sub opp RK). ring. Qed.
Lemma nval_pscal x c a : uval x (pscal c a) = mul (kz c) (uval x a).
Proof. unfold pscal. induction a as [|y a IH]; cbn [map PointSpec.uval]; [ring|]. rewrite IH, (kz_mul K k0 k1 add mul sub opp RK). ring. Qed.
Lemma nval_pmul x a b : uval x (FpSpec.pmul a b) = mul (uval x a) (uval x b).
Proof. induction a as [|y a IH]; cbn [FpSpec.pmul PointSpec.uval]; [ring|]. rewrite nval_padd, nval_pscal. cbn [PointSpec.uval]. rewrite IH, Z0. ring. Qed.
Lemma nval_zero x a : (forall i, eqp p (pc a i) 0) -> uval x a = k0.
Proof. induction a as [|y a IH]; intros H; [reflexivity|]. cbn [PointSpec.uval]. rewrite IH by (intros i; exact (H (S i))). pose proof (H 0%nat) as H0. rewrite pc_cons0 in H0. rewrite (kz_eqp K k0 k1 add mul sub opp p RK RP _ _ H0), Z0. ring. Qed.
Lemma nval_peq x a : forall b, FpSpec.peq p a b -> uval x a = uval x b.
Proof.
  induction a as [|y a IH]; intros b H.
  - symmetry. apply nval_zero. intros i. rewrite <- (H i), pc_nil. reflexivity.
  - destruct b as [|z b]; [apply nval_zero; intros i; rewrite (H i), pc_nil; reflexivity|]. cbn [PointSpec.uval]. rewrite (IH b) by (intros i; exact (H (S i))). pose proof (H 0%nat) as H0. rewrite !pc_cons0 in H0. rewrite (kz_eqp K k0 k1 add mul sub opp p RK RP _ _ H0). reflexivity.
Qed.
Lemma nval_dvd x a b : pdvd p a b -> uval x a = k0 -> uval x b = k0.
Proof. intros [q Hq] E. rewrite (nval_peq x b _ Hq), nval_pmul, E. ring. Qed.
Lemma nval_pow x a e : (forall y z, mul y z = k0 -> y = k0 \/ z = k0) -> k1 <> k0 -> uval x (ppow a e) = k0 -> uval x a = k0.
Proof.
  intros DO N1. induction e as [|e IH]; cbn [ppow].
  - cbn [PointSpec.uval]. rewrite (kz_1 K k0 k1 add mul sub opp RK). intros H. exfalso. apply N1. etransitivity; [|exact H]. ring.
  - rewrite nval_pmul. intros H. destruct (DO _ _ H) as [E|E]; [exact E|apply IH; exact E].
Qed.
(** the terms of Q(x_n) h *)
Fixpoint qt (nv : nat) (Q : list Z) (s : nat) (h : list (Z * mono)) : list (Z * mono) :=
  match Q with [] => [] | c :: Q' => map (fun t => (c * fst t, snd t)) (shift (xpow nv (nv - 1) s) h) ++ qt nv Q' (S s) h end.
Lemma qt_len nv Q h : (forall t, In t h -> length (snd t) = nv) -> forall s t, In t (qt nv Q s h) -> length (snd t) = nv.
Proof.
  intros L. induction Q as [|c Q IH]; cbn [qt]; intros s t Ht; [destruct Ht|]. apply in_app_or in Ht as [Ht|Ht]; [|exact (IH (S s) t Ht)].
  apply in_map_iff in Ht as (t1 & <- & Ht). apply in_map_iff in Ht as (t2 & <- & Ht). cbn [snd]. rewrite mmul_length; [apply xpow_len|]. etransitivity; [apply xpow_len|symmetry; apply L; exact Ht].
Qed.
Lemma qt_val nv a h : (1 <= nv)%nat -> (forall t, In t h -> length (snd t) = nv) -> forall Q s, pval a (qt nv Q s h) = mul (mul (kpow (a (nv - 1)%nat) s) (uval (a (nv - 1)%nat) Q)) (pval a h).
Proof.
  intros NV L. induction Q as [|c Q IH]; cbn [qt PointSpec.uval]; intros s; [cbn [PointSpec.pval]; ring|]. rewrite (pval_app K k0 k1 add mul sub opp RK), (pval_scale K k0 k1 add mul sub opp RK), (IH (S s)).
  rewrite (pval_shift K k0 k1 add mul sub opp RK nv) by (try apply xpow_len; exact L). rewrite (mval_x K k0 k1 add mul sub opp RK nv (nv - 1) s a) by lia. cbn [PointSpec.kpow]. ring.
Qed.
Lemma qt_cf nv h : (forall t, In t h -> length (snd t) = nv) -> forall Q s m, length m = nv -> cf (qt nv Q s h) m = sumn (length Q) (fun i => pc Q i * GbSpec.pmul (xpow nv (nv - 1) (s + i)) (cf h) m).
Proof.
  intros L. induction Q as [|c Q IH]; intros s m Hm; [reflexivity|]. cbn [qt length]. rewrite cf_app, cf_scale, (IH (S s) m Hm). rewrite (cf_shift nv) by (try apply xpow_len; assumption).
  rewrite sumn_S. rewrite Nat.add_0_r. rewrite pc_cons0. f_equal. apply sumn_ext. intros i _. replace (s + S i)%nat with (S s + i)%nat by lia. reflexivity.
Qed.
Lemma zero_qmul nv a Q h : (1 <= nv)%nat -> (forall t, In t h -> length (snd t) = nv) -> zero_at nv a (qmul nv Q (cf h)) <-> mul (uval (a (nv - 1)%nat) Q) (pval a h) = k0.
Proof.
  intros NV L. transitivity (zero_at nv a (cf (qt nv Q 0 h))).
  - split; apply (zero_at_ext K k0 k1 add mul opp p); intros m Hm; rewrite (qt_cf nv h L Q 0 m Hm); reflexivity.
  - rewrite (zero_at_val K k0 k1 add mul sub opp p RK RP nv a _ (qt_len nv Q h L 0)), (qt_val nv a h NV L Q 0). cbn [PointSpec.kpow]. split; intros E; (etransitivity; [|exact E]); ring.
Qed.
End Val.

Section Zeros.
Variables (nv : nat) (p : Z) (F : list (list (Z * mono))) (V Q E : list Z) (cs : list (list Z)) (d : nat).
Hypothesis Pp : prime p.
Hypothesis NV : (1 <= nv)%nat.
Hypothesis LF : forall h t, In h F -> In t h -> length (snd t) = nv.
Notation n := (nv - 1)%nat.
Notation I := (ideal nv p (pfs F)).
Notation J := (colon nv p (pfs F) Q).
Hypothesis PA : parametrises nv p J d E cs.
Hypothesis GE : generates_last nv p J E.
Hypothesis GV : generates_last nv p (pfs F) V.
Hypothesis SP : squarefree_part p V Q E.
(** the input lies in the ideal of the parametrisation *)
Lemma in_param f : I f -> ideal nv p (param_gens nv E cs) f.
Proof.
  intros Hf. destruct PA as (_ & _ & _ & EI & _ & CO).
  destruct (ideal_uni nv p (param_gens nv E cs) cs NV) with (F := F) (f := f) as (g & Hg); [|exact LF|exact Hf|].
  { intros k Hk. apply ideal_gen. right. exists k. split; [exact Hk|reflexivity]. }
  assert (PJ : forall h, ideal nv p (param_gens nv E cs) h -> ideal nv p J h).
  { apply ideal_incl. intros h [->|(k & Hk & ->)]; [exact EI|apply CO; exact Hk]. }
  assert (UG : ideal nv p J (uni_at nv n g)).
  { assert (FJ : ideal nv p J f) by (apply ideal_gen; apply (colon_incl nv p (pfs F) Q NV); exact Hf).
    eapply I_eq; [apply lspan_add; [exact FJ|apply (lspan_scale nv p _ (-1) _ (PJ _ Hg))]|]. intros m Hm. cbv beta. exists 0. ring. }
  apply GE in UG as [q Hq]. eapply I_eq; [apply lspan_add; [exact Hg|]|].
  - eapply I_eq; [apply (uni_mul nv p _ NV q E); apply ideal_gen; left; reflexivity|]. intros x _. apply (uni_peq nv p NV). exact Hq.
  - intros m Hm. cbv beta. exists 0. ring.
Qed.
Variables (K : Type) (k0 k1 : K) (add mul sub : K -> K -> K) (opp : K -> K).
Hypothesis RM : ring_mod K k0 k1 add mul sub opp p.
Let RK := proj1 RM.
Let RP := proj2 RM.
Add Ring NsZ_ring : RK.
Notation uval := (uval K k0 k1 add mul opp).
Notation pval := (pval K k0 k1 add mul opp).
Notation zero_at := (zero_at K k0 k1 add mul opp p).
Notation zero_of := (zero_of K k0 k1 add mul opp F).
Notation point_of := (point_of K k0 k1 add mul opp nv E cs).
(** every point of the parametrisation is a zero of the input *)
Lemma point_zero a : point_of a -> zero_of a.
Proof.
  rewrite <- (list_zero K k0 k1 add mul sub opp p RK RP nv F a LF), <- (gens_zero K k0 k1 add mul sub opp p RK RP nv E cs a NV). intros H f Hf.
  apply (ideal_zero K k0 k1 add mul sub opp p RK nv a _ H). apply in_param. apply ideal_gen. exact Hf.
Qed.
Lemma zero_ideal a f : zero_of a -> I f -> zero_at nv a f.
Proof. rewrite <- (list_zero K k0 k1 add mul sub opp p RK RP nv F a LF). intros H. apply (ideal_zero K k0 k1 add mul sub opp p RK nv a _ H). Qed.
Lemma zero_uni a g : zero_at nv a (uni_at nv n g) <-> uval (a n) g = k0.
Proof. rewrite <- (pval_uni K k0 k1 add mul sub opp RK nv) by lia. apply (zero_at_val K k0 k1 add mul sub opp p RK RP nv a). intros t. apply uni_terms_len. Qed.
Lemma zero_V a : zero_of a -> uval (a n) V = k0.
Proof. intros H. apply zero_uni. apply (zero_ideal a _ H). apply GV. apply pdvd_refl. Qed.
(** what the multiples by Q say about a zero *)
Lemma zero_J a f h : (forall t, In t h -> length (snd t) = nv) -> (forall m, length m = nv -> f m = cf h m) -> zero_of a -> ideal nv p J f -> mul (uval (a n) Q) (pval a h) = k0.
Proof.
  intros L EF H HJ. apply (zero_qmul K k0 k1 add mul sub opp p RK RP nv a Q h NV L). apply (zero_ideal a _ H). apply (J_iff nv p (pfs F) Q NV) in HJ. eapply I_eq; [exact HJ|].
  intros m Hm. apply (qmul_eq nv p Q); [exact Hm|]. intros x Hx. rewrite (EF x Hx). reflexivity.
Qed.
Definition coord_terms (k : nat) (c : list Z) : list (Z * mono) := (1, xpow nv k 1) :: uni_terms nv n c.
Lemma coord_terms_len k c t : In t (coord_terms k c) -> length (snd t) = nv.
Proof. intros [<-|Ht]; [apply xpow_len|exact (uni_terms_len _ _ _ _ Ht)]. Qed.
Lemma coord_terms_cf k c m : coord_poly nv k n c m = cf (coord_terms k c) m.
Proof. unfold coord_poly, coord_terms. change (uni_at nv n c m) with (cf (uni_terms nv n c) m). cbn [cf fst snd]. destruct (mono_dec _ m); lia. Qed.
Lemma coord_terms_val k c a : (k < n)%nat -> pval a (coord_terms k c) = add (a k) (uval (a n) c).
Proof. intros Hk. unfold coord_terms. cbn [PointSpec.pval fst snd]. rewrite (pval_uni K k0 k1 add mul sub opp RK nv) by lia. rewrite (mval_x K k0 k1 add mul sub opp RK nv k 1 a) by lia. rewrite (kz_1 K k0 k1 add mul sub opp RK). cbn [PointSpec.kpow]. ring. Qed.
Lemma solve_k x y : add x y = k0 -> x = opp y.
Proof. intros H. transitivity (add (add x y) (opp y)); [ring|]. rewrite H. ring. Qed.
Hypothesis DO : forall y z, mul y z = k0 -> y = k0 \/ z = k0.
(** the last coordinate of a zero is a root of the elimination polynomial *)
Lemma zero_root a : k1 <> k0 -> zero_of a -> uval (a n) E = k0.
Proof. intros N1 H. destruct SP as (_ & _ & e & DV). apply (nval_pow K k0 k1 add mul sub opp RK (a n) E e DO N1). apply (nval_dvd K k0 k1 add mul sub opp p RK RP (a n) V); [exact DV|apply zero_V; exact H]. Qed.
(** a zero at which Q does not vanish is a point of the parametrisation *)
Lemma zero_found a : zero_of a -> uval (a n) Q <> k0 -> point_of a.
Proof.
  intros H NQ. assert (C : forall x, mul (uval (a n) Q) x = k0 -> x = k0) by (intros x Hx; destruct (DO _ _ Hx); [contradiction|assumption]). split.
  - apply C. rewrite <- (nval_pmul K k0 k1 add mul sub opp RK). rewrite <- (nval_peq K k0 k1 add mul sub opp p RK RP (a n) V _ (proj1 SP)). apply zero_V. exact H.
  - intros k Hk. apply solve_k. rewrite <- (coord_terms_val k _ a Hk). apply C. destruct PA as (_ & _ & _ & _ & _ & CO). apply (zero_J a (coord_poly nv k n (nth k cs []))); [apply coord_terms_len|intros m _; apply coord_terms_cf|exact H|apply CO; exact Hk].
Qed.
(** when every variable is a polynomial in the last one modulo the ideal, no zero is lost *)
Lemma zero_all a : k1 <> k0 -> (forall k, (k < n)%nat -> exists c, I (coord_poly nv k n c)) -> zero_of a -> point_of a.
Proof.
  intros N1 CI H. pose proof (zero_root a N1 H) as R. split; [exact R|]. intros k Hk. destruct (CI k Hk) as (c & Hc). destruct PA as (_ & _ & _ & _ & _ & CO). destruct (CO k Hk) as (_ & _ & _ & Jk).
  assert (HU : ideal nv p J (uni_at nv n (padd c (pscal (-1) (nth k cs []))))).
  { assert (CJ : ideal nv p J (coord_poly nv k n c)) by (apply ideal_gen; apply (colon_incl nv p (pfs F) Q NV); exact Hc).
    eapply I_eq; [apply lspan_add; [exact CJ|apply (lspan_scale nv p _ (-1) _ Jk)]|]. intros m Hm. cbv beta. rewrite (uni_padd nv NV), (uni_pscal nv NV). unfold coord_poly. exists 0. ring. }
  apply GE in HU. pose proof (nval_dvd K k0 k1 add mul sub opp p RK RP (a n) E _ HU R) as HS. rewrite (nval_padd K k0 k1 add mul sub opp RK), (nval_pscal K k0 k1 add mul sub opp RK) in HS.
  assert (M1 : kz K k0 k1 add mul opp (-1) = opp k1). { assert (HH : add (kz K k0 k1 add mul opp (-1)) k1 = k0) by (rewrite <- (kz_1 K k0 k1 add mul sub opp RK), <- (kz_add K k0 k1 add mul sub opp RK); apply (kz_0 K k0 k1 add mul sub opp RK)). apply solve_k. exact HH. }
  rewrite M1 in HS. assert (EC : uval (a n) c = uval (a n) (nth k cs [])) by (transitivity (opp (mul (opp k1) (uval (a n) (nth k cs [])))); [apply solve_k; exact HS|ring]).
  rewrite <- EC. apply solve_k. rewrite <- (coord_terms_val k c a Hk). apply (zero_at_val K k0 k1 add mul sub opp p RK RP nv a _ (coord_terms_len k c)). apply (zero_at_ext K k0 k1 add mul opp p nv a (coord_poly nv k n c)); [intros m _; apply coord_terms_cf|]. apply (zero_ideal a _ H Hc).
Qed.
End Zeros.
