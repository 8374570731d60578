(** Parametrisations over the rationals: points, good primes, images. *)
From Coq Require Import ZArith NArith Arith List Bool Lia Znumtheory Setoid Morphisms Ring Ring_theory.
From Verif Require Import LinSpec MonoSpec MonoSpecProofs GbSpec GbProofs GbIdeal FpSpec NmodModel FpProofs FglmSpec ParamProofs FglmCore PointSpec PointProofs StepSpec QgbSpec QgbProofs RurSpec RurSub.
Import ListNotations.
Open Scope Z_scope.

(** * Derivatives *)
Section Der.
Variable p : Z.
Notation "a == b" := (FpSpec.peq p a b) (at level 70).
Notation pmul := FpSpec.pmul.
Add Ring der_ring : (pring p) (setoid (peq_eq p) (prext p)).
Lemma pc_pderiv e i : pc (pderiv e) i = Z.of_nat (S i) * pc e (S i).
Proof.
  unfold pderiv, pc. destruct (Nat.lt_ge_cases i (length e - 1)) as [H|H].
  - rewrite (nth_indep _ 0 (Z.of_nat 0 * nth 0 e 0)) by (rewrite map_length, seq_length; exact H). rewrite (map_nth (fun i => Z.of_nat i * nth i e 0)), seq_nth by exact H. reflexivity.
  - rewrite nth_overflow by (rewrite map_length, seq_length; exact H). rewrite (nth_overflow e) by lia. ring.
Qed.
#[local] Instance pderiv_m : Proper (FpSpec.peq p ==> FpSpec.peq p) pderiv.
Proof. intros a b H i. rewrite !pc_pderiv, (H (S i)). reflexivity. Qed.
Lemma pderiv_add a b : pderiv (padd a b) == padd (pderiv a) (pderiv b).
Proof. intros i. rewrite pc_padd, !pc_pderiv, pc_padd. exists 0. ring. Qed.
Lemma pderiv_scal c a : pderiv (pscal c a) == pscal c (pderiv a).
Proof. intros i. rewrite pc_pscal, !pc_pderiv, pc_pscal. exists 0. ring. Qed.
Lemma pderiv_cons x a : pderiv (x :: a) == padd a (0 :: pderiv a).
Proof. intros [|i]; rewrite pc_padd, pc_pderiv, ?pc_consS, ?pc_cons0; [exists 0; lia|]. rewrite pc_pderiv. exists 0. lia. Qed.
Lemma pderiv_mul a b : pderiv (pmul a b) == padd (pmul (pderiv a) b) (pmul a (pderiv b)).
Proof.
  assert (X : forall y, 0 :: y == pmul [0; 1] y) by (intros y; rewrite pmul_x_l, pmul_1_l; reflexivity).
  induction a as [|x a IH]; [reflexivity|]. cbn [FpSpec.pmul]. rewrite pderiv_add, pderiv_scal, !pderiv_cons, IH. rewrite !(X (padd _ _)), !(X (pmul _ _)), (X (pderiv _)), !(pscal_pmul p). ring.
Qed.
End Der.
#[export] Existing Instance pderiv_m.

(** * Points *)
Section Pts.
Variables (K : Type) (k0 k1 : K) (add mul sub : K -> K -> K) (opp : K -> K).
Hypothesis CZ : char_zero K k0 k1 add mul sub opp.
Let RK : ring_theory k0 k1 add mul sub opp eq := proj1 CZ.
Add Ring Pts_ring : RK.
Notation kz := (kz K k0 k1 add mul opp).
Notation pval := (pval K k0 k1 add mul opp).
Notation uval := (uval K k0 k1 add mul opp).
Notation zero_at := (zero_at K k0 k1 add mul opp 0).
Let R0 : kz 0 = k0 := kz_0 K k0 k1 add mul sub opp RK.
Lemma q_zero nv a (G : pf -> Prop) h : (forall g, G g -> zero_at nv a g) -> (forall t, In t h -> length (snd t) = nv) -> qideal nv G (cf h) -> zero_at nv a (cf h).
Proof.
  intros HG L (d & Nd & H). apply (ideal_zero K k0 k1 add mul sub opp 0 RK nv a G HG) in H. apply (zero_at_val K k0 k1 add mul sub opp 0 RK R0 nv a h L).
  assert (L' : forall t, In t (map (fun t => (d * fst t, snd t)) h) -> length (snd t) = nv) by (intros t Ht; apply in_map_iff in Ht as (t' & <- & Ht'); exact (L t' Ht')).
  assert (Z : zero_at nv a (cf (map (fun t => (d * fst t, snd t)) h))). { eapply zero_at_ext; [|exact H]. intros m _. symmetry. apply cf_scale. }
  apply (zero_at_val K k0 k1 add mul sub opp 0 RK R0 nv a _ L') in Z. rewrite (pval_scale K k0 k1 add mul sub opp RK) in Z. exact (proj2 CZ d _ Nd Z).
Qed.
Definition rterms (nv k : nat) (c : list Z) (e : Z) : list (Z * mono) := (e, xpow nv k 1) :: uni_terms nv (nv - 1) c.
Lemma rterms_len nv k c e t : In t (rterms nv k c e) -> length (snd t) = nv.
Proof. intros [<-|Ht]; [apply xpow_len|exact (uni_terms_len _ _ _ _ Ht)]. Qed.
Lemma rterms_cf nv k c e m : cf (rterms nv k c e) m = e * cf [(1, xpow nv k 1)] m + uni_at nv (nv - 1) c m.
Proof. unfold rterms. change (uni_at nv (nv - 1) c m) with (cf (uni_terms nv (nv - 1) c) m). cbn [cf fst snd]. destruct (mono_dec _ m); lia. Qed.
Notation rpoint := (rational_point K k0 k1 add mul opp).
Lemma rgens_zero nv E cs a : (1 <= nv)%nat -> (forall f, rgens nv E cs f -> zero_at nv a f) <-> rpoint nv E cs a.
Proof.
  intros NV. assert (Z1 : zero_at nv a (uni_at nv (nv - 1) E) <-> uval (a (nv - 1)%nat) E = k0).
  { rewrite <- (pval_uni K k0 k1 add mul sub opp RK nv) by lia. apply (zero_at_val K k0 k1 add mul sub opp 0 RK R0 nv a). intros t. apply uni_terms_len. }
  assert (Z2 : forall k, (k < nv - 1)%nat -> zero_at nv a (fun m => rd cs k * cf [(1, xpow nv k 1)] m + uni_at nv (nv - 1) (rc cs k) m) <-> add (mul (kz (rd cs k)) (a k)) (uval (a (nv - 1)%nat) (rc cs k)) = k0).
  { intros k Hk. transitivity (zero_at nv a (cf (rterms nv k (rc cs k) (rd cs k)))). { split; apply zero_at_ext; intros m _; [symmetry|]; apply rterms_cf. }
    rewrite (zero_at_val K k0 k1 add mul sub opp 0 RK R0 nv a _ (rterms_len nv k _ _)). unfold rterms. cbn [PointSpec.pval fst snd]. rewrite (pval_uni K k0 k1 add mul sub opp RK nv) by lia. rewrite (mval_x K k0 k1 add mul sub opp RK nv k 1 a) by lia. cbn [kpow].
    replace (mul (a k) k1) with (a k) by ring. reflexivity. }
  split.
  - intros H. split; [apply Z1, H; left; reflexivity|]. intros k Hk. apply (Z2 k Hk). apply H. right. exists k. split; [exact Hk|reflexivity].
  - intros [A B] f [->|(k & Hk & ->)]; [apply Z1; exact A|apply Z2; [exact Hk|apply B; exact Hk]].
Qed.
Lemma rational_points nv F d E cs a : (1 <= nv)%nat -> (forall h t, In h F -> In t h -> length (snd t) = nv) -> rational_param nv F d E cs -> zero_of K k0 k1 add mul opp F a <-> rpoint nv E cs a.
Proof.
  intros NV LF (_ & _ & _ & _ & _ & _ & SI). rewrite <- (list_zero K k0 k1 add mul sub opp 0 RK R0 nv F a LF), <- (rgens_zero nv E cs a NV). split.
  - intros H f Hf. assert (Q : qideal nv (pfs F) f). { apply SI. exists 1. split; [lia|]. eapply lspan_ext; [apply ideal_gen; exact Hf|]. intros m _. lia. }
    destruct Hf as [->|(k & Hk & ->)]; [apply (q_zero nv a (pfs F)); [exact H|intros t; apply uni_terms_len|exact Q]|].
    apply (zero_at_ext K k0 k1 add mul opp 0 nv a (cf (rterms nv k (rc cs k) (rd cs k)))); [intros m _; apply rterms_cf|]. apply (q_zero nv a (pfs F)); [exact H|apply rterms_len|]. destruct Q as (x & Nx & Q). exists x. split; [exact Nx|]. eapply lspan_ext; [exact Q|]. intros m _. cbv beta. rewrite rterms_cf. reflexivity.
  - intros H f (h & Hh & ->). apply (q_zero nv a (rgens nv E cs)); [exact H|intros t; apply LF; exact Hh|]. apply SI. exists 1. split; [lia|]. eapply lspan_ext; [apply ideal_gen; exists h; split; [exact Hh|reflexivity]|]. intros m _. cbv beta. lia.
Qed.
End Pts.

(** * Good primes *)
Definition rgen (nv : nat) (E : list Z) (cs : list (list Z * Z)) (k : nat) : pf :=
  if (k <? nv - 1)%nat then (fun m => rd cs k * cf [(1, xpow nv k 1)] m + uni_at nv (nv - 1) (rc cs k) m) else uni_at nv (nv - 1) E.
Lemma rgens_rgen nv E cs f : (1 <= nv)%nat -> rgens nv E cs f <-> exists k, In k (seq 0 nv) /\ f = rgen nv E cs k.
Proof.
  intros NV. split.
  - intros [->|(k & Hk & ->)].
    + exists (nv - 1)%nat. split; [apply in_seq; lia|]. unfold rgen. destruct (Nat.ltb_spec (nv - 1) (nv - 1)); [lia|reflexivity].
    + exists k. split; [apply in_seq; lia|]. unfold rgen. destruct (Nat.ltb_spec k (nv - 1)); [reflexivity|lia].
  - intros (k & Hk & ->). apply in_seq in Hk. unfold rgen. destruct (Nat.ltb_spec k (nv - 1)); [right; exists k; split; [assumption|reflexivity]|left; reflexivity].
Qed.
Lemma finite_bad nv F d E cs : (1 <= nv)%nat -> rational_param nv F d E cs -> exists N, N <> 0 /\ forall p, prime p -> ~ (p | N) -> good_prime nv F d E cs p.
Proof.
  intros NV (_ & _ & N1 & (u & v & s & N2 & B) & _ & HC & SI).
  destruct (common (fun p (x : list Z * Z) => ~ (p | snd x)) cs) as (N3 & Z3 & K3). { intros [c e] Hx. exists e. split; [apply (HC c e Hx)|]. auto. }
  destruct (common (fun p f => exists x, ~ (p | x) /\ ideal nv 0 (rgens nv E cs) (fun m => x * cf f m)) F) as (N4 & Z4 & K4).
  { intros f Hf. assert (Q : qideal nv (pfs F) (cf f)). { exists 1. split; [lia|]. eapply lspan_ext; [apply ideal_gen; exists f; split; [exact Hf|reflexivity]|]. intros m _. lia. }
    apply SI in Q as (x & Nx & Q). exists x. split; [exact Nx|]. intros p _ D. exists x. split; [exact D|exact Q]. }
  destruct (common (fun p k => exists x, ~ (p | x) /\ ideal nv 0 (pfs F) (fun m => x * rgen nv E cs k m)) (seq 0 nv)) as (N5 & Z5 & K5).
  { intros k Hk. assert (Q : qideal nv (rgens nv E cs) (rgen nv E cs k)). { exists 1. split; [lia|]. eapply lspan_ext; [apply ideal_gen; apply rgens_rgen; [exact NV|]; exists k; split; [exact Hk|reflexivity]|]. intros m _. lia. }
    apply SI in Q as (x & Nx & Q). exists x. split; [exact Nx|]. intros p _ D. exists x. split; [exact D|exact Q]. }
  exists (nth d E 0 * s * N3 * N4 * N5). split; [repeat (intros X; apply Z.mul_eq_0 in X as [X|X]; [revert X|contradiction]); contradiction|].
  intros p Pp D. assert (D5 : ~ (p | N5)) by (intros X; apply D; apply Z.divide_mul_r; exact X). assert (D4 : ~ (p | N4)) by (intros X; apply D; apply Z.divide_mul_l; apply Z.divide_mul_r; exact X).
  assert (D3 : ~ (p | N3)) by (intros X; apply D; do 2 apply Z.divide_mul_l; apply Z.divide_mul_r; exact X). assert (D2 : ~ (p | s)) by (intros X; apply D; do 3 apply Z.divide_mul_l; apply Z.divide_mul_r; exact X). assert (D1 : ~ (p | nth d E 0)) by (intros X; apply D; do 4 apply Z.divide_mul_l; exact X).
  split; [exact D1|]. split; [intros c e Hx; exact (K3 p Pp D3 (c, e) Hx)|]. split; [exists u, v, s; split; [exact D2|exact B]|]. split; [intros f Hf; exact (K4 p Pp D4 f Hf)|]. intros g Hg. apply rgens_rgen in Hg as (k & Hk & ->); [|exact NV]. exact (K5 p Pp D5 k Hk).
Qed.

(** * Images modulo a good prime *)
Section Img.
Variables (nv : nat) (lt : mono -> mono -> Prop) (F Fp : list (list (Z * mono))) (d : nat) (E : list Z) (cs : list (list Z * Z)) (p : Z).
Hypothesis NV : (1 <= nv)%nat.
Hypothesis Pp : prime p.
Hypothesis RP : rational_param nv F d E cs.
Hypothesis GP : good_prime nv F d E cs p.
Notation "a == b" := (FpSpec.peq p a b) (at level 70).
Add Ring img_ring : (pring p) (setoid (peq_eq p) (prext p)).
Lemma p_gt : 1 < p. Proof. destruct Pp. assumption. Qed.
Lemma divides_unit x y : ~ (p | x) -> eqp p (x * y) 0 -> (p | y).
Proof. intros N H. unfold eqp in H. rewrite Z.sub_0_r in H. apply prime_mult in H as [H|H]; [contradiction|exact H|exact Pp]. Qed.
Lemma image_exists : exists el cp, param_image p d E cs el cp.
Proof.
  pose proof p_gt as P1. destruct RP as (_ & LE & _ & _ & _ & HC & _). destruct GP as (G1 & G2 & _).
  assert (IV : forall x, ~ (p | x) -> eqp p (x * zinv p x) 1). { intros x Nx. destruct (zinv_ok p Pp x) as [Z1 _]; [intros X; apply Nx; unfold eqp in X; rewrite Z.sub_0_r in X; exact X|]. rewrite Z.mul_comm. exact Z1. }
  assert (MI : forall x y i, ~ (p | x) -> eqp p (x * pc (map (fun c => (zinv p x * c) mod p) y) i) (pc y i)).
  { intros x y i Nx. assert (Q : pc (map (fun c => (zinv p x * c) mod p) y) i = (zinv p x * pc y i) mod p). { unfold pc. rewrite <- (map_nth (fun c => (zinv p x * c) mod p)). rewrite Z.mul_0_r, Zmod_0_l. reflexivity. }
    rewrite Q. pose proof (IV x Nx) as [z Hz]. pose proof (Z.div_mod (zinv p x * pc y i) p ltac:(lia)) as DM. exists (z * pc y i - x * ((zinv p x * pc y i) / p)). set (w := zinv p x * pc y i) in *.
    assert (W : x * w = (1 + z * p) * pc y i) by (unfold w; rewrite Z.mul_assoc; f_equal; lia). assert (M : w mod p = w - p * (w / p)) by lia. rewrite M. transitivity (x * w - x * (p * (w / p)) - pc y i); [ring|]. rewrite W. ring. }
  exists (map (fun c => (zinv p (nth d E 0) * c) mod p) E), (map (fun x => norm p (map (fun c => (zinv p (snd x) * c) mod p) (fst x))) cs).
  split; [rewrite map_length; exact LE|]. split.
  { pose proof (MI (nth d E 0) E d G1) as [z Hz]. unfold pc in Hz. set (y := nth d (map _ E) 0) in *. assert (0 <= y < p). { assert (In y (map (fun c => (zinv p (nth d E 0) * c) mod p) E)) as HI by (apply nth_In; rewrite map_length; lia). apply in_map_iff in HI as (c & <- & _). apply Z.mod_pos_bound. lia. }
    assert (D : (p | nth d E 0 * (y - 1))) by (exists z; lia). apply prime_mult in D as [D|D]; [contradiction| |exact Pp]. destruct D as [w Hw]. assert (w = 0) by nia. lia. }
  split; [intros c Hc; apply in_map_iff in Hc as (x & <- & _); apply Z.mod_pos_bound; lia|]. split; [intros i; apply (MI _ _ i G1)|]. split; [apply map_length|].
  intros k Hk. assert (EN : nth k (map (fun x => norm p (map (fun c => (zinv p (snd x) * c) mod p) (fst x))) cs) [] = norm p (map (fun c => (zinv p (rd cs k) * c) mod p) (rc cs k))).
  { rewrite (nth_indep _ [] ((fun x => norm p (map (fun c => (zinv p (snd x) * c) mod p) (fst x))) ([], 1))) by (rewrite map_length; exact Hk). rewrite (map_nth (fun x => norm p (map (fun c => (zinv p (snd x) * c) mod p) (fst x))) cs ([], 1) k). reflexivity. }
  rewrite EN. assert (NE : ~ (p | rd cs k)). { unfold rd. destruct (nth k cs ([], 1)) as [c e] eqn:X. apply (G2 c e). rewrite <- X. apply nth_In. exact Hk. }
  pose proof (nf_norm p Pp (map (fun c => (zinv p (rd cs k) * c) mod p) (rc cs k))) as NF. split; [apply (nf_range p Pp); exact NF|]. split.
  - destruct (norm p (map (fun c => (zinv p (rd cs k) * c) mod p) (rc cs k))) as [|x l] eqn:EL; [cbn; lia|]. assert (HL : last (x :: l) 1 = last (x :: l) 0) by (clear; revert x; induction l as [|y l IH]; intros x; [reflexivity|exact (IH y)]). rewrite HL. 
    apply (strip_last (map (fun c => c mod p) (map (fun c => (zinv p (rd cs k) * c) mod p) (rc cs k)))). exact EL.
  - intros i. rewrite <- (MI (rd cs k) (rc cs k) i NE). change (nth i (norm p (map (fun c => (zinv p (rd cs k) * c) mod p) (rc cs k))) 0) with (pc (norm p (map (fun c => (zinv p (rd cs k) * c) mod p) (rc cs k))) i). rewrite (norm_peq p Pp _ i). reflexivity.
Qed.
Hypothesis IM : Forall2 (QgbSpec.image nv lt p) F Fp.
Variables (el : list Z) (cp : list (list Z)).
Hypothesis PI : param_image p d E cs el cp.
Lemma img_same : same_ideal nv p (pfs Fp) (param_gens nv el cp).
Proof.
  destruct GP as (G1 & G2 & _ & G4 & G5). destruct RP as (_ & LE & _ & _ & LC & HC & _). destruct PI as (I1 & I2 & I3 & I4 & I5 & I6).
  assert (S1 : same_ideal nv p (pfs F) (rgens nv E cs)).
  { apply same_ideal_intro.
    - intros f (h & Hh & ->). destruct (G4 h Hh) as (x & Nx & Q). apply (lspan_mod nv p) in Q. exact (lspan_unit nv p _ x _ Pp Nx Q).
    - intros g Hg. destruct (G5 g Hg) as (x & Nx & Q). apply (lspan_mod nv p) in Q. exact (lspan_unit nv p _ x _ Pp Nx Q). }
  assert (S2 : same_ideal nv p (pfs Fp) (pfs F)).
  { apply same_ideal_intro.
    - intros x (f' & Hf' & ->). assert (BW : exists g, In g F /\ QgbSpec.image nv lt p g f'). { clear -IM Hf'. induction IM as [|x y l l' H F0 IH]; [destruct Hf'|]. destruct Hf' as [->|Hf']; [exists x; split; [left; reflexivity|exact H]|]. destruct (IH F0 Hf') as (g & Hg & M). exists g. split; [right; exact Hg|exact M]. }
      destruct BW as (g & Hg & _ & Q). eapply ls_eq; [apply ideal_gen; exists g; split; [exact Hg|reflexivity]|exact Q].
    - intros x (f & Hf & ->). assert (FW : exists g, In g Fp /\ QgbSpec.image nv lt p f g). { clear -IM Hf. induction IM as [|x y l l' H F0 IH]; [destruct Hf|]. destruct Hf as [->|Hf]; [exists y; split; [left; reflexivity|exact H]|]. destruct (IH F0 Hf) as (g & Hg & M). exists g. split; [right; exact Hg|exact M]. }
      destruct FW as (g & Hg & _ & Q). eapply ls_eq; [apply ideal_gen; exists g; split; [exact Hg|reflexivity]|apply peq_sym; exact Q]. }
  assert (UE : forall m, eqp p (uni_at nv (nv - 1) E m) (nth d E 0 * uni_at nv (nv - 1) el m)).
  { intros m. rewrite <- (FglmCore.uni_pscal nv NV). apply (uni_peq nv p NV). intros i. rewrite pc_pscal. symmetry. apply I4. }
  assert (UC : forall k m, (k < nv - 1)%nat -> eqp p (uni_at nv (nv - 1) (rc cs k) m) (rd cs k * uni_at nv (nv - 1) (nth k cp []) m)).
  { intros k m Hk. rewrite <- (FglmCore.uni_pscal nv NV). apply (uni_peq nv p NV). intros i. rewrite pc_pscal. symmetry. apply I6. lia. }
  assert (NE : forall k, (k < nv - 1)%nat -> ~ (p | rd cs k)). { intros k Hk. unfold rd. destruct (nth k cs ([], 1)) as [c e] eqn:X. apply (G2 c e). rewrite <- X. apply nth_In. lia. }
  assert (S3 : same_ideal nv p (rgens nv E cs) (param_gens nv el cp)).
  { apply same_ideal_intro.
    - intros f [->|(k & Hk & ->)].
      + eapply I_eq; [apply (lspan_scale nv p _ (nth d E 0)); apply (ideal_gen nv p (param_gens nv el cp)); left; reflexivity|]. intros m _. apply UE.
      + eapply I_eq; [apply (lspan_scale nv p _ (rd cs k)); apply (ideal_gen nv p (param_gens nv el cp)); right; exists k; split; [exact Hk|reflexivity]|]. intros m _. cbv beta. rewrite (UC k m Hk). unfold coord_poly. exists 0. ring.
    - intros f [->|(k & Hk & ->)].
      + apply (lspan_unit nv p _ (nth d E 0) _ Pp G1). eapply I_eq; [apply (ideal_gen nv p (rgens nv E cs)); left; reflexivity|]. intros m _. symmetry. apply UE.
      + apply (lspan_unit nv p _ (rd cs k) _ Pp (NE k Hk)). eapply I_eq; [apply (ideal_gen nv p (rgens nv E cs)); right; exists k; split; [exact Hk|reflexivity]|]. intros m _. cbv beta. rewrite (UC k m Hk). unfold coord_poly. exists 0. ring. }
  intros f. rewrite (S2 f), (S1 f). apply S3.
Qed.
Lemma img_param : parametrises nv p (pfs Fp) d el cp.
Proof.
  pose proof img_same as SI. destruct RP as (_ & LE & _ & _ & LC & HC & _). destruct GP as (_ & G2 & _). destruct PI as (I1 & I2 & I3 & I4 & I5 & I6).
  split; [exact I1|]. split; [exact I2|]. split; [exact I3|]. split; [apply SI; apply ideal_gen; left; reflexivity|]. split; [lia|].
  intros k Hk. destruct (I6 k ltac:(lia)) as (J1 & J2 & J3). split; [|split; [exact J1|split; [exact J2|apply SI; apply ideal_gen; right; exists k; split; [exact Hk|reflexivity]]]].
  destruct (Nat.le_gt_cases (length (nth k cp [])) d) as [H|H]; [exact H|]. exfalso. apply J2. set (c := nth k cp []) in *.
  assert (HL : last c 1 = nth (length c - 1) c 0). { destruct (@exists_last Z c) as (c' & x & ->); [intros ->; cbn in H; lia|]. rewrite last_last, app_length, app_nth2 by (cbn; lia). cbn [length]. replace (length c' + 1 - 1 - length c')%nat with 0%nat by lia. reflexivity. }
  rewrite HL. specialize (J3 (length c - 1)%nat). assert (HX : exists c0 e0, In (c0, e0) cs /\ rc cs k = c0 /\ rd cs k = e0). { unfold rc, rd. destruct (nth k cs ([], 1)) as [c0 e0] eqn:X. exists c0, e0. split; [rewrite <- X; apply nth_In; lia|]. split; reflexivity. }
  destruct HX as (c0 & e0 & HI & E1 & E2). rewrite E1, E2 in J3. rewrite (nth_overflow c0) in J3 by (destruct (HC c0 e0 HI); lia). apply divides_unit in J3; [|exact (G2 c0 e0 HI)].
  assert (0 <= nth (length c - 1) c 0 < p) by (apply J1; apply nth_In; lia). destruct J3 as [z Hz]. assert (z = 0) by nia. lia.
Qed.
Lemma img_last : generates_last nv p (pfs Fp) el.
Proof. intros Q. rewrite (img_same _). apply gens_last. exact NV. Qed.
Lemma img_squarefree : squarefree p el.
Proof.
  destruct GP as (_ & _ & (u & v & s & Ns & B) & _). destruct PI as (_ & _ & _ & I4 & _). intros g (c & Hc). set (e0 := nth d E 0) in *. clearbody e0.
  assert (EE : E == FpSpec.pmul [e0] el) by (rewrite <- (pscal_pmul p); intros i; rewrite pc_pscal; symmetry; apply I4).
  assert (B' : padd (FpSpec.pmul u E) (FpSpec.pmul v (pderiv E)) == [s]) by (intros i; specialize (B i); apply eqp_zero in B; rewrite B; reflexivity).
  assert (DE : pderiv E == FpSpec.pmul [e0] (pderiv el)). { transitivity (pderiv (FpSpec.pmul [e0] el)); [apply pderiv_m; exact EE|]. rewrite <- !(pscal_pmul p). apply pderiv_scal. }
  rewrite DE, EE in B'. rewrite Hc, !(pderiv_mul p) in B'.
  assert (D : FpSpec.pmul (FpSpec.pmul [e0] (padd (FpSpec.pmul u (FpSpec.pmul c g)) (FpSpec.pmul v (padd (FpSpec.pmul (pderiv c) g) (padd (FpSpec.pmul c (pderiv g)) (FpSpec.pmul c (pderiv g))))))) g == [s]) by (rewrite <- B'; ring).
  match type of D with FpSpec.pmul ?w g == _ => destruct (hdeg_factor p Pp w g 0) as (i & j & _ & HJ & IJ) end.
  - split; [intros i Hi; rewrite (D i); destruct i; [lia|]; rewrite pc_consS, pc_nil; reflexivity|]. rewrite (D 0%nat). rewrite pc_cons0. intros X. apply Ns. unfold eqp in X. rewrite Z.sub_0_r in X. exact X.
  - replace j with 0%nat in HJ by lia. exact HJ.
Qed.
End Img.
