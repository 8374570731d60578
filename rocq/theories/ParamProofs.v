(** From the matrix of the multiplication by the last variable to polynomials in the ideal. *)
From Coq Require Import ZArith NArith Arith List Bool Lia Znumtheory Setoid Morphisms Ring.
From Verif Require Import LinSpec MonoSpec MonoSpecProofs GbSpec GbProofs GbIdeal.
From Verif Require Import FpSpec FglmSpec ModInvModel NmodModel FpProofs BmModel BmProofs BmProps FglmModel MatVecProofs HankelProofs ShapeProofs.
Import ListNotations.
Open Scope Z_scope.

Section Par.
Variables (nv : nat) (p : Z) (G : pf -> Prop).
Hypothesis Hp : prime p.
Hypothesis NV : (1 <= nv)%nat.
Notation "a =p b" := (eqp p a b) (at level 70).
Notation n := (nv - 1)%nat.
Notation I := (ideal nv p G).
Notation x := (xpow nv n 1).
Definition X (j : nat) : pf := cf [(1, xpow nv n j)].
Lemma xpow_len k j : length (xpow nv k j) = nv.
Proof. unfold xpow. rewrite map_length, seq_length. reflexivity. Qed.
Lemma I_eq f g : I f -> (forall m, length m = nv -> g m =p f m) -> I g.
Proof. intros H E. eapply ls_eq; [exact H|]. intros m Hm. symmetry. apply E. exact Hm. Qed.
Lemma I_sum k (c : nat -> Z) (f : nat -> pf) : (forall j, (j < k)%nat -> I (f j)) -> I (fun m => sumn k (fun j => c j * f j m)).
Proof.
  induction k as [|k IH]; intros H; [apply lspan_zero; intros m _; reflexivity|]. eapply I_eq; [apply lspan_add; [apply IH; intros j Hj; apply H; lia|apply (lspan_scale nv p _ (c k)); apply (H k); lia]|]. intros m _. reflexivity.
Qed.
Lemma uni_apply f m : uni_at nv n f m = apply_at f (fun j => X j m) 0.
Proof.
  unfold uni_at. rewrite apply_sum. assert (K : forall k a (g : nat -> Z), cf (map (fun j => (g j, xpow nv n j)) (seq a k)) m = sumn k (fun j => g (a + j)%nat * X (a + j) m)).
  { induction k as [|k IH]; intros a g; [reflexivity|]. cbn [seq map cf fst snd]. rewrite IH. rewrite sumn_S, Nat.add_0_r. rewrite (sumn_ext k (fun j => g (S a + j)%nat * X (S a + j) m) (fun i => g (a + S i)%nat * X (a + S i) m)) by (intros; rewrite Nat.add_succ_comm; reflexivity). replace (X a m) with (if mono_dec (xpow nv n a) m then 1 else 0) by (unfold X; cbn [cf fst snd]; destruct (mono_dec (xpow nv n a) m); reflexivity). destruct (mono_dec (xpow nv n a) m); lia. }
  rewrite K. apply sumn_ext. intros j _. reflexivity.
Qed.
Lemma xpow_S j : mmul x (xpow nv n j) = xpow nv n (S j).
Proof.
  unfold mmul, xpow. assert (K : forall l, map2 N.add (map (fun i => if (i =? n)%nat then N.of_nat 1 else 0%N) l) (map (fun i => if (i =? n)%nat then N.of_nat j else 0%N) l) = map (fun i => if (i =? n)%nat then N.of_nat (S j) else 0%N) l).
  { induction l as [|i l IH]; [reflexivity|]. cbn [map map2]. rewrite IH. destruct (i =? n)%nat; [f_equal; lia|reflexivity]. } apply K.
Qed.
Lemma X_S j m : length m = nv -> GbSpec.pmul x (X j) m = X (S j) m.
Proof.
  intros Hm. unfold X. rewrite <- (cf_shift nv x [(1, xpow nv n j)] m); [|apply xpow_len|intros t [<-|[]]; apply xpow_len|exact Hm]. cbn [shift map fst snd]. rewrite xpow_S. reflexivity.
Qed.
Lemma xpow_0 : xpow nv n 0 = mone nv.
Proof. unfold xpow, mone. rewrite <- (seq_length nv 0) at 2. generalize (seq 0 nv). induction l as [|i l IH]; [reflexivity|]. cbn [map length repeat]. rewrite IH. destruct (i =? n)%nat; reflexivity. Qed.
Lemma pmul_sumn u k (f : nat -> pf) (c : nat -> Z) m : GbSpec.pmul u (fun m => sumn k (fun j => c j * f j m)) m = sumn k (fun j => c j * GbSpec.pmul u (f j) m).
Proof. unfold GbSpec.pmul. destruct (mdvdb u m); [reflexivity|]. symmetry. apply sumn_zero_ext. intros; ring. Qed.
Lemma apply_X_S f j m : length m = nv -> apply_at f (fun i => X i m) (S j) = GbSpec.pmul x (fun m => apply_at f (fun i => X i m) j) m.
Proof.
  intros Hm. rewrite apply_sum. unfold GbSpec.pmul. destruct (mdvdb x m) eqn:E.
  - rewrite apply_sum. apply sumn_ext. intros t _. f_equal. change (S j + t)%nat with (S (j + t)). rewrite <- X_S by exact Hm. unfold GbSpec.pmul. rewrite E. reflexivity.
  - apply sumn_zero_ext. intros t _. change (S j + t)%nat with (S (j + t)). rewrite <- X_S by exact Hm. unfold GbSpec.pmul. rewrite E. ring.
Qed.
Lemma uni_padd f g m : uni_at nv n (padd f g) m = uni_at nv n f m + uni_at nv n g m.
Proof. rewrite !uni_apply. apply apply_padd. Qed.
Lemma uni_peq f g m : peq p f g -> uni_at nv n f m =p uni_at nv n g m.
Proof. intros H. rewrite !uni_apply. apply apply_peq. exact H. Qed.
(** multiples of a univariate polynomial *)
Lemma uni_mul q f : I (uni_at nv n f) -> I (uni_at nv n (pmul q f)).
Proof.
  intros H. assert (K : forall j, I (fun m => apply_at f (fun i => X i m) j)).
  { induction j as [|j IH]; [eapply I_eq; [exact H|]; intros m _; rewrite uni_apply; reflexivity|]. eapply I_eq; [apply (ideal_mul nv p G x); [apply xpow_len|exact IH]|]. intros m Hm. rewrite (apply_X_S f j m Hm). reflexivity. }
  eapply I_eq; [apply (I_sum (length q) (fun j => pc q j) (fun j m => apply_at f (fun i => X i m) j)); intros j _; apply K|]. intros m _. rewrite uni_apply, apply_pmul, apply_sum. reflexivity.
Qed.

Variables (d : nat) (b : nat -> pf) (M : mat).
Notation D := (S d).
Hypothesis MM : mult_matrix nv p G D b M.
Notation rw := (rw d M).
Notation ev := (ev d M).
Lemma X_rw j : I (fun m => X j m - sumn D (fun t => rw j t * b t m)).
Proof.
  induction j as [|j IH].
  - apply lspan_zero. intros m _. unfold pzero. cbn [ShapeProofs.rw]. rewrite (sumn_ext D _ (fun t => b t m * delta t 0)) by (intros; ring). rewrite sum_delta1 by lia. rewrite (proj1 MM). unfold X. rewrite xpow_0. exists 0. ring.
  - eapply I_eq; [apply lspan_add; [apply (ideal_mul nv p G x); [apply xpow_len|exact IH]|apply (I_sum D (fun t => rw j t) (fun t m => GbSpec.pmul x (b t) m - sumn D (fun s => M t s * b s m))); intros t Ht; apply (proj2 MM); exact Ht]|].
    intros m Hm. cbv beta. rewrite pmul_sub, X_S by exact Hm. rewrite pmul_sumn. cbn [ShapeProofs.rw].
    rewrite (sumn_ext D (fun t => sumn D (fun t0 => rw j t0 * M t0 t) * b t m) (fun t => sumn D (fun s => rw j s * (M s t * b t m)))) by (intros; rewrite <- sumn_scal_r; apply sumn_ext; intros; ring).
    rewrite sumn_swap. rewrite (sumn_ext D (fun j0 => rw j j0 * (GbSpec.pmul x (b j0) m - sumn D (fun s => M j0 s * b s m))) (fun t => rw j t * GbSpec.pmul x (b t) m + (-1) * sumn D (fun s => rw j t * (M t s * b s m)))) by (intros; rewrite sumn_scal; ring).
    rewrite sumn_add, sumn_scal. exists 0. ring.
Qed.
(** a univariate polynomial in x_n is, modulo the ideal, the combination given by [ev] *)
Lemma uni_ev f : I (fun m => uni_at nv n f m - sumn D (fun t => ev f t * b t m)).
Proof.
  eapply I_eq; [apply (I_sum (length f) (fun j => pc f j) (fun j m => X j m - sumn D (fun t => rw j t * b t m))); intros j _; apply X_rw|]. intros m _. rewrite uni_apply, apply_sum. cbn [Nat.add].
  rewrite (sumn_ext (length f) (fun j => pc f j * (X j m - sumn D (fun t => rw j t * b t m))) (fun j => pc f j * X j m + (-1) * (sumn D (fun t => pc f j * rw j t * b t m)))) by (intros; rewrite (sumn_ext D (fun t => pc f i * rw i t * b t m) (fun t => pc f i * (rw i t * b t m))) by (intros; ring); rewrite sumn_scal; ring).
  rewrite sumn_add, sumn_scal, sumn_swap. assert (E : sumn D (fun t => ev f t * b t m) = sumn D (fun j => sumn (length f) (fun i => pc f i * rw i j * b j m))).
  { apply sumn_ext. intros t _. unfold ShapeProofs.ev. rewrite apply_sum, <- sumn_scal_r. apply sumn_ext. intros i _. cbn [Nat.add]. ring. }
  rewrite E. exists 0. ring.
Qed.
Lemma uni_zero f : (forall t, (t < D)%nat -> ev f t =p 0) -> I (uni_at nv n f).
Proof.
  intros H. eapply I_eq; [apply (uni_ev f)|]. intros m _. cbv beta. rewrite (sumn_eqp p D (fun t => ev f t * b t m) (fun _ => 0)); [rewrite sumn_zero; exists 0; ring|]. intros t Ht. rewrite (H t Ht), Z.mul_0_l. reflexivity.
Qed.
Lemma uni_unit f k : (k < D)%nat -> (forall t, (t < D)%nat -> ev f t =p - delta t k) -> I (fun m => b k m + uni_at nv n f m).
Proof.
  intros Hk H. eapply I_eq; [apply (uni_ev f)|]. intros m _. cbv beta. rewrite (sumn_eqp p D (fun t => ev f t * b t m) (fun t => (-1) * (b t m * delta t k))); [rewrite sumn_scal, sum_delta1 by exact Hk; exists 0; ring|]. intros t Ht. rewrite (H t Ht). exists 0. ring.
Qed.
Lemma uni_min (v : nat -> Z) V1 Q : minimal_polynomial p V1 (hs d M v) -> independent nv p G D b -> I (uni_at nv n Q) -> pdvd p V1 Q.
Proof.
  intros MV IN H. apply (proj2 MV). apply ev_zero_ann. apply (IN (fun t => ev Q t)). eapply I_eq; [apply lspan_sub; [exact H|apply (uni_ev Q)]|]. intros m _. exists 0. ring.
Qed.
End Par.
