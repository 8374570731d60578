(** Two commutative rings with p = 0: the integers modulo p, and the dual numbers over them. *)
From Coq Require Import ZArith List Bool Lia Znumtheory Eqdep_dec Ring.
From Verif Require Import PointSpec PointProofs.
Import ListNotations.
Open Scope Z_scope.

Section Zp.
Variable p : Z.
Definition Zp : Type := { x : Z | (x mod p =? x) = true }.
Definition zrep (x : Zp) : Z := proj1_sig x.
Lemma zp_ext (x y : Zp) : zrep x = zrep y -> x = y.
Proof. destruct x as [x Hx], y as [y Hy]. cbn. intros <-. f_equal. apply UIP_dec. apply bool_dec. Qed.
Lemma zp_in x : (x mod p) mod p =? x mod p = true.
Proof. apply Z.eqb_eq. destruct (Z.eq_dec p 0) as [->|N]; [rewrite !Zmod_0_r; reflexivity|apply Z.mod_mod; exact N]. Qed.
Definition zp (x : Z) : Zp := exist _ (x mod p) (zp_in x).
Definition zadd (x y : Zp) := zp (zrep x + zrep y).
Definition zmul (x y : Zp) := zp (zrep x * zrep y).
Definition zsub (x y : Zp) := zp (zrep x - zrep y).
Definition zopp (x : Zp) := zp (- zrep x).
Lemma zrep_zp x : zrep (zp x) = x mod p. Proof. reflexivity. Qed.
Lemma zp_zrep x : zp (zrep x) = x.
Proof. apply zp_ext. rewrite zrep_zp. destruct x as [x Hx]. cbn. apply Z.eqb_eq. exact Hx. Qed.
Lemma zp_eq x y : x mod p = y mod p -> zp x = zp y.
Proof. intros H. apply zp_ext. exact H. Qed.
Lemma zp_add x y : zp (x + y) = zadd (zp x) (zp y).
Proof. apply zp_eq. rewrite !zrep_zp. apply Zplus_mod. Qed.
Lemma zp_mul x y : zp (x * y) = zmul (zp x) (zp y).
Proof. apply zp_eq. rewrite !zrep_zp. apply Zmult_mod. Qed.
Lemma zp_sub x y : zp (x - y) = zsub (zp x) (zp y).
Proof. apply zp_eq. rewrite !zrep_zp. apply Zminus_mod. Qed.
Lemma zp_opp x : zp (- x) = zopp (zp x).
Proof. apply zp_eq. rewrite zrep_zp. replace (- x) with (0 - x) by lia. replace (- (x mod p)) with (0 - x mod p) by lia. rewrite Zminus_mod_idemp_r. reflexivity. Qed.
Lemma zp_ring : ring_theory (zp 0) (zp 1) zadd zmul zsub zopp eq.
Proof.
  constructor; intros; repeat match goal with x : Zp |- _ => rewrite <- (zp_zrep x); generalize (zrep x); clear x; intros x end;
    repeat (rewrite <- zp_add || rewrite <- zp_mul || rewrite <- zp_sub || rewrite <- zp_opp); f_equal; ring.
Qed.
End Zp.

(** the image of the integers in a ring *)
Section Unique.
Variables (K : Type) (k0 k1 : K) (add mul sub : K -> K -> K) (opp : K -> K).
Hypothesis RK : ring_theory k0 k1 add mul sub opp eq.
Add Ring RingEx_ring : RK.
Lemma kz_unique : forall h : Z -> K, h 0 = k0 -> (forall x, h (x + 1) = add (h x) k1) -> forall x, kz K k0 k1 add mul opp x = h x.
Proof.
  intros h H0 H1. assert (S1 : forall x, kz K k0 k1 add mul opp (x + 1) = add (kz K k0 k1 add mul opp x) k1) by (intros x; rewrite (kz_add K k0 k1 add mul sub opp RK), (kz_1 K k0 k1 add mul sub opp RK); reflexivity).
  apply Z.bi_induction; [intros x y <-; reflexivity|rewrite H0; apply (kz_0 K k0 k1 add mul sub opp RK)|]. intros x. unfold Z.succ. rewrite S1, H1. split; [intros ->; reflexivity|]. intros E.
  transitivity (sub (add (kz K k0 k1 add mul opp x) k1) k1); [ring|]. rewrite E. ring.
Qed.
End Unique.
Lemma zp_kz p x : kz (Zp p) (zp p 0) (zp p 1) (zadd p) (zmul p) (zopp p) x = zp p x.
Proof. apply (kz_unique _ _ _ _ _ (zsub p) _ (zp_ring p)); [reflexivity|]. intros y. apply zp_add. Qed.
Lemma zp_mod p : ring_mod (Zp p) (zp p 0) (zp p 1) (zadd p) (zmul p) (zsub p) (zopp p) p.
Proof. split; [apply zp_ring|]. rewrite zp_kz. apply zp_eq. rewrite Z_mod_same_full, Zmod_0_l. reflexivity. Qed.
Lemma zp_domain p : prime p -> forall x y : Zp p, zmul p x y = zp p 0 -> x = zp p 0 \/ y = zp p 0.
Proof.
  intros Hp x y H. apply (f_equal (zrep p)) in H. unfold zmul in H. rewrite !zrep_zp, Zmod_0_l in H. assert (P0 : p <> 0) by (destruct Hp; lia). apply Z.mod_divide in H; [|exact P0]. apply prime_mult in H; [|exact Hp].
  destruct H as [H|H]; [left; rewrite <- (zp_zrep p x)|right; rewrite <- (zp_zrep p y)]; apply zp_eq; rewrite Zmod_0_l; apply Z.mod_divide; assumption.
Qed.

(** pairs x + y e with e^2 = 0 *)
Section Dual.
Variables (K : Type) (k0 k1 : K) (add mul sub : K -> K -> K) (opp : K -> K) (p : Z).
Hypothesis RM : ring_mod K k0 k1 add mul sub opp p.
Let RK := proj1 RM.
Add Ring Dual_ring : RK.
Definition dadd (x y : K * K) := (add (fst x) (fst y), add (snd x) (snd y)).
Definition dmul (x y : K * K) := (mul (fst x) (fst y), add (mul (fst x) (snd y)) (mul (snd x) (fst y))).
Definition dsub (x y : K * K) := (sub (fst x) (fst y), sub (snd x) (snd y)).
Definition dopp (x : K * K) := (opp (fst x), opp (snd x)).
Lemma dual_ring : ring_theory (k0, k0) (k1, k0) dadd dmul dsub dopp eq.
Proof. constructor; intros; repeat match goal with x : (K * K)%type |- _ => destruct x end; unfold dadd, dmul, dsub, dopp; cbn [fst snd]; f_equal; ring. Qed.
Lemma dual_kz x : kz (K * K) (k0, k0) (k1, k0) dadd dmul dopp x = (kz K k0 k1 add mul opp x, k0).
Proof.
  apply (kz_unique _ _ _ _ _ dsub _ dual_ring (fun x => (kz K k0 k1 add mul opp x, k0))); [rewrite (kz_0 K k0 k1 add mul sub opp RK); reflexivity|]. intros y. unfold dadd. cbn [fst snd].
  rewrite (kz_add K k0 k1 add mul sub opp RK), (kz_1 K k0 k1 add mul sub opp RK). f_equal. ring.
Qed.
Lemma dual_mod : ring_mod (K * K) (k0, k0) (k1, k0) dadd dmul dsub dopp p.
Proof. split; [apply dual_ring|]. rewrite dual_kz. rewrite (proj2 RM). reflexivity. Qed.
End Dual.
