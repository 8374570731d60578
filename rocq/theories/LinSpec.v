(** Linear algebra modulo p: vectors are functions from column numbers to integers, read modulo p. *)
From Coq Require Import ZArith Arith List Bool Lia Znumtheory Setoid Morphisms.
Import ListNotations.
Open Scope Z_scope.

Definition eqp (p a b : Z) : Prop := (p | a - b).
#[global] Instance eqp_equiv p : Equivalence (eqp p).
Proof.
  constructor.
  - intros a. exists 0. lia.
  - intros a b (q & H). exists (- q). lia.
  - intros a b c (q & H) (r & H'). exists (q + r). lia.
Qed.
#[global] Instance eqp_add p : Proper (eqp p ==> eqp p ==> eqp p) Z.add.
Proof. intros a b (q & H) c d (r & H'). exists (q + r). lia. Qed.
#[global] Instance eqp_sub p : Proper (eqp p ==> eqp p ==> eqp p) Z.sub.
Proof. intros a b (q & H) c d (r & H'). exists (q - r). lia. Qed.
#[global] Instance eqp_opp p : Proper (eqp p ==> eqp p) Z.opp.
Proof. intros a b (q & H). exists (- q). lia. Qed.
#[global] Instance eqp_mul p : Proper (eqp p ==> eqp p ==> eqp p) Z.mul.
Proof. intros a b (q & H) c d (r & H'). exists (q * c + b * r). replace (a * c - b * d) with ((a - b) * c + b * (c - d)) by ring. rewrite H, H'. ring. Qed.

Lemma eqp_mod p a : p <> 0 -> eqp p (a mod p) a.
Proof. intros Hp. exists (- (a / p)). pose proof (Z.div_mod a p Hp). lia. Qed.
Lemma eqp_small p a b : 0 <= a < p -> 0 <= b < p -> eqp p a b -> a = b.
Proof. intros Ha Hb (q & H). assert (q = 0) by nia. nia. Qed.
Lemma eqp_0_small p a : 0 <= a < p -> eqp p a 0 -> a = 0.
Proof. intros Ha H. apply (eqp_small p); [assumption|lia|assumption]. Qed.
Lemma eqp_p p : eqp p p 0.
Proof. exists 1. lia. Qed.
Lemma eqp_pmul p q : eqp p (q * p) 0.
Proof. exists q. lia. Qed.
Lemma eqp_iff_mod p a b : p <> 0 -> eqp p a b <-> a mod p = b mod p.
Proof.
  intros Hp. split.
  - intros (q & H). replace a with (b + q * p) by lia. apply Z.mod_add. assumption.
  - intros H. rewrite <- (eqp_mod p a Hp), H. apply eqp_mod. assumption.
Qed.

Definition vec := nat -> Z.
Definition veq (p : Z) (u v : vec) : Prop := forall j, eqp p (u j) (v j).
Definition vzero : vec := fun _ => 0.

(** Linear span modulo p of a set of vectors *)
Inductive span (p : Z) (S : vec -> Prop) : vec -> Prop :=
| span_in v : S v -> span p S v
| span_zero : span p S vzero
| span_lin a u v : span p S u -> span p S v -> span p S (fun j => a * u j + v j)
| span_eq u v : span p S u -> veq p u v -> span p S v.

Lemma span_mono p (S T : vec -> Prop) v : (forall u, S u -> span p T u) -> span p S v -> span p T v.
Proof. intros H. induction 1; eauto using span. Qed.
Lemma span_sub p S u v : span p S u -> span p S v -> span p S (fun j => u j - v j).
Proof.
  intros Hu Hv. eapply span_eq; [apply (span_lin p S (-1) v u); assumption|]. intros j. exists 0. ring.
Qed.
Lemma span_add p S u v : span p S u -> span p S v -> span p S (fun j => u j + v j).
Proof.
  intros Hu Hv. eapply span_eq; [apply (span_lin p S 1 u v); assumption|]. intros j. exists 0. ring.
Qed.
Lemma span_scale p S a u : span p S u -> span p S (fun j => a * u j).
Proof.
  intros Hu. eapply span_eq; [apply (span_lin p S a u vzero); [assumption|apply span_zero]|]. intros j. exists 0. unfold vzero. ring.
Qed.
Lemma span_veq0 p S u : veq p u vzero -> span p S u.
Proof. intros H. eapply span_eq; [apply span_zero|]. intros j. symmetry. apply H. Qed.
(** a property of vectors that is linear and holds for the generators holds on the span *)
Lemma span_ind_lin p (S P : vec -> Prop) :
  (forall v, S v -> P v) -> P vzero -> (forall a u v, P u -> P v -> P (fun j => a * u j + v j)) ->
  (forall u v, P u -> veq p u v -> P v) -> forall v, span p S v -> P v.
Proof. intros H1 H2 H3 H4 v Hv. induction Hv; eauto. Qed.

Definition same_span (p : Z) (S T : vec -> Prop) : Prop := forall v, span p S v <-> span p T v.
