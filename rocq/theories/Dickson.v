(** Dickson's lemma in constructive form: there is no infinite sequence of monomials in which no earlier one divides a
    later one. Almost-full relations are closed under intersection. *)
From Coq Require Import NArith Arith List Bool Lia.
From Verif Require Import MonoSpec.
Import ListNotations.

Inductive AF {X} (R : X -> X -> Prop) : Prop :=
| AF_full : (forall x y, R x y) -> AF R
| AF_sup : (forall x, AF (fun y z => R y z \/ R x y)) -> AF R.

Lemma af_mono {X} (R : X -> X -> Prop) : AF R -> forall S : X -> X -> Prop, (forall x y, R x y -> S x y) -> AF S.
Proof.
  induction 1 as [R H|R H IH]; intros S HS.
  - apply AF_full. auto.
  - apply AF_sup. intros x. apply (IH x). intros y z [K|K]; [left|right]; auto.
Qed.
Lemma af_nullary {X} (T1 : X -> X -> Prop) : AF T1 -> forall (R T2 : X -> X -> Prop) (A B : Prop), AF T2 -> (forall x y, T1 x y -> R x y \/ A) ->
  (forall x y, T2 x y -> R x y \/ B) -> AF (fun x y => R x y \/ (A /\ B)).
Proof.
  induction 1 as [T1 H|T1 H IH]; intros R T2 A B H2 I1 I2.
  - apply (af_mono _ H2). intros x y K. destruct (I1 x y (H x y)) as [|a]; [auto|]. destruct (I2 x y K); auto.
  - apply AF_sup. intros x. apply (af_mono (fun y z => (R y z \/ R x y) \/ (A /\ B))); [|tauto].
    apply (IH x _ T2); [assumption| |]; intros y z K.
    + destruct K as [K|K]; apply I1 in K; tauto.
    + apply I2 in K. tauto.
Qed.
Lemma af_unary {X} (T1 : X -> X -> Prop) : AF T1 -> forall T2 : X -> X -> Prop, AF T2 -> forall (R : X -> X -> Prop) (A B : X -> Prop),
  (forall x y, T1 x y -> R x y \/ A x) -> (forall x y, T2 x y -> R x y \/ B x) -> AF (fun x y => R x y \/ (A x /\ B x)).
Proof.
  induction 1 as [T1 H1|T1 H1 IH1]; intros T2 H2.
  - intros R A B I1 I2. apply (af_mono _ H2). intros x y K. destruct (I1 x y (H1 x y)) as [|a]; [auto|]. destruct (I2 x y K); auto.
  - induction H2 as [T2 H2|T2 H2 IH2]; intros R A B I1 I2.
    + apply (af_mono T1); [apply AF_sup; assumption|]. intros x y K. destruct (I2 x y (H2 x y)) as [|a]; [auto|]. destruct (I1 x y K); auto.
    + apply AF_sup. intros x.
      assert (J1 : AF (fun y z => (R y z \/ R x y \/ A x) \/ (A y /\ B y))).
      { apply (IH1 x T2 (AF_sup T2 H2)); intros y z K; [destruct K as [K|K]; apply I1 in K; tauto|apply I2 in K; tauto]. }
      assert (J2 : AF (fun y z => (R y z \/ R x y \/ B x) \/ (A y /\ B y))).
      { apply (IH2 x); intros y z K; [apply I1 in K; tauto|destruct K as [K|K]; apply I2 in K; tauto]. }
      apply (af_mono (fun y z => (R y z \/ R x y \/ (A y /\ B y)) \/ (A x /\ B x))); [|tauto].
      apply (af_nullary _ J1 _ _ _ _ J2); tauto.
Qed.
Lemma af_binary {X} (T1 : X -> X -> Prop) : AF T1 -> forall T2 : X -> X -> Prop, AF T2 -> forall (R A B : X -> X -> Prop),
  (forall x y, T1 x y -> R x y \/ A x y) -> (forall x y, T2 x y -> R x y \/ B x y) -> AF (fun x y => R x y \/ (A x y /\ B x y)).
Proof.
  induction 1 as [T1 H1|T1 H1 IH1]; intros T2 H2.
  - intros R A B I1 I2. apply (af_mono _ H2). intros x y K. destruct (I1 x y (H1 x y)) as [|a]; [auto|]. destruct (I2 x y K); auto.
  - induction H2 as [T2 H2|T2 H2 IH2]; intros R A B I1 I2.
    + apply (af_mono T1); [apply AF_sup; assumption|]. intros x y K. destruct (I2 x y (H2 x y)) as [|a]; [auto|]. destruct (I1 x y K); auto.
    + apply AF_sup. intros x.
      assert (J1 : AF (fun y z => (R y z \/ R x y \/ A x y) \/ (A y z /\ B y z))).
      { apply (IH1 x T2 (AF_sup T2 H2)); intros y z K; [destruct K as [K|K]; apply I1 in K; tauto|apply I2 in K; tauto]. }
      assert (J2 : AF (fun y z => (R y z \/ R x y \/ B x y) \/ (A y z /\ B y z))).
      { apply (IH2 x); intros y z K; [apply I1 in K; tauto|destruct K as [K|K]; apply I2 in K; tauto]. }
      apply (af_mono (fun y z => (R y z \/ R x y \/ (A y z /\ B y z)) \/ (A x y /\ B x y))); [|tauto].
      apply (af_unary _ J1 _ J2 _ (fun y => A x y) (fun y => B x y)); tauto.
Qed.
Lemma af_inter {X} (A B : X -> X -> Prop) : AF A -> AF B -> AF (fun x y => A x y /\ B x y).
Proof. intros HA HB. apply (af_mono (fun x y => False \/ (A x y /\ B x y))); [|tauto]. apply (af_binary _ HA _ HB); tauto. Qed.
Lemma af_comap {X Y} (f : Y -> X) (R : X -> X -> Prop) : AF R -> AF (fun a b => R (f a) (f b)).
Proof. induction 1 as [R H|R H IH]; [apply AF_full; auto|]. apply AF_sup. intros y. apply (IH (f y)). Qed.

Lemma af_le : AF N.le.
Proof.
  assert (H : forall k, AF (fun y z => (y <= z \/ k <= y)%N)).
  { intros k. pattern k. apply (well_founded_ind N.lt_wf_0). clear k. intros k IH. apply AF_sup. intros w. destruct (N.lt_ge_cases w k) as [Hw|Hw].
    - apply (af_mono _ (IH w Hw)). tauto.
    - apply AF_full. auto. }
  apply AF_sup. intros x. apply H.
Qed.
Lemma af_dvd n : AF (fun a b : mono => forall i, (i < n)%nat -> (ex a i <= ex b i)%N).
Proof.
  induction n as [|n IH]; [apply AF_full; intros; lia|]. apply (af_mono (fun a b : mono => (forall i, (i < n)%nat -> (ex a i <= ex b i)%N) /\ (ex a n <= ex b n)%N)).
  - apply af_inter; [assumption|]. apply (af_comap (fun a : mono => ex a n) N.le af_le).
  - intros a b (H1 & H2) i Hi. destruct (Nat.eq_dec i n) as [->|]; [assumption|]. apply H1. lia.
Qed.

(** l' extends l by one monomial that no monomial of l divides *)
Definition bad_ext {X} (R : X -> X -> Prop) (l' l : list X) : Prop := exists x, l' = x :: l /\ forall y, In y l -> ~ R y x.
Lemma af_acc {X} (R S : X -> X -> Prop) : AF S -> forall l, (forall y z, S y z -> R y z \/ exists w, In w l /\ R w y) -> Acc (bad_ext R) l.
Proof.
  induction 1 as [S H|S H IH]; intros l Hl.
  - constructor. intros l1 (x & -> & Hx). constructor. intros l2 (x2 & -> & Hx2). exfalso.
    destruct (Hl x x2 (H x x2)) as [K|(w & Hw & K)]; [apply (Hx2 x); [left; reflexivity|assumption]|apply (Hx w Hw K)].
  - constructor. intros l1 (x & -> & Hx). apply (IH x). intros y z [K|K].
    + destruct (Hl y z K) as [K'|(w & Hw & K')]; [left; assumption|]. right. exists w. split; [right; assumption|assumption].
    + destruct (Hl x y K) as [K'|(w & Hw & K')]; [right; exists x; split; [left; reflexivity|assumption]|]. destruct (Hx w Hw K').
Qed.
Theorem dickson n (l : list mono) : Acc (bad_ext (fun a b : mono => length a = n -> length b = n -> mdvd a b)) l.
Proof.
  apply (af_acc _ _ (af_dvd n)). intros y z H. left. intros Hy Hz i. destruct (Nat.lt_ge_cases i n) as [Hi|Hi]; [auto|].
  unfold ex. rewrite !nth_overflow by lia. lia.
Qed.
