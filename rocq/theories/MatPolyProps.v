(** C89: polynomials with matrix coefficients as data: allocation, truncation, copies, shifts. *)
From Coq Require Import Arith List Bool Lia.
From Verif Require Import ModInvModel MatPolyModel.

(** Specification: the coefficient of degree [d], zero from the length on. *)
Definition coef {A} (zero : A) (s : mpol A) (d : nat) : A := if d <? len s then cf s d else zero.

Section P.
Context {A : Type} (zero : A) (isz : A -> bool).
Hypothesis Hz : forall a, isz a = true <-> a = zero.

Definition ok (s : mpol A) : Prop := len s <= al s.

Ltac cmp := repeat match goal with |- context [?x <? ?y] => destruct (Nat.ltb_spec x y) | |- context [?x =? ?y] => destruct (Nat.eqb_spec x y) end.

Lemma norm_le f : forall l, norm isz f l <= l.
Proof. induction l as [|l IH]; cbn [norm]; [lia|]. destruct (isz (f l)); lia. Qed.
Lemma norm_zero f : forall l d, norm isz f l <= d < l -> f d = zero.
Proof.
  induction l as [|l IH]; cbn [norm]; intros d H; [lia|]. destruct (isz (f l)) eqn:E; [|lia]. destruct (Nat.eq_dec d l) as [->|]; [apply Hz, E|apply IH; lia].
Qed.
Lemma norm_top f : forall l k, norm isz f l = S k -> f k <> zero.
Proof.
  induction l as [|l IH]; cbn [norm]; intros k H; [discriminate|]. destruct (isz (f l)) eqn:E; [apply IH, H|]. injection H as <-. intros C. apply Hz in C. congruence.
Qed.

Lemma fit_spec s a : ok s -> len (fit isz s a) = len s /\ (forall d, cf (fit isz s a) d = cf s d) /\ a <= al (fit isz s a) /\ ok (fit isz s a) /\ al s <= al (fit isz s a).
Proof.
  unfold ok, fit. intros H. destruct (Nat.ltb_spec (al s) a) as [Ha|Ha]; [|repeat split; auto; lia].
  set (b := if a <? 2 * al s then 2 * al s else a). assert (Hb : a <= b /\ al s < b) by (unfold b; cmp; lia). unfold realloc.
  destruct (Nat.eqb_spec b 0); [lia|]. destruct (Nat.eqb_spec (al s) 0); [cbn [len cf al]; repeat split; auto; lia|].
  unfold truncate. destruct (Nat.ltb_spec b (len s)); [lia|]. cbn [len cf al]. repeat split; auto; lia.
Qed.

Lemma set_length_spec s l : l <= al s -> exists t, set_length zero s l = Some t /\ len t = l /\ al t = al s /\ forall d, cf t d = if d <? len s then cf s d else zero.
Proof. intros H. unfold set_length. destruct (Nat.ltb_spec (al s) l); [lia|]. eexists. split; [reflexivity|]. cbn [len cf al]. auto. Qed.

Lemma store_spec (s : mpol A) i v : i < len s -> exists t, store s i v = Some t /\ len t = len s /\ al t = al s /\ forall d, cf t d = if d =? i then v else cf s d.
Proof. intros H. unfold store. destruct (Nat.ltb_spec i (len s)); [|lia]. eexists. split; [reflexivity|]. cbn [len cf al]. auto. Qed.

Lemma copy_spec n (src : mpol A) : forall k i (dst : mpol A), i + k <= len src -> n + i + k <= len dst -> exists t, copy n i k src dst = Some t /\ len t = len dst /\ al t = al dst /\
  forall d, cf t d = if (n + i <=? d) && (d <? n + i + k) then cf src (d - n) else cf dst d.
Proof.
  induction k as [|k IH]; intros i dst H1 H2; cbn [copy].
  - exists dst. repeat split; auto. intros d. destruct (Nat.leb_spec (n + i) d), (Nat.ltb_spec d (n + i + 0)); cbn [andb]; auto; lia.
  - unfold load. destruct (Nat.ltb_spec i (len src)); [|lia]. cbn [obind]. destruct (store_spec dst (n + i) (cf src i)) as (s1 & E1 & L1 & A1 & C1); [lia|]. rewrite E1. cbn [obind].
    destruct (IH (S i) s1) as (t & E & L & Al & C); [lia|lia|]. exists t. split; [exact E|]. split; [lia|]. split; [lia|]. intros d. rewrite C, C1.
    destruct (Nat.leb_spec (n + S i) d), (Nat.ltb_spec d (n + S i + k)), (Nat.leb_spec (n + i) d), (Nat.ltb_spec d (n + i + S k)), (Nat.eqb_spec d (n + i)); cbn [andb]; try lia; auto. subst d. f_equal. lia.
Qed.

Lemma swaps_spec n : 0 < n -> forall k (s : mpol A), n + k <= len s -> exists t, swaps n k s = Some t /\ len t = len s /\ al t = al s /\
  forall d, n <= d -> cf t d = if d <? n + k then cf s (d - n) else cf s d.
Proof.
  intros Hn. induction k as [|i IH]; intros s H; cbn [swaps].
  - exists s. repeat split; auto. intros d Hd. destruct (Nat.ltb_spec d (n + 0)); [lia|reflexivity].
  - unfold load. destruct (Nat.ltb_spec (n + i) (len s)); [|lia]. destruct (Nat.ltb_spec i (len s)); [|lia]. cbn [obind].
    destruct (store_spec s i (cf s (n + i))) as (s1 & E1 & L1 & A1 & C1); [lia|]. rewrite E1. cbn [obind].
    destruct (store_spec s1 (n + i) (cf s i)) as (s2 & E2 & L2 & A2 & C2); [lia|]. rewrite E2. cbn [obind].
    destruct (IH s2) as (t & E & L & Al & C); [lia|]. exists t. split; [exact E|]. split; [lia|]. split; [lia|]. intros d Hd. rewrite (C d Hd), !C2, !C1.
    destruct (Nat.ltb_spec d (n + i)), (Nat.ltb_spec d (n + S i)); try lia.
    + destruct (Nat.eqb_spec (d - n) (n + i)), (Nat.eqb_spec (d - n) i); try lia. reflexivity.
    + destruct (Nat.eqb_spec d (n + i)); [|lia]. f_equal. lia.
    + destruct (Nat.eqb_spec d (n + i)); [lia|]. destruct (Nat.eqb_spec d i); [lia|]. reflexivity.
Qed.

Lemma zeros_spec : forall k i (s : mpol A), i + k <= len s -> exists t, zeros zero i k s = Some t /\ len t = len s /\ al t = al s /\
  forall d, cf t d = if (i <=? d) && (d <? i + k) then zero else cf s d.
Proof.
  induction k as [|k IH]; intros i s H; cbn [zeros].
  - exists s. repeat split; auto. intros d. destruct (Nat.leb_spec i d), (Nat.ltb_spec d (i + 0)); cbn [andb]; auto; lia.
  - destruct (store_spec s i zero) as (s1 & E1 & L1 & A1 & C1); [lia|]. rewrite E1. cbn [obind]. destruct (IH (S i) s1) as (t & E & L & Al & C); [lia|].
    exists t. split; [exact E|]. split; [lia|]. split; [lia|]. intros d. rewrite C, C1.
    destruct (Nat.leb_spec (S i) d), (Nat.ltb_spec d (S i + k)), (Nat.leb_spec i d), (Nat.ltb_spec d (i + S k)), (Nat.eqb_spec d i); cbn [andb]; try lia; auto.
Qed.

(** Truncation keeps the coefficients below the order and drops the others; the result has no zero coefficient at the top if it is shortened. *)
Theorem C89_truncate : forall s o, ok s -> let t := truncate isz s o in ok t /\ len t <= len s /\
  (forall d, coef zero t d = if d <? o then coef zero s d else if len s <=? o then coef zero s d else zero) /\
  (o < len s -> forall k, len t = S k -> coef zero t k <> zero).
Proof.
  intros s o H. cbv zeta. unfold truncate, ok, coef in *. destruct (Nat.ltb_spec o (len s)) as [Ho|Ho]; cbn [len al cf].
  - pose proof (norm_le (cf s) o). split; [lia|]. split; [lia|]. split.
    + intros d. destruct (Nat.ltb_spec d (norm isz (cf s) o)), (Nat.ltb_spec d o), (Nat.ltb_spec d (len s)), (Nat.leb_spec (len s) o); try lia; auto. symmetry. apply (norm_zero _ o). lia.
    + intros _ k Hk. rewrite Hk. destruct (Nat.ltb_spec k (S k)); [|lia]. apply (norm_top _ o), Hk.
  - split; [lia|]. split; [lia|]. split; [|lia]. intros d. destruct (Nat.ltb_spec d o); [reflexivity|]. destruct (Nat.leb_spec (len s) o); [reflexivity|lia].
Qed.

(** Making room never fails and changes no coefficient; a copy has the same coefficients; no access is outside the initialised positions. *)
Theorem C89_copy : forall dst src a, ok dst -> ok src ->
  (len (fit isz dst a) = len dst /\ a <= al (fit isz dst a) /\ ok (fit isz dst a) /\ forall d, coef zero (fit isz dst a) d = coef zero dst d) /\
  exists t, set_from zero isz dst src = Some t /\ ok t /\ len t = len src /\ forall d, coef zero t d = coef zero src d.
Proof.
  intros dst src a Hd Hs. split.
  - destruct (fit_spec dst a Hd) as (F1 & F2 & F3 & F4 & _). repeat split; auto. intros d. unfold coef. rewrite F1, F2. reflexivity.
  - destruct (fit_spec dst (len src) Hd) as (F1 & F2 & F3 & F4 & _). unfold set_from.
    destruct (set_length_spec (fit isz dst (len src)) (len src) F3) as (s1 & E1 & L1 & A1 & C1). rewrite E1. cbn [obind].
    destruct (copy_spec 0 src (len src) 0 s1) as (t & E & L & Al & C); [lia|lia|]. exists t. split; [exact E|]. unfold ok, coef in *. split; [lia|]. split; [lia|].
    intros d. rewrite C, L, L1, Nat.sub_0_r. destruct (Nat.ltb_spec d (len src)), (Nat.leb_spec (0 + 0) d), (Nat.ltb_spec d (0 + 0 + len src)); cbn [andb]; try lia; auto.
Qed.

(** In place, the shift multiplies by x^n. *)
Theorem C89_shift_in_place : forall s n, ok s -> exists t, shift_in_place zero isz s n = Some t /\ ok t /\
  forall d, coef zero t d = if d <? n then zero else coef zero s (d - n).
Proof.
  intros s n H. unfold shift_in_place. destruct (Nat.eqb_spec n 0) as [->|Hn].
  - exists s. repeat split; auto. intros d. cbn [Nat.ltb Nat.leb]. rewrite Nat.sub_0_r. reflexivity.
  - destruct (Nat.eqb_spec (len s) 0) as [E0|E0].
    + destruct (set_length_spec s 0) as (t & E & L & Al & C); [lia|]. exists t. split; [exact E|]. unfold ok, coef in *. split; [lia|]. intros d. rewrite L, E0.
      destruct (Nat.ltb_spec d 0), (Nat.ltb_spec d n), (Nat.ltb_spec (d - n) 0); auto; lia.
    + destruct (fit_spec s (len s + n) H) as (F1 & F2 & F3 & F4 & _).
      destruct (set_length_spec _ (len s + n) F3) as (s1 & E1 & L1 & A1 & C1). rewrite E1. cbn [obind]. rewrite L1. replace (len s + n - n) with (len s) by lia.
      destruct (swaps_spec n ltac:(lia) (len s) s1) as (s2 & E2 & L2 & A2 & C2); [lia|]. rewrite E2. cbn [obind].
      destruct (zeros_spec n 0 s2) as (t & E & L & Al & C); [lia|]. exists t. split; [exact E|]. unfold ok, coef in *. split; [lia|].
      intros d. rewrite C, L, L2, L1. destruct (Nat.leb_spec 0 d); [|lia]. cbn [andb]. rewrite Nat.add_0_l. destruct (Nat.ltb_spec d n); [destruct (d <? len s + n); reflexivity|].
      rewrite C2 by lia. rewrite !C1, !F1, !F2. destruct (Nat.ltb_spec d (len s + n)), (Nat.ltb_spec d (n + len s)), (Nat.ltb_spec (d - n) (len s)); try lia; auto.
Qed.

(** Into another polynomial, only the first length - n coefficients are copied; the last n positions keep what they held. *)
Theorem C89_shift_to : forall dst src n, 0 < n -> 0 < len src -> ok dst -> exists t, shift_to zero isz dst src n = Some t /\ ok t /\ len t = len src + n /\
  forall d, coef zero t d = if d <? n then zero else if d <? len src then coef zero src (d - n) else if d <? len src + n then coef zero dst d else zero.
Proof.
  intros dst src n Hn Hl H. unfold shift_to. destruct (Nat.eqb_spec n 0); [lia|]. destruct (Nat.eqb_spec (len src) 0); [lia|].
  destruct (fit_spec dst (len src + n) H) as (F1 & F2 & F3 & F4 & _).
  destruct (set_length_spec _ (len src + n) F3) as (s1 & E1 & L1 & A1 & C1). rewrite E1. cbn [obind].
  destruct (copy_spec n src (len src - n) 0 s1) as (s2 & E2 & L2 & A2 & C2); [lia|lia|]. rewrite E2. cbn [obind].
  destruct (zeros_spec n 0 s2) as (t & E & L & Al & C); [lia|]. exists t. split; [exact E|]. unfold ok, coef in *. split; [lia|]. split; [lia|].
  intros d. rewrite C, C2, C1, F1, F2, L, L2, L1.
  destruct (Nat.leb_spec 0 d); [|lia]. rewrite Nat.add_0_l, Nat.add_0_r. destruct (Nat.ltb_spec d n) as [H1|H1]; cbn [andb]; [destruct (d <? len src + n); reflexivity|].
  destruct (Nat.leb_spec n d); [|lia]. cbn [andb].
  destruct (Nat.ltb_spec d (n + (len src - n))), (Nat.ltb_spec d (len src)), (Nat.ltb_spec d (len src + n)), (Nat.ltb_spec (d - n) (len src)); try lia; auto.
Qed.

(** The documented effect fails: whenever the source has a nonzero top coefficient and the destination is not longer, the top is lost. *)
Theorem C89_shift_to_refuted : forall dst src n k t, 0 < n -> len src = S k -> coef zero src k <> zero -> ok dst -> len dst <= len src ->
  shift_to zero isz dst src n = Some t -> ~ (forall d, coef zero t d = if d <? n then zero else coef zero src (d - n)).
Proof.
  intros dst src n k t Hn Hk Ht Hd Hl HE HC. destruct (C89_shift_to dst src n Hn ltac:(lia) Hd) as (t' & E & _ & _ & C). rewrite E in HE. injection HE as ->.
  specialize (HC (k + n)). rewrite C in HC. destruct (Nat.ltb_spec (k + n) n); [lia|]. replace (k + n - n) with k in HC by lia.
  destruct (Nat.ltb_spec (k + n) (len src)); [lia|]. destruct (Nat.ltb_spec (k + n) (len src + n)); [|lia].
  apply Ht. rewrite <- HC. unfold coef. destruct (Nat.ltb_spec (k + n) (len dst)); [lia|reflexivity].
Qed.

(** The test for constants is the test for zero: it rejects every nonzero constant. *)
Theorem C89_constant_refuted : forall (s : mpol A), len s = 1 -> is_constant s = false /\ forall d, 0 < d -> coef zero s d = zero.
Proof.
  intros s H. unfold is_constant, coef. rewrite H. split; [reflexivity|]. intros d Hd. destruct (Nat.ltb_spec d 1); [lia|reflexivity].
Qed.
End P.
Print Assumptions C89_truncate.
Print Assumptions C89_copy.
Print Assumptions C89_shift_in_place.
Print Assumptions C89_shift_to.
Print Assumptions C89_shift_to_refuted.
Print Assumptions C89_constant_refuted.

(** Coefficients 5, 0, 7 of degrees 0 to 2, with numbers as coefficients. *)
Definition s507 : mpol nat := {| cf := fun d => match d with 0 => 5 | 2 => 7 | _ => 0 end; len := 3; al := 3 |}.
Definition empty : mpol nat := {| cf := fun _ => 0; len := 0; al := 0 |}.
Definition show (r : option (mpol nat)) : list nat := match r with Some t => map (cf t) (seq 0 (len t)) | None => nil end.
Example C89_truncate_ex : show (Some (truncate (Nat.eqb 0) s507 2)) = cons 5 nil.
Proof. reflexivity. Qed.
Example C89_shift_in_place_ex : show (shift_in_place 0 (Nat.eqb 0) s507 2) = (0 :: 0 :: 5 :: 0 :: 7 :: nil)%list.
Proof. reflexivity. Qed.
Example C89_shift_to_ex : show (shift_to 0 (Nat.eqb 0) empty s507 2) = (0 :: 0 :: 5 :: 0 :: 0 :: nil)%list.
Proof. reflexivity. Qed.
Example C89_copy_ex : show (set_from 0 (Nat.eqb 0) empty s507) = (5 :: 0 :: 7 :: nil)%list /\ ok s507 /\ ok empty.
Proof. repeat split; unfold ok; cbn; lia. Qed.
