(** C87: approximant bases by divide and conquer. *)
From Coq Require Import ZArith Arith List Bool Lia Setoid Morphisms Znumtheory.
From Verif Require Import ModInvModel LinSpec FglmSpec MatVecProofs LnullSpec LnullModel LnullProofs LnullProps AppSpec AppModel AppProofs AppRunProofs AppProps PmbModel.
Import ListNotations.
Open Scope Z_scope.

Lemma basis_trunc p m n F F' s B : (forall d r c, (d < s)%nat -> (r < m)%nat -> (c < n)%nat -> eqp p (F d r c) (F' d r c)) ->
  basis_of p m n F s B -> basis_of p m n F' s B.
Proof.
  intros E [H1 H2 H3].
  assert (A : forall q, approximant p m n F s q <-> approximant p m n F' s q).
  { intros q. split; intros H t c Ht Hc; rewrite <- (H t c Ht Hc); apply mulc_eqp; try reflexivity; intros d r Hd Hr; [symmetry|]; apply E; auto; lia. }
  constructor; auto.
  - intros r Hr. apply A. apply H1; auto.
  - intros q Hq Ha. apply H2; auto. apply A. exact Ha.
Qed.

(** The product of two bases is one of the sum of the orders. *)
Theorem C87_product : forall p m n F R s1 s2 B1 B2, basis_of p m n F s1 B1 ->
  (forall t i c, (t < s2)%nat -> (i < m)%nat -> (c < n)%nat -> eqp p (R t i c) (mulc m (fun e j => B1 e i j) F (s1 + t)%nat c)) ->
  basis_of p m n R s2 B2 -> basis_of p m n F (s1 + s2) (fun d i j => mulc m (fun e r => B2 e i r) B1 d j).
Proof.
  intros p m n F R s1 s2 B1 B2 HB1 HR HB2. destruct HB1 as [H1 H2 H3], HB2 as [K1 K2 K3].
  assert (low : forall a t c, (t < s1)%nat -> (c < n)%nat -> eqp p (mulc m (fun d j => mulc m a B1 d j) F t c) 0).
  { intros a t c Ht Hc. rewrite mulc_assoc. rewrite <- (sumn_zero (S t)). apply sumn_eqp. intros d Hd. rewrite <- (sumn_zero m). apply sumn_eqp. intros r Hr.
    rewrite (H1 r Hr (t - d)%nat c) by (auto; lia). rewrite Z.mul_0_r. reflexivity. }
  assert (high : forall a u c, (u < s2)%nat -> (c < n)%nat -> eqp p (mulc m (fun d j => mulc m a B1 d j) F (s1 + u) c) (mulc m a R u c)).
  { intros a u c Hu Hc. rewrite mulc_assoc. replace (S (s1 + u)) with (S u + s1)%nat by lia. rewrite sumn_app. rewrite <- (Z.add_0_r (mulc m a R u c)). apply eqp_add.
    - unfold mulc at 2. apply sumn_eqp. intros d Hd. apply sumn_eqp. intros r Hr. rewrite (HR (u - d)%nat r c) by (auto; lia). replace (s1 + u - d)%nat with (s1 + (u - d))%nat by lia. reflexivity.
    - rewrite <- (sumn_zero s1). apply sumn_eqp. intros d Hd. rewrite <- (sumn_zero m). apply sumn_eqp. intros r Hr. rewrite (H1 r Hr (s1 + u - (S u + d))%nat c) by (auto; lia). rewrite Z.mul_0_r. reflexivity. }
  assert (assoc : forall a t j, mulc m (fun d r => mulc m a B2 d r) B1 t j = mulc m a (fun d i j => mulc m (fun e r => B2 e i r) B1 d j) t j) by (intros; apply mulc_assoc).
  constructor.
  - intros i Hi t c Ht Hc. destruct (Nat.lt_ge_cases t s1) as [Hl|Hl]; [apply low; auto|].
    replace t with (s1 + (t - s1))%nat by lia. rewrite high by (auto; lia). apply (K1 i Hi); auto. lia.
  - intros q Hq Ha. destruct (H2 q Hq) as (a & Pa & Qa); [intros t c Ht Hc; apply Ha; auto; lia|].
    destruct (K2 a Pa) as (b & Pb & Qb).
    { intros u c Hu Hc. rewrite <- high by auto. rewrite <- (Ha (s1 + u)%nat c) by (auto; lia). apply mulc_eqp; [|reflexivity]. intros d r _ Hr. symmetry. apply Qa; auto. }
    exists b. split; [exact Pb|]. intros t j Hj. rewrite (Qa t j Hj), <- assoc. apply mulc_eqp; [|reflexivity]. intros d r _ Hr. apply Qb; auto.
  - intros a Ha. apply K3. intros t r Hr. apply (H3 (fun d r => mulc m a B2 d r)); auto. intros u j Hj. rewrite assoc. apply Ha; auto.
Qed.
Print Assumptions C87_product.

Lemma trim_le m n F : forall l, (trim m n F l <= l)%nat.
Proof. induction l as [|k IH]; cbn [trim]; [lia|]. destruct (forallb _ _); lia. Qed.
Lemma trim_zero m n F : forall l d r c, (trim m n F l <= d < l)%nat -> (r < m)%nat -> (c < n)%nat -> F d r c = 0.
Proof.
  induction l as [|k IH]; intros d r c Hd Hr Hc; [lia|]. cbn [trim] in Hd.
  match type of Hd with context [if ?b then _ else _] => destruct b eqn:E end; [|lia].
  destruct (Nat.eq_dec d k) as [->|]; [|apply IH; auto; lia]. rewrite forallb_forall in E. specialize (E r ltac:(apply in_seq; lia)). rewrite forallb_forall in E.
  apply Z.eqb_eq. apply E. apply in_seq. lia.
Qed.
Lemma trunc_zero m n flen F order : (forall d r c, (flen <= d)%nat -> (r < m)%nat -> (c < n)%nat -> F d r c = 0) ->
  forall d r c, (trunc_len m n flen F order <= d < order)%nat -> (r < m)%nat -> (c < n)%nat -> F d r c = 0.
Proof.
  intros HF d r c Hd Hr Hc. unfold trunc_len in Hd. pose proof (trim_le m n F flen) as L.
  assert (Z0 : (trim m n F flen <= d)%nat -> F d r c = 0).
  { intros H. destruct (Nat.lt_ge_cases d flen); [apply (trim_zero m n F flen); auto|apply HF; auto]. }
  destruct (Nat.ltb_spec (trim m n F flen) order) as [H|H].
  - rewrite Nat.ltb_irrefl in Hd. apply Z0. lia.
  - destruct (Nat.ltb_spec order (trim m n F flen)); [apply (trim_zero m n F order); auto|]. apply Z0. lia.
Qed.

(** Divide and conquer: when no call of the iterative routine is exceptional, the result is a basis of the module of all approximants. *)
Lemma pmbasis_ok thres : (0 < thres)%nat -> forall fuel p m n ker flen F order shift, p <> 0 -> ker_ok p m n ker -> (order < fuel)%nat ->
  (forall d r c, (flen <= d)%nat -> (r < m)%nat -> (c < n)%nat -> F d r c = 0) ->
  exists st exc, pmbasis thres fuel p m n ker flen F order shift = Some (st, exc) /\ (exc = false -> basis_of p m n F order (co st)).
Proof.
  intros Ht0. induction fuel as [|f IH]; intros p m n ker flen F order shift Hp Hk Hf HF; [lia|]. cbn [pmbasis]. destruct (Nat.leb_spec order thres) as [Ho|Ho].
  - set (l := trunc_len m n flen F order). cbv zeta. set (F' := fun d i c => if (d <? l)%nat then F d i c else 0).
    destruct (Nat.eqb_spec l 0) as [El|El].
    + unfold mbasis. rewrite El. cbn [Nat.eqb obind fst snd orb]. eexists _, true. split; [reflexivity|discriminate].
    + destruct (C86_basis p m n ker l F' order shift Hp Hk ltac:(lia)) as (st & e & E & H).
      { intros d r c Hd. unfold F'. destruct (Nat.ltb_spec d l); [lia|reflexivity]. }
      rewrite E. cbn [obind fst snd orb]. exists st, e. split; [reflexivity|]. intros He. apply (basis_trunc p m n F'); [|apply H; exact He].
      intros d r c Hd Hr Hc. unfold F'. destruct (Nat.ltb_spec d l); [reflexivity|]. rewrite (trunc_zero m n flen F order HF d r c) by (auto; lia). reflexivity.
  - cbv zeta. set (o1 := (order / 2)%nat). assert (H1 : (2 * o1 <= order)%nat) by (apply Nat.mul_div_le; lia).
    assert (H2 : (0 < o1)%nat) by (apply Nat.div_str_pos; lia).
    destruct (IH p m n ker flen F o1 shift Hp Hk ltac:(lia) HF) as (s1 & e1 & E1 & B1). rewrite E1. cbn [obind fst snd].
    destruct (IH p m n ker (order - o1)%nat (middle p m (co s1) F o1 order) (order - o1)%nat (sh s1) Hp Hk ltac:(lia)) as (s2 & e2 & E2 & B2).
    { intros d r c Hd _ _. unfold middle. destruct (Nat.ltb_spec (o1 + d) order); [lia|reflexivity]. }
    rewrite E2. cbn [obind fst snd]. eexists _, _. split; [reflexivity|]. intros He. apply orb_false_iff in He as [-> ->]. cbn [co].
    replace order with (o1 + (order - o1))%nat by lia. eapply basis_ext; [|apply (C87_product p m n F (middle p m (co s1) F o1 order) o1 (order - o1) (co s1) (co s2) (B1 eq_refl)); [|exact (B2 eq_refl)]].
    + intros d r j Hr Hj. unfold product. rewrite eqp_mod by auto. reflexivity.
    + intros t i c Ht Hi Hc. unfold middle. destruct (Nat.ltb_spec (o1 + t) order); [|lia]. rewrite eqp_mod by auto. reflexivity.
Qed.
Theorem C87_basis : forall p m n ker flen F order shift, p <> 0 -> ker_ok p m n ker ->
  (forall d r c, (flen <= d)%nat -> (r < m)%nat -> (c < n)%nat -> F d r c = 0) ->
  exists st exc, pmbasis_code p m n ker flen F order shift = Some (st, exc) /\ (exc = false -> basis_of p m n F order (co st)).
Proof. intros p m n ker flen F order shift Hp Hk HF. apply pmbasis_ok; auto; lia. Qed.
Print Assumptions C87_basis.

(** Any positive threshold for the iterative routine. *)
Theorem C87_threshold : forall thres p m n ker flen F order shift, (0 < thres)%nat -> p <> 0 -> ker_ok p m n ker ->
  (forall d r c, (flen <= d)%nat -> (r < m)%nat -> (c < n)%nat -> F d r c = 0) ->
  exists st exc, pmbasis thres (S order) p m n ker flen F order shift = Some (st, exc) /\ (exc = false -> basis_of p m n F order (co st)).
Proof. intros thres p m n ker flen F order shift Ht Hp Hk HF. apply pmbasis_ok; auto; lia. Qed.
Print Assumptions C87_threshold.

(** Without subdivision the code returns the basis of C86; with the threshold 1, order 3 is divided into 1 and 2, and 2 again. *)
Example C87_basis_ex : match pmbasis_code 7 2 1 ker2 3 F2 3 (fun _ => 0) with
  | Some (st, e) => table 2 st = [[[0; 0]; [6; 4]]; [[2; 6]; [1; 1]]; [[1; 0]; [0; 0]]] /\ e = false | None => False end.
Proof. vm_compute. split; reflexivity. Qed.
Example C87_threshold_ex : match pmbasis 1 4 7 2 1 ker2 3 F2 3 (fun _ => 0) with
  | Some (st, e) => firstn 3 (table 2 st) = [[[0; 0]; [6; 4]]; [[2; 6]; [1; 1]]; [[1; 0]; [0; 0]]] /\ map (sh st) [0; 1]%nat = [2; 1] /\ e = false | None => False end.
Proof. vm_compute. repeat split. Qed.

Lemma trim_top m n F l k : trim m n F l = S k -> exists r c, (r < m)%nat /\ (c < n)%nat /\ F k r c <> 0.
Proof.
  revert k. induction l as [|l IH]; intros k; cbn [trim]; [discriminate|].
  destruct (forallb _ _) eqn:E; [apply IH|]. intros H. injection H as <-.
  assert (X : ~ (forall r, In r (seq 0 m) -> forallb (fun c => F l r c =? 0) (seq 0 n) = true)) by (intros X; apply forallb_forall in X; congruence).
  destruct (existsb (fun r => negb (forallb (fun c => F l r c =? 0) (seq 0 n))) (seq 0 m)) eqn:E1.
  - apply existsb_exists in E1. destruct E1 as (r & Hr & H1). apply negb_true_iff in H1. apply in_seq in Hr.
    destruct (existsb (fun c => negb (F l r c =? 0)) (seq 0 n)) eqn:E2.
    + apply existsb_exists in E2. destruct E2 as (c & Hc & H2). apply negb_true_iff, Z.eqb_neq in H2. apply in_seq in Hc. exists r, c. repeat split; auto; lia.
    + exfalso. assert (forallb (fun c => F l r c =? 0) (seq 0 n) = true); [|congruence]. apply forallb_forall. intros c Hc. destruct (F l r c =? 0) eqn:E3; auto.
      assert (existsb (fun c => negb (F l r c =? 0)) (seq 0 n) = true); [|congruence]. apply existsb_exists. exists c. rewrite E3. auto.
  - exfalso. apply X. intros r Hr. destruct (forallb (fun c => F l r c =? 0) (seq 0 n)) eqn:E2; auto.
    assert (existsb (fun r => negb (forallb (fun c => F l r c =? 0) (seq 0 n))) (seq 0 m) = true); [|congruence]. apply existsb_exists. exists r. rewrite E2. auto.
Qed.
Lemma trunc_all_zero m n flen F order : (forall d r c, (d < order)%nat -> F d r c = 0) -> trunc_len m n flen F order = 0%nat.
Proof.
  intros H. assert (G : forall l, (trim m n F l <= order)%nat -> trim m n F l = 0%nat).
  { intros l Hl. destruct (trim m n F l) as [|k] eqn:E; [reflexivity|]. destruct (trim_top m n F l k E) as (r & c & _ & _ & N). exfalso. apply N. apply H. lia. }
  unfold trunc_len. destruct (Nat.ltb_spec (trim m n F flen) order) as [L|L].
  - rewrite Nat.ltb_irrefl. apply G. lia.
  - destruct (Nat.ltb_spec order (trim m n F flen)) as [L2|L2]; [apply G, trim_le|]. rewrite <- (G flen L2). lia.
Qed.

(** If the coefficients below the order are zero, the rows of the result are multiples of x^order. *)
Lemma pmbasis_low thres : (0 < thres)%nat -> forall fuel p m n ker flen F order shift, (order < fuel)%nat -> (forall d r c, (d < order)%nat -> F d r c = 0) ->
  exists st exc, pmbasis thres fuel p m n ker flen F order shift = Some (st, exc) /\ forall d r j, (d < order)%nat -> co st d r j = 0.
Proof.
  intros Ht0. induction fuel as [|f IH]; intros p m n ker flen F order shift Hf HF; [lia|]. cbn [pmbasis]. destruct (Nat.leb_spec order thres) as [Ho|Ho].
  - rewrite (trunc_all_zero m n flen F order HF). unfold mbasis. cbn [Nat.eqb obind fst snd]. eexists _, _. split; [reflexivity|]. cbn [co]. intros d r j Hd. destruct (Nat.eqb_spec d order); [lia|reflexivity].
  - cbv zeta. set (o1 := (order / 2)%nat). assert (H1 : (2 * o1 <= order)%nat) by (apply Nat.mul_div_le; lia). assert (H2 : (0 < o1)%nat) by (apply Nat.div_str_pos; lia).
    destruct (IH p m n ker flen F o1 shift ltac:(lia)) as (s1 & e1 & E1 & B1); [intros; apply HF; lia|]. rewrite E1. cbn [obind fst snd].
    destruct (IH p m n ker (order - o1)%nat (middle p m (co s1) F o1 order) (order - o1)%nat (sh s1) ltac:(lia)) as (s2 & e2 & E2 & B2).
    { intros d r c Hd. unfold middle. destruct (o1 + d <? order)%nat; [|reflexivity]. rewrite (sumn_zero_ext (S (o1 + d))); [reflexivity|]. intros e He. apply sumn_zero_ext. intros k Hk. rewrite HF by lia. ring. }
    rewrite E2. cbn [obind fst snd]. eexists _, _. split; [reflexivity|]. cbn [co]. intros d r j Hd. unfold product. rewrite (sumn_zero_ext (S d)); [reflexivity|].
    intros e He. apply sumn_zero_ext. intros k Hk. destruct (Nat.lt_ge_cases e (order - o1)) as [L|L]; [rewrite B2 by lia; ring|rewrite (B1 (d - e)%nat) by lia; ring].
Qed.

(** The wrong result for zero matrices spoils nonzero inputs: if the coefficients up to half of the order are zero and the order exceeds the
    threshold, the result is not a basis. *)
Theorem C87_low_refuted : forall p m n ker flen F order shift st exc, 1 < p -> (0 < m)%nat -> ker_ok p m n ker -> (32 < order)%nat ->
  (forall d r c, (flen <= d)%nat -> (r < m)%nat -> (c < n)%nat -> F d r c = 0) -> (forall d r c, (d <= order / 2 + 1)%nat -> F d r c = 0) ->
  pmbasis_code p m n ker flen F order shift = Some (st, exc) -> ~ basis_of p m n F order (co st).
Proof.
  intros p m n ker flen F order shift st exc Hp Hm Hk Ho HF HL HE HB. unfold pmbasis_code in HE. cbn [pmbasis] in HE. destruct (Nat.leb_spec order 32); [lia|].
  cbv zeta in HE. set (o1 := (order / 2)%nat) in *. assert (H1 : (2 * o1 <= order)%nat) by (apply Nat.mul_div_le; lia).
  assert (H2 : (order < 2 * o1 + 2)%nat). { unfold o1. pose proof (Nat.div_mod order 2 ltac:(lia)). pose proof (Nat.mod_upper_bound order 2 ltac:(lia)). lia. }
  destruct (pmbasis_low 32 ltac:(lia) order p m n ker flen F o1 shift) as (s1 & e1 & E1 & B1); [lia|intros; apply HL; lia|]. rewrite E1 in HE. cbn [obind fst snd] in HE.
  destruct (pmbasis_ok 32 ltac:(lia) order p m n ker (order - o1)%nat (middle p m (co s1) F o1 order) (order - o1)%nat (sh s1)) as (s2 & e2 & E2 & _); [lia|auto|lia| |].
  { intros d r c Hd _ _. unfold middle. destruct (Nat.ltb_spec (o1 + d) order); [lia|reflexivity]. }
  rewrite E2 in HE. cbn [obind fst snd] in HE. injection HE as <- _. cbn [co] in HB.
  set (k := (order - o1 - 2)%nat). set (q := fun d j => if (d =? k)%nat then (if (j =? 0)%nat then 1 else 0) else 0).
  destruct (b_gen _ _ _ _ _ _ HB q) as (a & _ & Ha).
  - exists (S k). intros d r Hd Hr. unfold q. destruct (Nat.eqb_spec d k); [lia|reflexivity].
  - intros t c Ht Hc. unfold mulc. rewrite (sumn_zero_ext (S t)); [reflexivity|]. intros d Hd. apply sumn_zero_ext. intros r Hr. unfold q. destruct (Nat.eqb_spec d k) as [->|]; [|ring].
    rewrite HL by (unfold k; lia). ring.
  - apply (not_unit p Hp). specialize (Ha k 0%nat Hm). unfold q in Ha. rewrite !Nat.eqb_refl in Ha. etransitivity; [exact Ha|]. unfold mulc. rewrite (sumn_zero_ext (S k)); [reflexivity|].
    intros d Hd. apply sumn_zero_ext. intros r Hr. unfold product. rewrite (sumn_zero_ext (S (k - d))); [rewrite Z.mod_0_l by lia; ring|].
    intros e He. apply sumn_zero_ext. intros l Hl. rewrite (B1 (k - d - e)%nat) by (unfold k in *; lia). ring.
Qed.
Print Assumptions C87_low_refuted.
(** For order 34 this applies to F = (x^20, 0), modulo 7. *)
Example C87_low_ex : let F := fun d r c => if ((d =? 20) && (r =? 0) && (c =? 0))%nat then 1 else 0 in
  (forall d r c, (21 <= d)%nat -> F d r c = 0) /\ (forall d r c, (d <= 34 / 2 + 1)%nat -> F d r c = 0) /\ F 20%nat 0%nat 0%nat = 1.
Proof.
  cbv zeta. split; [|split]; [| |reflexivity]; intros d r c H; [|change (34 / 2 + 1)%nat with 18%nat in H]; destruct (Nat.eqb_spec d 20); try lia; reflexivity.
Qed.
