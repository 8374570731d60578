From Coq Require Import ZArith NArith Arith List Bool Lia.
From Verif Require Import ModInvModel MonoSpec MonoSpecProofs MonoModel MonoProofs.
Import ListNotations.
Open Scope N_scope.

Lemma cmp_spec_intro n lt (a b : mono) c : mono_order n lt -> length a = n -> length b = n ->
  ((c < 0)%Z -> lt a b) -> (c = 0%Z -> a = b) -> ((0 < c)%Z -> lt b a) -> cmp_spec lt a b c.
Proof.
  intros [Hi Ht _ _ _ _] Ha Hb H1 H2 H3.
  assert (Hn : lt a b -> lt b a -> False) by (intros P Q; apply (Hi a); eapply (Ht a b a); eauto).
  split; [split; [assumption|]|split; [split; [assumption|]|split; [assumption|]]].
  - intros L. destruct (Z.lt_trichotomy c 0) as [|[E|G]]; [assumption|exfalso|exfalso; auto].
    rewrite H2 in L by assumption. apply (Hi b). assumption.
  - intros ->. destruct (Z.lt_trichotomy c 0) as [L|[E|G]]; [exfalso; apply (Hi b); auto|assumption|exfalso; apply (Hi b); auto].
  - intros L. destruct (Z.lt_trichotomy c 0) as [L'|[E|G]]; [exfalso; auto|exfalso|assumption].
    rewrite H2 in L by assumption. apply (Hi b). assumption.
Qed.

Lemma cmp_spec_opp {A} (lt : A -> A -> Prop) a b c : cmp_spec lt a b c -> cmp_spec (fun x y => lt y x) a b (- c).
Proof.
  intros (H1 & H2 & H3). split; [|split].
  - rewrite <- H3. lia.
  - rewrite <- H2. lia.
  - rewrite <- H1. lia.
Qed.

(** ** Scans *)
Lemma scan_up_ok cnt : forall i ea eb, (i + cnt < length ea)%nat -> (i + cnt < length eb)%nat ->
  exists k, scan_up cnt i ea eb = Some k /\ (i <= k <= i + cnt)%nat /\
  (forall j, (i <= j < k)%nat -> ex ea j = ex eb j) /\ (k = (i + cnt)%nat \/ ex ea k <> ex eb k).
Proof.
  induction cnt as [|c IH]; intros i ea eb Ha Hb.
  - exists i. split; [reflexivity|]. split; [lia|]. split; [intros; lia|]. left; lia.
  - cbn [scan_up]. rewrite !rd_ex by lia. cbn [obind]. destruct (N.eqb_spec (ex ea i) (ex eb i)) as [E|E].
    + destruct (IH (S i) ea eb) as (k & -> & Hk & Hj & He); [lia|lia|]. exists k. split; [reflexivity|]. split; [lia|]. split.
      * intros j Hj'. destruct (Nat.eq_dec j i) as [->|]; [assumption|]. apply Hj. lia.
      * destruct He; [left; lia|right; assumption].
    + exists i. split; [reflexivity|]. split; [lia|]. split; [intros; lia|]. right; assumption.
Qed.

Lemma scan_down_ok lo : forall i ea eb, (i < length ea)%nat -> (i < length eb)%nat -> (lo <= i)%nat ->
  exists k, scan_down lo i ea eb = Some k /\ (lo <= k <= i)%nat /\
  (forall j, (k < j <= i)%nat -> ex ea j = ex eb j) /\ (k = lo \/ ex ea k <> ex eb k).
Proof.
  induction i as [|i IH]; intros ea eb Ha Hb Hlo.
  - exists O. split; [reflexivity|]. split; [lia|]. split; [intros; lia|]. left; lia.
  - cbn [scan_down]. destruct (Nat.ltb_spec lo (S i)) as [H|H].
    + rewrite !rd_ex by lia. cbn [obind]. destruct (N.eqb_spec (ex ea (S i)) (ex eb (S i))) as [E|E].
      * destruct (IH ea eb) as (k & -> & Hk & Hj & He); [lia|lia|lia|]. exists k. split; [reflexivity|]. split; [lia|]. split.
        -- intros j Hj'. destruct (Nat.eq_dec j (S i)) as [->|]; [assumption|]. apply Hj. lia.
        -- assumption.
      * exists (S i). split; [reflexivity|]. split; [lia|]. split; [intros; lia|]. right; assumption.
    + exists (S i). split; [reflexivity|]. split; [lia|]. split; [intros; lia|]. left; lia.
Qed.

Lemma dif_ok ea eb i : (i < length ea)%nat -> (i < length eb)%nat ->
  dif ea eb i = Some (Z.of_N (ex ea i) - Z.of_N (ex eb i))%Z.
Proof. intros Ha Hb. unfold dif. rewrite !rd_ex by assumption. reflexivity. Qed.

(** ** Lexicographic *)
Section NoBlock.
Variable nv : nat.
Hypothesis Hnv : (0 < nv)%nat.

Lemma lay0_S m j : ex (lay 0 m) (S j) = ex m j.
Proof. reflexivity. Qed.
Lemma lay0_len m : length (lay 0 m) = S (length m).
Proof. reflexivity. Qed.

Lemma cmp_lex_ok a b : length a = nv -> length b = nv ->
  exists c, cmp_lex (ht_evl nv 0) (lay 0 a) (lay 0 b) = Some c /\ cmp_spec lex_lt a b c.
Proof.
  intros Ha Hb. unfold cmp_lex, ht_evl. cbn [Nat.eqb].
  destruct (scan_up_ok (nv + 1 - 1 - 1) 1 (lay 0 a) (lay 0 b)) as (k & -> & Hk & Hj & He);
    [rewrite lay0_len; lia|rewrite lay0_len; lia|].
  cbn [obind]. rewrite dif_ok by (rewrite lay0_len; lia). eexists. split; [reflexivity|].
  destruct k as [|k]; [lia|]. rewrite !lay0_S in *.
  assert (Hj' : forall j, (j < k)%nat -> ex a j = ex b j) by (intros j Hjk; apply (Hj (S j)); lia).
  apply (cmp_spec_intro nv); auto using mono_order_lex.
  - intros L. exists k. split; [lia|]. assumption.
  - intros E. destruct He as [He|He]; [|lia]. apply ex_eq; [congruence|]. intros j.
    destruct (Nat.lt_trichotomy j k) as [L|[->|G]]; [auto|lia|]. rewrite !ex_overflow by lia. reflexivity.
  - intros L. exists k. split; [lia|]. intros j Hjk. symmetry. auto.
Qed.

Lemma cmp_pivots_lex_eq evl a b : (2 <= evl)%nat -> length a = evl -> length b = evl ->
  forall c, cmp_lex evl a b = Some c -> cmp_pivots_lex evl a b = Some (- c)%Z.
Proof.
  intros Hl Ha Hb c. unfold cmp_lex, cmp_pivots_lex.
  destruct (scan_up_ok (evl - 1 - 1) 1 a b) as (k & -> & Hk & _ & _); [lia|lia|]. cbn [obind].
  rewrite !dif_ok by lia. intros [= <-]. f_equal. lia.
Qed.

(** ** Degree reverse lexicographic *)
Lemma cmp_drl_ok a b : length a = nv -> length b = nv ->
  exists c, cmp_drl (ht_evl nv 0) (lay 0 a) (lay 0 b) = Some c /\ cmp_spec drl_lt a b c.
Proof.
  intros Ha Hb. unfold cmp_drl, ht_evl. cbn [Nat.eqb].
  rewrite !rd_ex by (rewrite lay0_len; lia). cbn [obind]. rewrite !lay_deg0. cbn [Nat.eqb].
  destruct (N.ltb_spec (mdeg b) (mdeg a)) as [L|L].
  { exists 1%Z. split; [reflexivity|]. apply (cmp_spec_intro nv); auto using mono_order_drl; try lia. intros _. left. assumption. }
  destruct (N.eqb_spec (mdeg a) (mdeg b)) as [E|E]; cbn [negb].
  2:{ exists (-1)%Z. split; [reflexivity|]. apply (cmp_spec_intro nv); auto using mono_order_drl; try lia. intros _. left. lia. }
  destruct (scan_down_ok 1 (nv + 1 - 1) (lay 0 a) (lay 0 b)) as (k & -> & Hk & Hj & He);
    [rewrite lay0_len; lia|rewrite lay0_len; lia|lia|].
  cbn [obind]. rewrite dif_ok by (rewrite lay0_len; lia). eexists. split; [reflexivity|].
  destruct k as [|k]; [lia|]. rewrite !lay0_S in *.
  assert (Hj' : forall j, (k < j)%nat -> ex a j = ex b j).
  { intros j Hjk. destruct (Nat.lt_ge_cases j nv); [apply (Hj (S j)); lia|]. rewrite !ex_overflow by lia. reflexivity. }
  apply (cmp_spec_intro nv); auto using mono_order_drl.
  - intros L'. right. split; [assumption|]. exists k. split; [lia|]. assumption.
  - intros E'. destruct He as [He|He]; [|lia]. apply ex_eq; [congruence|]. intros j.
    destruct (Nat.lt_trichotomy j k) as [L'|[->|G]]; [lia|lia|auto].
  - intros L'. right. split; [auto|]. exists k. split; [lia|]. intros j Hjk. symmetry. auto.
Qed.

Lemma drl_variants a b : length a = ht_evl nv 0 -> length b = ht_evl nv 0 -> forall c, cmp_drl (ht_evl nv 0) a b = Some c ->
  initial_input_cmp_drl (ht_evl nv 0) a b = Some c /\
  initial_gens_cmp_drl (ht_evl nv 0) a b = Some (- c)%Z /\
  cmp_pivots_drl (ht_evl nv 0) a b = Some (- c)%Z.
Proof.
  unfold ht_evl. cbn [Nat.eqb]. intros Ha Hb c. unfold cmp_drl, initial_input_cmp_drl, initial_gens_cmp_drl, cmp_pivots_drl.
  rewrite !rd_ex by lia. cbn [obind].
  destruct (N.ltb_spec (ex b 0) (ex a 0)); destruct (N.ltb_spec (ex a 0) (ex b 0)); destruct (N.eqb_spec (ex a 0) (ex b 0));
    cbn [negb]; try lia; try solve [intros [= <-]; auto].
  destruct (scan_down_ok 1 (nv + 1 - 1) a b) as (k & -> & Hk & _ & _); [lia|lia|lia|]. cbn [obind].
  rewrite !dif_ok by lia. intros [= <-]. split; [reflexivity|]. split; f_equal; lia.
Qed.
End NoBlock.

(** ** Block order *)
Section Block.
Variables nv nev : nat.
Hypothesis Hnev : (0 < nev < nv)%nat.

Lemma ebl_eq : ht_ebl nev = (nev + 1)%nat.
Proof. unfold ht_ebl. destruct (Nat.eqb_spec nev 0); lia. Qed.
Lemma evl_eq : ht_evl nv nev = (nv + 2)%nat.
Proof. unfold ht_evl. destruct (Nat.eqb_spec nev 0); lia. Qed.

Lemma ex_lay_b1 m j : length m = nv -> (j < nev)%nat -> ex (lay nev m) (S j) = ex (firstn nev m) j.
Proof.
  intros Hm Hj. rewrite (lay_first nv) by (auto; lia). rewrite ex_firstn. destruct (Nat.ltb_spec j nev); [|lia]. f_equal; lia.
Qed.
Lemma ex_lay_b2 m j : length m = nv -> ex (lay nev m) (nev + 2 + j) = ex (skipn nev m) j.
Proof.
  intros Hm. rewrite (lay_second nv) by (auto; try lia; rewrite ebl_eq; lia). rewrite ex_skipn, ebl_eq. f_equal. lia.
Qed.

Lemma firstn_eq_b1 a b : length a = nv -> length b = nv -> (forall j, (j < nev)%nat -> ex (firstn nev a) j = ex (firstn nev b) j) ->
  firstn nev a = firstn nev b.
Proof.
  intros Ha Hb H. apply ex_eq; [rewrite !firstn_length; lia|]. intros j.
  destruct (Nat.lt_ge_cases j nev); [auto|]. rewrite !ex_overflow by (rewrite firstn_length; lia). reflexivity.
Qed.

Lemma cmp_be_ok a b : length a = nv -> length b = nv ->
  exists c, cmp_be (ht_evl nv nev) (ht_ebl nev) (lay nev a) (lay nev b) = Some c /\ cmp_spec (blk_lt nev) a b c.
Proof.
  intros Ha Hb. unfold cmp_be.
  assert (HLa : length (lay nev a) = (nv + 2)%nat) by (rewrite (lay_length nv), evl_eq; auto; lia).
  assert (HLb : length (lay nev b) = (nv + 2)%nat) by (rewrite (lay_length nv), evl_eq; auto; lia).
  rewrite evl_eq, ebl_eq.
  rewrite !(rd_ex _ 0) by lia. cbn [obind]. rewrite !lay_deg0. destruct (Nat.eqb_spec nev 0) as [|_]; [lia|].
  destruct (N.ltb_spec (mdeg (firstn nev b)) (mdeg (firstn nev a))) as [L|L].
  { exists 1%Z. split; [reflexivity|]. apply (cmp_spec_intro nv); auto using mono_order_blk; try lia. intros _. left. left. assumption. }
  destruct (N.eqb_spec (mdeg (firstn nev a)) (mdeg (firstn nev b))) as [E|E]; cbn [negb].
  2:{ exists (-1)%Z. split; [reflexivity|]. apply (cmp_spec_intro nv); auto using mono_order_blk; try lia. intros _. left. left. lia. }
  destruct (scan_down_ok 1 (nev + 1 - 1) (lay nev a) (lay nev b)) as (k & -> & Hk & Hj & He); [lia|lia|lia|].
  cbn [obind]. rewrite dif_ok by lia. cbn [obind].
  destruct k as [|k]; [lia|]. rewrite !ex_lay_b1 in * by (auto; lia).
  assert (Hj' : forall j, (k < j)%nat -> ex (firstn nev a) j = ex (firstn nev b) j).
  { intros j Hjk. destruct (Nat.lt_ge_cases j nev).
    - specialize (Hj (S j) ltac:(lia)). rewrite !ex_lay_b1 in Hj by (auto; lia). assumption.
    - rewrite !ex_overflow by (rewrite firstn_length; lia). reflexivity. }
  destruct (Z.eqb_spec (Z.of_N (ex (firstn nev b) k) - Z.of_N (ex (firstn nev a) k)) 0) as [E2|E2]; cbn [negb].
  2:{ eexists. split; [reflexivity|]. apply (cmp_spec_intro nv); auto using mono_order_blk; try lia.
      - intros L'. left. right. split; [assumption|]. exists k. split; [lia|assumption].
      - intros L'. left. right. split; [auto|]. exists k. split; [lia|]. intros j Hjk. symmetry. auto. }
  assert (Eq1 : firstn nev a = firstn nev b).
  { apply firstn_eq_b1; auto. intros j Hjn. destruct He as [He|He]; [|lia].
    destruct (Nat.lt_trichotomy j k) as [L'|[->|G]]; [lia|lia|auto]. }
  rewrite !rd_ex by lia. cbn [obind]. rewrite !(lay_ebl nv) by (auto; lia).
  destruct (N.ltb_spec (mdeg (skipn nev b)) (mdeg (skipn nev a))) as [L3|L3].
  { exists 1%Z. split; [reflexivity|]. apply (cmp_spec_intro nv); auto using mono_order_blk; try lia. intros _. right. split; [auto|]. left. assumption. }
  destruct (N.eqb_spec (mdeg (skipn nev a)) (mdeg (skipn nev b))) as [E3|E3]; cbn [negb].
  2:{ exists (-1)%Z. split; [reflexivity|]. apply (cmp_spec_intro nv); auto using mono_order_blk; try lia. intros _. right. split; [auto|]. left. lia. }
  clear He Hj. destruct (scan_down_ok (nev + 1) (nv + 2 - 1) (lay nev a) (lay nev b)) as (i & -> & Hi & Hj & He); [lia|lia|lia|].
  cbn [obind]. rewrite dif_ok by lia. eexists. split; [reflexivity|].
  assert (Hi' : forall j, (i < nev + 2 + j)%nat -> ex (skipn nev a) j = ex (skipn nev b) j).
  { intros j Hjk. destruct (Nat.lt_ge_cases j (nv - nev)).
    - specialize (Hj (nev + 2 + j)%nat ltac:(lia)). rewrite !ex_lay_b2 in Hj by auto. assumption.
    - rewrite !ex_overflow by (rewrite skipn_length; lia). reflexivity. }
  assert (Hall : i = (nev + 1)%nat -> a = b).
  { intros ->. rewrite <- (firstn_skipn nev a), <- (firstn_skipn nev b), Eq1. f_equal.
    apply ex_eq; [rewrite !skipn_length; lia|]. intros j. apply Hi'. lia. }
  destruct (Nat.eq_dec i (nev + 1)) as [Ei|Ei].
  { assert (Eab : a = b) by auto. subst b.
    replace (Z.of_N (ex (lay nev a) i) - Z.of_N (ex (lay nev a) i))%Z with 0%Z by lia.
    apply (cmp_spec_intro nv); auto using mono_order_blk; lia. }
  destruct He as [He|He]; [contradiction|].
  set (q := (i - nev - 2)%nat). assert (Eq : i = (nev + 2 + q)%nat) by (unfold q; lia). rewrite Eq in *. rewrite !ex_lay_b2 in * by auto.
  apply (cmp_spec_intro nv); auto using mono_order_blk; try lia.
  - intros L'. right. split; [assumption|]. right. split; [assumption|]. exists q. split; [lia|]. intros j Hjq. apply Hi'. lia.
  - intros L'. right. split; [auto|]. right. split; [auto|]. exists q. split; [lia|]. intros j Hjq. symmetry. apply Hi'. lia.
Qed.

Lemma be_variants a b : length a = ht_evl nv nev -> length b = ht_evl nv nev ->
  forall c, cmp_be (ht_evl nv nev) (ht_ebl nev) a b = Some c ->
  initial_input_cmp_be (ht_evl nv nev) (ht_ebl nev) a b = Some c /\
  initial_gens_cmp_be (ht_evl nv nev) (ht_ebl nev) a b = Some (- c)%Z /\
  cmp_pivots_be (ht_evl nv nev) (ht_ebl nev) a b = Some (- c)%Z.
Proof.
  rewrite evl_eq, ebl_eq. intros Ha Hb c. unfold cmp_be, initial_input_cmp_be, initial_gens_cmp_be, cmp_pivots_be.
  rewrite !rd_ex by lia. cbn [obind].
  destruct (N.ltb_spec (ex b 0) (ex a 0)); destruct (N.ltb_spec (ex a 0) (ex b 0)); destruct (N.eqb_spec (ex a 0) (ex b 0));
    cbn [negb]; try lia; try solve [intros [= <-]; auto].
  destruct (scan_down_ok 1 (nev + 1 - 1) a b) as (k & -> & Hk & _ & _); [lia|lia|lia|]. cbn [obind].
  rewrite !dif_ok by lia. cbn [obind].
  destruct (Z.eqb_spec (Z.of_N (ex b k) - Z.of_N (ex a k)) 0); destruct (Z.eqb_spec (Z.of_N (ex a k) - Z.of_N (ex b k)) 0); cbn [negb]; try lia.
  2:{ intros [= <-]. split; [reflexivity|]. split; f_equal; lia. }
  destruct (N.ltb_spec (ex b (nev+1)) (ex a (nev+1))); destruct (N.ltb_spec (ex a (nev+1)) (ex b (nev+1))); destruct (N.eqb_spec (ex a (nev+1)) (ex b (nev+1)));
    cbn [negb]; try lia; try solve [intros [= <-]; auto].
  destruct (scan_down_ok (nev + 1) (nv + 2 - 1) a b) as (i & -> & Hi & _ & _); [lia|lia|lia|]. cbn [obind].
  rewrite !dif_ok by lia. intros [= <-]. split; [reflexivity|]. split; f_equal; lia.
Qed.
End Block.

(** ** The selected order *)
Definition o_ok (o : ordering) : Prop := (o_nev o < o_nv o)%nat.
Definition o_lt (o : ordering) : mono -> mono -> Prop := sel o (blk_lt (o_nev o)) drl_lt lex_lt.

Lemma o_lt_order o : mono_order (o_nv o) (o_lt o).
Proof.
  unfold o_lt, sel. destruct (0 <? o_nev o)%nat; [apply mono_order_blk|].
  destruct (o_mo o =? 1)%nat; [apply mono_order_lex|apply mono_order_drl].
Qed.

Lemma monomial_cmp_ev_ok o a b : o_ok o -> length a = o_nv o -> length b = o_nv o ->
  exists c, monomial_cmp_ev o (lay (o_nev o) a) (lay (o_nev o) b) = Some c /\ cmp_spec (o_lt o) a b c.
Proof.
  intros Ho Ha Hb. unfold monomial_cmp_ev, o_lt, sel, o_evl, o_ebl, o_ok in *.
  destruct (Nat.ltb_spec 0 (o_nev o)).
  - apply cmp_be_ok; auto; lia.
  - replace (o_nev o) with 0%nat by lia. destruct (o_mo o =? 1)%nat.
    + apply cmp_lex_ok; auto; lia.
    + apply cmp_drl_ok; auto; lia.
Qed.

Lemma variants_ok o a b : o_ok o -> length a = o_nv o -> length b = o_nv o ->
  exists c, monomial_cmp_ev o (lay (o_nev o) a) (lay (o_nev o) b) = Some c /\
  initial_input_cmp o (lay (o_nev o) a) (lay (o_nev o) b) = Some c /\
  cmp_pivots_ev o (lay (o_nev o) a) (lay (o_nev o) b) = Some (- c)%Z /\
  initial_gens_cmp o (lay (o_nev o) a) (lay (o_nev o) b) =
    Some (if ((o_nev o =? 0) && (o_mo o =? 1))%nat then c else - c)%Z.
Proof.
  intros Ho Ha Hb. destruct (monomial_cmp_ev_ok o a b Ho Ha Hb) as (c & Hc & _). exists c. split; [assumption|].
  unfold o_ok in Ho.
  pose proof (lay_length (o_nv o) (o_nev o) Ho a Ha) as La. pose proof (lay_length (o_nv o) (o_nev o) Ho b Hb) as Lb.
  unfold monomial_cmp_ev, initial_input_cmp, cmp_pivots_ev, initial_gens_cmp, sel, o_evl, o_ebl, o_ok in *.
  destruct (Nat.ltb_spec 0 (o_nev o)).
  - destruct (Nat.eqb_spec (o_nev o) 0); [lia|]. cbn [andb].
    destruct (be_variants (o_nv o) (o_nev o) ltac:(lia) _ _ La Lb c Hc) as (H1 & H2 & H3). auto.
  - assert (E0 : o_nev o = 0%nat) by lia. rewrite E0 in *. cbn [Nat.eqb andb].
    destruct (o_mo o =? 1)%nat.
    + split; [exact Hc|]. split; [|exact Hc]. apply (cmp_pivots_lex_eq (o_nv o)); auto; try lia. unfold ht_evl. cbn. lia.
    + destruct (drl_variants (o_nv o) ltac:(lia) _ _ La Lb c Hc) as (H1 & H2 & H3). auto.
Qed.

(* it is enough to give, up to sign, a total comparison function satisfying the laws *)
Lemma consistent_intro {A} (D : A -> Prop) cmp (f : A -> A -> Z) :
  (forall a b, D a -> D b -> exists c, cmp a b = Some c /\ Z.sgn c = Z.sgn (f a b)) ->
  (forall a b, D a -> D b -> Z.sgn (f b a) = - Z.sgn (f a b))%Z ->
  (forall a b d, D a -> D b -> D d -> f a b <= 0 -> f b d <= 0 -> f a d <= 0)%Z ->
  consistent D cmp.
Proof.
  intros H1 H2 H3. constructor.
  - intros a b Ha Hb. destruct (H1 a b Ha Hb) as (c & Hc & _). eauto.
  - intros a b c c' Ha Hb Hc Hc'. destruct (H1 a b Ha Hb) as (x & Hx & Sx). destruct (H1 b a Hb Ha) as (y & Hy & Sy).
    rewrite Hc in Hx; rewrite Hc' in Hy. injection Hx as <-. injection Hy as <-. rewrite Sx, Sy. auto.
  - intros a b d c c' c'' Ha Hb Hd Hc Hc' Hc'' L1 L2.
    destruct (H1 a b Ha Hb) as (x & Hx & Sx). destruct (H1 b d Hb Hd) as (y & Hy & Sy). destruct (H1 a d Ha Hd) as (z & Hz & Sz).
    rewrite Hc in Hx; rewrite Hc' in Hy; rewrite Hc'' in Hz. injection Hx as <-. injection Hy as <-. injection Hz as <-.
    specialize (H3 a b d Ha Hb Hd). lia.
Qed.

(* sign of a lexicographic combination *)
Definition lexz (x y : Z) : Z := if (x =? 0)%Z then y else x.
Definition good {A} (D : A -> Prop) (f : A -> A -> Z) : Prop :=
  (forall a b, D a -> D b -> Z.sgn (f b a) = - Z.sgn (f a b))%Z /\
  (forall a b d, D a -> D b -> D d -> f a b <= 0 -> f b d <= 0 -> f a d <= 0)%Z.

Lemma good_lex {A} (D : A -> Prop) f g : good D f -> good D g -> good D (fun a b => lexz (f a b) (g a b)).
Proof.
  intros [F1 F2] [G1 G2]. unfold lexz. split.
  - intros a b Ha Hb. specialize (F1 a b Ha Hb). specialize (G1 a b Ha Hb).
    destruct (Z.eqb_spec (f b a) 0); destruct (Z.eqb_spec (f a b) 0); lia.
  - intros a b d Ha Hb Hd.
    pose proof (F2 a b d Ha Hb Hd). pose proof (G2 a b d Ha Hb Hd).
    pose proof (F2 b d a Hb Hd Ha). pose proof (F2 d a b Hd Ha Hb).
    pose proof (F1 a b Ha Hb). pose proof (F1 b d Hb Hd). pose proof (F1 a d Ha Hd).
    destruct (Z.eqb_spec (f a b) 0); destruct (Z.eqb_spec (f b d) 0); destruct (Z.eqb_spec (f a d) 0); lia.
Qed.
Lemma good_key {A} (D : A -> Prop) (k : A -> Z) : good D (fun a b => (k a - k b)%Z).
Proof. split; intros; lia. Qed.
Lemma good_opp {A} (D : A -> Prop) f : good D f -> good D (fun a b => (- f a b)%Z).
Proof.
  intros [F1 F2]. split; intros; [rewrite !Z.sgn_opp; rewrite F1 by auto; reflexivity|].
  pose proof (F2 d b a). pose proof (F1 a b). pose proof (F1 b d). pose proof (F1 a d).
  repeat match goal with H : ?P -> _, H' : ?P |- _ => specialize (H H') end. lia.
Qed.
Lemma good_consistent {A} (D : A -> Prop) cmp f : good D f ->
  (forall a b, D a -> D b -> exists c, cmp a b = Some c /\ Z.sgn c = Z.sgn (f a b)) -> consistent D cmp.
Proof. intros [H1 H2] H3. eapply consistent_intro; eauto. Qed.

(* the sign function of a monomial order, on valid layouts *)
Definition vlay (o : ordering) (e : list N) : Prop := exists m, length m = o_nv o /\ e = lay (o_nev o) m.
Definition mcz (o : ordering) (a b : list N) : Z := match monomial_cmp_ev o a b with Some c => c | None => 0%Z end.

Lemma mcz_good o : o_ok o -> good (vlay o) (mcz o).
Proof.
  intros Ho. pose proof (o_lt_order o) as [Hi Ht Hto _ _ _]. split.
  - intros a b (ma & Ha & ->) (mb & Hb & ->). unfold mcz.
    destruct (monomial_cmp_ev_ok o ma mb Ho Ha Hb) as (c & -> & (C1 & C2 & C3)).
    destruct (monomial_cmp_ev_ok o mb ma Ho Hb Ha) as (c' & -> & (C1' & C2' & C3')).
    destruct (Hto ma mb Ha Hb) as [H|[H|H]].
    + apply C1 in H as G1. apply C3' in H as G2. lia.
    + apply C2 in H as G1. symmetry in H. apply C2' in H as G2. lia.
    + apply C3 in H as G1. apply C1' in H as G2. lia.
  - intros a b d (ma & Ha & ->) (mb & Hb & ->) (md & Hd & ->). unfold mcz.
    destruct (monomial_cmp_ev_ok o ma mb Ho Ha Hb) as (c & -> & (C1 & C2 & C3)).
    destruct (monomial_cmp_ev_ok o mb md Ho Hb Hd) as (c' & -> & (C1' & C2' & C3')).
    destruct (monomial_cmp_ev_ok o ma md Ho Ha Hd) as (c'' & -> & (C1'' & C2'' & C3'')).
    intros L1 L2. destruct (Z.le_gt_cases c'' 0) as [|G]; [assumption|exfalso].
    assert (G' : (0 < c'')%Z) by lia. apply C3'' in G'.
    assert (H1 : ma = mb \/ o_lt o ma mb). { destruct (Z.eq_dec c 0) as [E|E]; [left; apply C2; assumption|right; apply C1; lia]. }
    assert (H2 : mb = md \/ o_lt o mb md). { destruct (Z.eq_dec c' 0) as [E|E]; [left; apply C2'; assumption|right; apply C1'; lia]. }
    assert (H3 : ma = md \/ o_lt o ma md). { destruct H1 as [->|H1]; destruct H2 as [<-|H2]; auto. right. apply (Ht ma mb md); auto. }
    destruct H3 as [->|H3]; [eapply Hi; eauto|]. apply (Hi ma). apply (Ht ma md ma); auto.
Qed.

(** hash tables all of whose entries are valid layouts *)
Definition ht_valid (o : ordering) (t : htab) : Prop :=
  Forall (vlay o) (t_ev t) /\ length (t_idx t) = length (t_ev t).
Definition in_ht (t : htab) (i : nat) : Prop := (i < length (t_ev t))%nat.

Lemma in_ht_rd o t i : ht_valid o t -> in_ht t i -> exists e, rd (t_ev t) i = Some e /\ vlay o e.
Proof.
  intros [HF _] Hi. unfold rd, in_ht in *. destruct (nth_error (t_ev t) i) as [e|] eqn:E.
  - exists e. split; [reflexivity|]. rewrite Forall_forall in HF. apply HF. eapply nth_error_In; eassumption.
  - apply nth_error_None in E. lia.
Qed.

Definition evz (t : htab) (i : nat) : list N := match rd (t_ev t) i with Some e => e | None => [] end.

Lemma good_map {A B} (D : A -> Prop) (E : B -> Prop) (h : A -> B) f : (forall a, D a -> E (h a)) -> good E f ->
  good D (fun a b => f (h a) (h b)).
Proof. intros H [F1 F2]. split; [intros; apply F1; auto|]. intros a b d Ha Hb Hd. apply (F2 (h a) (h b) (h d)); auto. Qed.

Lemma monomial_cmp_sgn o t a b : o_ok o -> ht_valid o t -> in_ht t a -> in_ht t b ->
  exists c, monomial_cmp o t a b = Some c /\ Z.sgn c = Z.sgn (mcz o (evz t a) (evz t b)).
Proof.
  intros Ho Ht Ha Hb. unfold monomial_cmp, evz.
  destruct (in_ht_rd o t a Ht Ha) as (ea & Ea & (ma & Hla & ->)). destruct (in_ht_rd o t b Ht Hb) as (eb & Eb & (mb & Hlb & ->)).
  rewrite Ea, Eb. cbn [obind]. unfold mcz.
  destruct (monomial_cmp_ev_ok o ma mb Ho Hla Hlb) as (c & Hc & (C1 & C2 & C3)). rewrite Hc.
  destruct (Nat.eqb_spec a b) as [->|Hne]; cbn [andb]; [|eauto].
  assert (E : ma = mb). { rewrite Ea in Eb. injection Eb as Eb. eapply lay_inj; [|exact Hla|exact Hlb|exact Eb]. exact Ho. }
  apply C2 in E. subst c. destruct (negb _); eauto.
Qed.

Lemma evz_good {A} o t (h : A -> nat) (D : A -> Prop) : o_ok o -> ht_valid o t -> (forall a, D a -> in_ht t (h a)) ->
  good D (fun a b => mcz o (evz t (h a)) (evz t (h b))).
Proof.
  intros Ho Ht HD. apply (good_map D (vlay o) (fun a => evz t (h a))); [|apply mcz_good; auto].
  intros a Ha. unfold evz. destruct (in_ht_rd o t (h a) Ht (HD a Ha)) as (e & -> & Hv). exact Hv.
Qed.

Theorem monomial_cmp_consistent o t : o_ok o -> ht_valid o t -> consistent (in_ht t) (monomial_cmp o t).
Proof.
  intros Ho Ht. eapply good_consistent; [apply (evz_good o t (fun a => a) (in_ht t)); auto|].
  intros a b Ha Hb. apply monomial_cmp_sgn; auto.
Qed.

Definition idxz (t : htab) (i : nat) : Z := match rd (t_idx t) i with Some e => Z.of_N e | None => 0%Z end.

Theorem hcm_cmp_consistent o t : o_ok o -> ht_valid o t -> consistent (in_ht t) (hcm_cmp o t).
Proof.
  intros Ho Ht.
  eapply good_consistent with (f := fun a b => lexz (- (idxz t a - idxz t b)) (- mcz o (evz t a) (evz t b))).
  { apply good_lex; apply good_opp; [apply good_key|]. apply (evz_good o t (fun a => a) (in_ht t)); auto. }
  intros a b Ha Hb. unfold hcm_cmp, idxz, evz.
  destruct (rd (t_idx t) a) as [ia|] eqn:Ia.
  2:{ apply nth_error_None in Ia. destruct Ht as [_ Hlen]. unfold in_ht in Ha. lia. }
  destruct (rd (t_idx t) b) as [ib|] eqn:Ib.
  2:{ apply nth_error_None in Ib. destruct Ht as [_ Hlen]. unfold in_ht in Hb. lia. }
  cbn [obind]. unfold lexz. destruct (N.eqb_spec ia ib) as [E|E]; cbn [negb].
  - destruct (Z.eqb_spec (- (Z.of_N ia - Z.of_N ib)) 0); [|lia].
    destruct (in_ht_rd o t a Ht Ha) as (ea & Ea & (ma & Hla & ->)). destruct (in_ht_rd o t b Ht Hb) as (eb & Eb & (mb & Hlb & ->)).
    rewrite Ea, Eb. cbn [obind]. destruct (variants_ok o ma mb Ho Hla Hlb) as (c & H1 & _ & H3 & _).
    unfold mcz. rewrite H1, H3. eauto.
  - destruct (Z.eqb_spec (- (Z.of_N ia - Z.of_N ib)) 0); [lia|].
    eexists. split; [reflexivity|]. destruct (N.ltb_spec ia ib); lia.
Qed.

Definition sp_ok (t : htab) (s : spair) : Prop := in_ht t (sp_lcm s).

Theorem spair_cmp_update_consistent o t : o_ok o -> ht_valid o t -> NoDup (t_ev t) ->
  consistent (sp_ok t) (spair_cmp_update o t).
Proof.
  intros Ho Ht Hnd.
  eapply good_consistent with (f := fun a b => lexz (mcz o (evz t (sp_lcm a)) (evz t (sp_lcm b)))
     (lexz (sp_deg a - sp_deg b) (Z.of_N (sp_gen1 a) - Z.of_N (sp_gen1 b)))).
  { apply good_lex; [apply (evz_good o t sp_lcm (sp_ok t)); auto|]. apply good_lex; apply good_key. }
  intros a b Ha Hb. unfold spair_cmp_update, sp_ok in *.
  destruct (in_ht_rd o t (sp_lcm a) Ht Ha) as (ea & Ea & (ma & Hla & ->)).
  destruct (in_ht_rd o t (sp_lcm b) Ht Hb) as (eb & Eb & (mb & Hlb & ->)).
  destruct (monomial_cmp_ev_ok o ma mb Ho Hla Hlb) as (c & Hc & (C1 & C2 & C3)).
  destruct (Nat.eqb_spec (sp_lcm a) (sp_lcm b)) as [E|E]; cbn [negb].
  - assert (Em : ma = mb). { rewrite E in Ea. rewrite Ea in Eb. injection Eb as Eb. eapply lay_inj; [|exact Hla|exact Hlb|exact Eb]. exact Ho. }
    apply C2 in Em. subst c. unfold evz. rewrite Ea, Eb. unfold mcz. rewrite Hc. unfold lexz at 1. cbn [Z.eqb].
    unfold lexz. destruct (Z.eqb_spec (sp_deg a) (sp_deg b)) as [E1|E1]; cbn [negb].
    + destruct (Z.eqb_spec (sp_deg a - sp_deg b) 0); [|lia].
      destruct (N.eqb_spec (sp_gen1 a) (sp_gen1 b)) as [E2|E2]; cbn [negb]; eexists; (split; [reflexivity|]); [lia|].
      destruct (N.ltb_spec (sp_gen1 a) (sp_gen1 b)); lia.
    + destruct (Z.eqb_spec (sp_deg a - sp_deg b) 0); [lia|]. eexists; (split; [reflexivity|]).
      destruct (Z.ltb_spec (sp_deg a) (sp_deg b)); lia.
  - destruct (monomial_cmp_sgn o t _ _ Ho Ht Ha Hb) as (x & Hx & Sx). exists x. split; [assumption|].
    rewrite Sx. unfold evz. rewrite Ea, Eb. unfold mcz. rewrite Hc. unfold lexz at 1.
    destruct (Z.eqb_spec c 0) as [E0|E0]; [exfalso|reflexivity].
    apply C2 in E0. subst mb. apply E.
    apply (proj1 (NoDup_nth_error (t_ev t)) Hnd); [exact Ha|]. unfold rd in Ea, Eb. congruence.
Qed.

Theorem spair_cmp_drl_consistent o t : o_ok o -> ht_valid o t -> consistent (sp_ok t) (spair_cmp_drl o t).
Proof.
  intros Ho Ht. eapply good_consistent; [apply (evz_good o t sp_lcm (sp_ok t)); auto|].
  intros a b Ha Hb. unfold spair_cmp_drl. destruct (monomial_cmp_sgn o t _ _ Ho Ht Ha Hb) as (x & -> & Sx). cbn [obind].
  eexists. split; [reflexivity|]. destruct (Z.eqb_spec x 0); destruct (Z.ltb_spec x 0); cbn [negb]; lia.
Qed.

Theorem spair_cmp_deglex_consistent o t : o_ok o -> ht_valid o t -> consistent (sp_ok t) (spair_cmp_deglex o t).
Proof.
  intros Ho Ht.
  eapply good_consistent with (f := fun a b => lexz (Z.of_N (ex (evz t (sp_lcm a)) 0) - Z.of_N (ex (evz t (sp_lcm b)) 0))
      (mcz o (evz t (sp_lcm a)) (evz t (sp_lcm b)))).
  { apply good_lex; [apply (good_key (sp_ok t) (fun a => Z.of_N (ex (evz t (sp_lcm a)) 0)))|apply (evz_good o t sp_lcm (sp_ok t)); auto]. }
  intros a b Ha Hb. unfold spair_cmp_deglex.
  destruct (in_ht_rd o t (sp_lcm a) Ht Ha) as (ea & Ea & (ma & Hla & Eqa)).
  destruct (in_ht_rd o t (sp_lcm b) Ht Hb) as (eb & Eb & (mb & Hlb & Eqb)).
  destruct (monomial_cmp_sgn o t _ _ Ho Ht Ha Hb) as (x & Hx & Sx). revert Sx. unfold evz. rewrite Ea, Eb. intros Sx. cbn [obind].
  assert (La : (0 < length ea)%nat) by (rewrite Eqa, (lay_length (o_nv o)) by auto; unfold ht_evl; destruct (_ =? _)%nat; lia).
  assert (Lb : (0 < length eb)%nat) by (rewrite Eqb, (lay_length (o_nv o)) by auto; unfold ht_evl; destruct (_ =? _)%nat; lia).
  rewrite !rd_ex by assumption. cbn [obind]. unfold lexz.
  destruct (N.eqb_spec (ex ea 0) (ex eb 0)) as [E|E]; cbn [negb].
  - destruct (Z.eqb_spec (Z.of_N (ex ea 0) - Z.of_N (ex eb 0)) 0); [|lia]. eauto.
  - destruct (Z.eqb_spec (Z.of_N (ex ea 0) - Z.of_N (ex eb 0)) 0); [lia|]. eexists. split; [reflexivity|].
    destruct (N.ltb_spec (ex ea 0) (ex eb 0)); lia.
Qed.

Definition sp_deg_ok (s : spair) : Prop := (0 <= sp_deg s < 2 ^ 31)%Z.

Lemma to_int32_small x : (- 2 ^ 31 <= x < 2 ^ 31)%Z -> to_int32 (x mod 2 ^ 32) = x.
Proof.
  intros H. unfold to_int32. rewrite Zplus_mod_idemp_l. rewrite Z.mod_small by lia. lia.
Qed.
Lemma mod32_zero x : (- 2 ^ 31 <= x < 2 ^ 31)%Z -> (x mod 2 ^ 32 = 0 <-> x = 0)%Z.
Proof.
  intros H. split; [|intros ->; reflexivity]. intros E. destruct (Z.lt_ge_cases x 0).
  - rewrite <- (Z.mod_add x 1) in E by lia. rewrite Z.mod_small in E by lia. lia.
  - rewrite Z.mod_small in E by lia. assumption.
Qed.

Theorem spair_cmp_be_consistent o t : o_ok o -> ht_valid o t ->
  consistent (fun s => sp_ok t s /\ sp_deg_ok s) (spair_cmp_be o t).
Proof.
  intros Ho Ht.
  eapply good_consistent with (f := fun a b => lexz (sp_deg a - sp_deg b) (mcz o (evz t (sp_lcm a)) (evz t (sp_lcm b)))).
  { apply good_lex; [apply good_key|]. apply (evz_good o t sp_lcm); auto. intros a [H _]; exact H. }
  intros a b [Ha Da] [Hb Db]. unfold spair_cmp_be, sp_deg_ok in *.
  pose proof (mod32_zero (sp_deg a - sp_deg b) ltac:(lia)) as Hz. unfold lexz.
  destruct (Z.eqb_spec ((sp_deg a - sp_deg b) mod 2 ^ 32) 0) as [E|E]; cbn [negb].
  - apply Hz in E. rewrite E. cbn [Z.eqb].
    destruct (monomial_cmp_sgn o t _ _ Ho Ht Ha Hb) as (x & -> & Sx). cbn [obind].
    eexists. split; [reflexivity|]. destruct (Z.eqb_spec x 0); destruct (Z.ltb_spec x 0); cbn [negb]; lia.
  - rewrite to_int32_small by lia. eexists. split; [reflexivity|].
    destruct (Z.eqb_spec (sp_deg a - sp_deg b) 0) as [E'|]; [exfalso; apply E, Hz; assumption|reflexivity].
Qed.

Definition row_ok (r : list N) : Prop := (6 < length r)%nat.


Theorem matrix_row_cmp_decreasing_consistent : consistent row_ok matrix_row_cmp_decreasing.
Proof.
  eapply good_consistent with (f := fun a b => lexz (Z.of_N (ex a 6) - Z.of_N (ex b 6)) (Z.of_N (ex a 5) - Z.of_N (ex b 5))).
  { apply good_lex; [apply (good_key row_ok (fun a => Z.of_N (ex a 6)))|apply (good_key row_ok (fun a => Z.of_N (ex a 5)))]. }
  intros a b Ha Hb. unfold row_ok, matrix_row_cmp_decreasing in *. rewrite !rd_ex by lia. cbn [obind]. unfold cmp2, lexz.
  destruct (N.ltb_spec (ex b 6) (ex a 6)); destruct (N.ltb_spec (ex a 6) (ex b 6)); destruct (N.ltb_spec (ex b 5) (ex a 5)); destruct (N.ltb_spec (ex a 5) (ex b 5));
  destruct (Z.eqb_spec (Z.of_N (ex a 6) - Z.of_N (ex b 6)) 0); try lia; eexists; (split; [reflexivity|]); lia.
Qed.
Theorem matrix_row_cmp_increasing_consistent : consistent row_ok matrix_row_cmp_increasing.
Proof.
  eapply good_consistent with (f := fun a b => lexz (-(Z.of_N (ex a 6) - Z.of_N (ex b 6))) (-(Z.of_N (ex a 5) - Z.of_N (ex b 5)))).
  { apply good_lex; apply good_opp; [apply (good_key row_ok (fun a => Z.of_N (ex a 6)))|apply (good_key row_ok (fun a => Z.of_N (ex a 5)))]. }
  intros a b Ha Hb. unfold row_ok, matrix_row_cmp_increasing in *. rewrite !rd_ex by lia. cbn [obind]. unfold cmp2, lexz.
  destruct (N.ltb_spec (ex b 6) (ex a 6)); destruct (N.ltb_spec (ex a 6) (ex b 6)); destruct (N.ltb_spec (ex b 5) (ex a 5)); destruct (N.ltb_spec (ex a 5) (ex b 5));
  destruct (Z.eqb_spec (-(Z.of_N (ex a 6) - Z.of_N (ex b 6))) 0); try lia; eexists; (split; [reflexivity|]); lia.
Qed.
Theorem matrix_row_mult_cmp_increasing_consistent : consistent row_ok matrix_row_mult_cmp_increasing.
Proof.
  eapply good_consistent with (f := fun a b => lexz (-(Z.of_N (ex a 6) - Z.of_N (ex b 6)))
     (lexz (-(Z.of_N (ex a 2) - Z.of_N (ex b 2))) (-(Z.of_N (ex a 5) - Z.of_N (ex b 5))))).
  { apply good_lex; [apply good_opp, (good_key row_ok (fun a => Z.of_N (ex a 6)))|].
    apply good_lex; apply good_opp; [apply (good_key row_ok (fun a => Z.of_N (ex a 2)))|apply (good_key row_ok (fun a => Z.of_N (ex a 5)))]. }
  intros a b Ha Hb. unfold row_ok, matrix_row_mult_cmp_increasing in *. rewrite !rd_ex by lia. cbn [obind]. unfold cmp2, lexz.
  destruct (N.ltb_spec (ex b 6) (ex a 6)); destruct (N.ltb_spec (ex a 6) (ex b 6));
  destruct (Z.eqb_spec (-(Z.of_N (ex a 6) - Z.of_N (ex b 6))) 0); try lia; try (eexists; (split; [reflexivity|]); lia).
  destruct (N.ltb_spec (ex b 2) (ex a 2)); destruct (N.ltb_spec (ex a 2) (ex b 2));
  destruct (Z.eqb_spec (-(Z.of_N (ex a 2) - Z.of_N (ex b 2))) 0); try lia; try (eexists; (split; [reflexivity|]); lia).
  destruct (N.ltb_spec (ex b 5) (ex a 5)); destruct (N.ltb_spec (ex a 5) (ex b 5)); try lia; eexists; (split; [reflexivity|]); lia.
Qed.
Theorem gens_cmp_consistent : consistent (fun x => x < 2 ^ 31) gens_cmp.
Proof.
  eapply good_consistent; [apply (good_key (fun x => x < 2 ^ 31) Z.of_N)|].
  intros a b Ha Hb. unfold gens_cmp. eexists. split; [reflexivity|]. rewrite to_int32_small; [reflexivity|].
  change (2 ^ 31)%Z with (Z.of_N (2 ^ 31)). lia.
Qed.
