(** Proofs about the staircase enumeration of f4sat.c (SatModel.quotient_basis). *)
From Coq Require Import ZArith NArith Arith List Bool Lia.
From Verif Require Import MonoSpec MonoSpecProofs HilbSpec HilbProofs GbSpec GbProofs LaModel F4Model LaSysProofs TraceLaProofs SatModel.
Import ListNotations.
Open Scope nat_scope.

Definition bsum (B : nat -> list mono) (l : list nat) : list mono := concat (map B l).

Lemma bsum_app B l r : bsum B (l ++ r) = bsum B l ++ bsum B r.
Proof. unfold bsum. rewrite map_app, concat_app. reflexivity. Qed.
Lemma in_bsum B l m : In m (bsum B l) <-> exists i, In i l /\ In m (B i).
Proof.
  unfold bsum. rewrite in_concat. split.
  - intros (x & Hx & Hm). apply in_map_iff in Hx. destruct Hx as (i & <- & Hi). eauto.
  - intros (i & Hi & Hm). exists (B i). split; [apply in_map; assumption|assumption].
Qed.
Lemma nodup_app_intro {A} (l r : list A) : NoDup l -> NoDup r -> (forall x, In x l -> In x r -> False) -> NoDup (l ++ r).
Proof.
  induction l as [|a l IH]; intros Hl Hr Hd; [exact Hr|]. inversion Hl; subst. cbn. constructor.
  - rewrite in_app_iff. intros [H|H]; [contradiction|]. apply (Hd a); [left; reflexivity|assumption].
  - apply IH; auto. intros x Hx. apply Hd. right. assumption.
Qed.
Lemma nodup_bsum B l : NoDup l -> (forall i, In i l -> NoDup (B i)) -> (forall i j m, In i l -> In j l -> In m (B i) -> In m (B j) -> i = j) -> NoDup (bsum B l).
Proof.
  induction l as [|a l IH]; intros Hl Hb Hd; [constructor|]. inversion Hl; subst. unfold bsum. cbn. apply nodup_app_intro.
  - apply Hb. left. reflexivity.
  - apply IH; auto. + intros i Hi. apply Hb. right. assumption. + intros i j m Hi Hj. apply Hd; right; assumption.
  - intros x Hx Hy. apply in_bsum in Hy. destruct Hy as (j & Hj & Hy). assert (a = j) by (apply (Hd a j x); [left; reflexivity|right; assumption|assumption|assumption]). subst. contradiction.
Qed.

Lemma incr_bump m : forall v, SatModel.incr v m = bump v m.
Proof.
  unfold SatModel.incr. induction m as [|x m IH]; intros [|v]; cbn; try reflexivity. f_equal. apply IH.
Qed.

Section Inner.
Variable nv : nat.

Lemma nth_lset_nat (l : list nat) : forall i x j, nth j (lset l i x) 0 = if (j =? i) && (i <? length l) then x else nth j l 0.
Proof. induction l as [|a l IH]; intros [|i] x [|j]; cbn; auto; try (rewrite andb_false_r; reflexivity). rewrite IH. cbn. destruct (j =? i); cbn; auto. Qed.

Lemma fill_spec dim n : forall ind, length ind = nv -> n < nv ->
  let r := fold_left (fun a k => lset a (nv - k) dim) (seq 1 n) ind in
  length r = nv /\ forall j, nth j r 0 = if (nv - n <=? j) && (j <? nv) then dim else nth j ind 0.
Proof.
  induction n as [|n IH]; intros ind HL Hn r.
  - subst r. cbn [seq fold_left]. split; [assumption|]. intros j. destruct (Nat.leb_spec (nv - 0) j), (Nat.ltb_spec j nv); cbn [andb]; auto; lia.
  - subst r. rewrite seq_S, fold_left_app. cbn [fold_left]. destruct (IH ind HL ltac:(lia)) as (L1 & L2). cbv zeta in L1, L2.
    split; [rewrite lset_length; exact L1|]. intros j. rewrite nth_lset_nat, L1, L2. replace (1 + n) with (S n) by lia.
    destruct (Nat.eqb_spec j (nv - S n)) as [->|Hj].
    + replace (nv - S n <? nv) with true by (symmetry; apply Nat.ltb_lt; lia). rewrite Nat.leb_refl. reflexivity.
    + cbn [andb]. destruct (Nat.leb_spec (nv - n) j), (Nat.leb_spec (nv - S n) j), (Nat.ltb_spec j nv); cbn; auto; lia.
Qed.

Lemma idx_inner_spec i dim R : 1 <= i < nv -> (forall m, In m R -> nth i m 0%N = 0%N) ->
  forall B j ind, length ind = nv -> (forall m, In m B -> nth i m 0%N <> 0%N) ->
  let r := idx_inner nv i dim (B ++ R) j ind in
  length r = nv /\ (forall k, k < nv - i -> nth k r 0 = nth k ind 0) /\
  (R <> [] -> nth (nv - i) r 0 = j + length B) /\
  (R = [] -> B = [] -> r = ind) /\
  (R = [] -> B <> [] -> forall k, nv - i <= k < nv -> nth k r 0 = dim).
Proof.
  intros Hi HR. induction B as [|m B IH]; intros j ind HL HB r.
  - subst r. cbn [app]. destruct R as [|m R].
    + cbn. split; [assumption|]. split; [reflexivity|]. split; [intros K; contradiction|]. split; [reflexivity|intros _ K; contradiction].
    + cbn [idx_inner]. rewrite (HR m (or_introl eq_refl)), N.eqb_refl. split; [rewrite lset_length; assumption|]. split; [|split; [|split; discriminate]].
      * intros k Hk. rewrite nth_lset_nat. replace (k =? nv - i) with false by (symmetry; apply Nat.eqb_neq; lia). reflexivity.
      * intros _. rewrite nth_lset_nat, Nat.eqb_refl, HL. replace (nv - i <? nv) with true by (symmetry; apply Nat.ltb_lt; lia). cbn. lia.
  - subst r. cbn [app idx_inner]. replace (nth i m 0 =? 0)%N with false by (symmetry; apply N.eqb_neq; apply HB; left; reflexivity).
    destruct (fill_spec dim i ind HL ltac:(lia)) as (L1 & L2). cbv zeta in L1, L2.
    destruct (IH (S j) _ L1 (fun m Hm => HB m (or_intror Hm))) as (P1 & P2 & P3 & P4 & P5). split; [exact P1|]. split; [|split; [|split]].
    + intros k Hk. rewrite P2 by assumption. rewrite L2. replace (nv - i <=? k) with false by (symmetry; apply Nat.leb_gt; lia). reflexivity.
    + intros K. rewrite P3 by assumption. cbn [length]. lia.
    + intros _ K. discriminate.
    + intros K _ k Hk. destruct B as [|m' B].
      * rewrite (P4 K eq_refl), L2. replace (nv - i <=? k) with true by (symmetry; apply Nat.leb_le; lia). replace (k <? nv) with true by (symmetry; apply Nat.ltb_lt; lia). reflexivity.
      * apply P5; [assumption|discriminate|assumption].
Qed.

(** the blocks: block i has variable nv-1-i and no later one *)
Variables (low : list mono) (B : nat -> list mono).
Definition zone (k : nat) (m : mono) := forall j, nv - k <= j -> nth j m 0%N = 0%N.
Hypothesis HB : forall i m, i < nv -> In m (B i) -> zone i m /\ nth (nv - 1 - i) m 0%N <> 0%N.
Hypothesis HD : bsum B (seq 0 nv) <> [].
Let qb := low ++ bsum B (seq 0 nv).
Definition start (k : nat) : nat := length low + length (bsum B (seq 0 k)).

Lemma start_skip k : k <= nv -> skipn (start k) qb = bsum B (seq k (nv - k)).
Proof.
  intros Hk. unfold start, qb. replace nv with (k + (nv - k)) at 1 by lia. rewrite seq_app, bsum_app, app_assoc, Nat.add_0_l.
  rewrite skipn_app. rewrite <- app_length. rewrite skipn_all, Nat.sub_diag. reflexivity.
Qed.
Lemma start_S k : start (S k) = start k + length (B k).
Proof. unfold start. rewrite seq_S, bsum_app, app_length. unfold bsum at 2. cbn. rewrite app_nil_r. lia. Qed.

Definition idx_good (k : nat) (ind : list nat) : Prop :=
  length ind = nv /\ (forall j, j <= k -> j < nv -> nth j ind 0 = start j) /\
  (bsum B (seq k (nv - k)) = [] -> forall j, k <= j < nv -> nth j ind 0 = length qb).

Lemma idx_step_good i ind : 1 <= i < nv -> idx_good (nv - 1 - i) ind -> idx_good (nv - i) (idx_step nv qb ind i).
Proof.
  intros Hi (G1 & G2 & G3). set (k := nv - 1 - i) in *. assert (Ek : nv - i = S k) by lia.
  unfold idx_step. fold k. rewrite (G2 k) by lia. rewrite start_skip by lia.
  assert (ES : seq k (nv - k) = k :: seq (S k) (nv - S k)) by (replace (nv - k) with (S (nv - S k)) by lia; reflexivity).
  assert (EB : bsum B (seq k (nv - k)) = B k ++ bsum B (seq (S k) (nv - S k))) by (rewrite ES; reflexivity).
  rewrite EB in G3. rewrite EB.
  destruct (idx_inner_spec i (length qb) (bsum B (seq (S k) (nv - S k)))) with (B := B k) (j := start k) (ind := ind) as (P1 & P2 & P3 & P4 & P5); auto.
  - intros m Hm. apply in_bsum in Hm. destruct Hm as (i' & Hi' & Hm). apply in_seq in Hi'. destruct (HB i' m ltac:(lia) Hm) as (Z1 & _). apply Z1. lia.
  - intros m Hm. destruct (HB k m ltac:(lia) Hm) as (_ & Z2). replace i with (nv - 1 - k) by lia. exact Z2.
  - cbv zeta in P1, P2, P3, P4, P5. split; [exact P1|].
    assert (Dim : bsum B (seq (S k) (nv - S k)) = [] -> start (S k) = length qb).
    { intros K. pose proof (f_equal (@length _) (start_skip (S k) ltac:(lia))) as E. rewrite K, skipn_length in E. cbn in E.
      assert (start (S k) <= length qb); [|lia]. unfold start, qb. rewrite app_length. replace (seq 0 nv) with (seq 0 (S k) ++ seq (S k) (nv - S k)) by (rewrite <- (Nat.add_0_l (S k)) at 2; rewrite <- seq_app; f_equal; lia). rewrite bsum_app, app_length. lia. }
    split.
    + intros j Hj Hj'. rewrite Ek in *. destruct (Nat.eq_dec j (S k)) as [->|Hne].
      * destruct (bsum B (seq (S k) (nv - S k))) as [|m0 R0] eqn:ER.
        -- rewrite Dim by reflexivity. destruct (B k) as [|m1 B1] eqn:EBk.
           ++ transitivity (nth (S k) ind 0); [apply (f_equal (fun l => nth (S k) l 0)); exact (P4 eq_refl eq_refl)|]. apply G3; [reflexivity|lia].
           ++ apply P5; [reflexivity|discriminate|lia].
        -- rewrite start_S. apply P3. discriminate.
      * transitivity (nth j ind 0); [apply P2; lia|]. apply G2; lia.
    + intros K j Hj. rewrite Ek in *. rewrite K in *. destruct (B k) as [|m1 B1] eqn:EBk.
      * transitivity (nth j ind 0); [apply (f_equal (fun l => nth j l 0)); exact (P4 eq_refl eq_refl)|]. apply G3; [reflexivity|lia].
      * apply P5; [reflexivity|discriminate|lia].
Qed.
Lemma idx_fold n : forall ind, n < nv -> idx_good (nv - 1 - n) ind -> idx_good (nv - 1) (fold_left (idx_step nv qb) (rev (seq 1 n)) ind).
Proof.
  induction n as [|n IH]; intros ind Hn G; [rewrite Nat.sub_0_r in G; exact G|].
  rewrite seq_S, rev_app_distr. cbn [rev app fold_left]. apply IH; [lia|]. replace (nv - 1 - n) with (nv - (1 + n)) by lia. apply idx_step_good; [lia|]. exact G.
Qed.
Lemma update_indices_good ind : length ind = nv -> 1 <= nv ->
  length (update_indices nv (length low) qb ind) = nv /\ forall k, k < nv -> nth k (update_indices nv (length low) qb ind) 0 = start k.
Proof.
  intros HL Hn. unfold update_indices. destruct (idx_fold (nv - 1) (lset ind 0 (length low))) as (Q1 & Q2 & _); [lia| |split; [exact Q1|intros k Hk; apply Q2; lia]].
  replace (nv - 1 - (nv - 1)) with 0 by lia. split; [rewrite lset_length; exact HL|]. split.
  - intros j Hj Hj'. replace j with 0 by lia. rewrite nth_lset_nat, HL. replace (0 <? nv) with true by (symmetry; apply Nat.ltb_lt; lia). cbn. unfold start, bsum. cbn. lia.
  - rewrite Nat.sub_0_r. intros K. contradiction.
Qed.
End Inner.

Section Quot.
Variables (nv : nat) (lms : list mono).
Hypothesis Hnv : 1 <= nv.
Hypothesis Hlms : forall l, In l lms -> length l = nv.

Lemma covered_iff m : length m = nv -> covered lms m = false <-> standard nv lms m.
Proof.
  intros Hm. unfold covered, standard. split.
  - intros H. split; [assumption|]. intros l Hl Hd. apply (mdvdb_iff l m) in Hd; [|rewrite Hm; apply Hlms; assumption].
    assert (existsb (fun l => mdvdb l m) lms = true) by (apply existsb_exists; eauto). congruence.
  - intros (_ & H). destruct (existsb _ lms) eqn:E; [|reflexivity]. apply existsb_exists in E. destruct E as (l & Hl & Hd).
    exfalso. apply (H l Hl). apply mdvdb_iff in Hd; [assumption|]. rewrite Hm. apply Hlms. assumption.
Qed.

Definition kept (l : list mono) := filter (fun m => negb (covered lms m)) l.
Lemma gen_write_ok cap cand : forall acc, (length (acc ++ kept cand) < cap \/ length acc + length cand <= cap) -> gen_write lms cap cand acc = Some (acc ++ kept cand).
Proof.
  induction cand as [|m r IH]; intros acc H; [cbn; rewrite app_nil_r; reflexivity|]. cbn [gen_write].
  assert (L : length acc < cap). { destruct H as [H|H]; [rewrite app_length in H; lia|cbn in H; lia]. }
  apply Nat.ltb_lt in L. rewrite L. unfold kept in *. cbn [filter] in *. destruct (covered lms m); cbn [negb] in *.
  - apply IH. destruct H as [H|H]; [left; assumption|right; cbn in H; lia].
  - rewrite IH; [rewrite <- app_assoc; reflexivity|]. destruct H as [H|H]; [left; rewrite <- app_assoc; exact H|right; rewrite app_length; cbn in H |- *; lia].
Qed.

Lemma standard_len m : standard nv lms m -> length m = nv.
Proof. intros (H & _). assumption. Qed.
Lemma std_down a b : length a = nv -> mdvd a b -> standard nv lms b -> standard nv lms a.
Proof. intros Ha Hd [_ H]. split; auto. intros l Hl Hla. apply (H l Hl). intros i. transitivity (ex a i); [apply Hla|apply Hd]. Qed.

Lemma max_var m : length m = nv -> mdeg m <> 0%N -> exists v, v < nv /\ ex m v <> 0%N /\ forall j, v < j -> ex m j = 0%N.
Proof.
  intros Hm Hd. assert (G : forall n, n <= nv -> (exists v, v < n /\ ex m v <> 0%N /\ forall j, v < j < n -> ex m j = 0%N) \/ forall j, j < n -> ex m j = 0%N).
  { induction n as [|n IH]; intros Hn; [right; intros; lia|]. destruct (N.eq_dec (ex m n) 0) as [E|E].
    - destruct (IH ltac:(lia)) as [(v & V1 & V2 & V3)|A].
      + left. exists v. split; [lia|]. split; [assumption|]. intros j Hj. destruct (Nat.eq_dec j n); [subst; assumption|apply V3; lia].
      + right. intros j Hj. destruct (Nat.eq_dec j n); [subst; assumption|apply A; lia].
    - left. exists n. split; [lia|]. split; [assumption|]. intros. lia. }
  assert (OUT : forall j, nv <= j -> ex m j = 0%N) by (intros j Hj; unfold ex; apply nth_overflow; lia).
  destruct (G nv ltac:(lia)) as [(v & V1 & V2 & V3)|A].
  - exists v. split; [assumption|]. split; [assumption|]. intros j Hj. destruct (Nat.lt_ge_cases j nv); [apply V3; lia|apply OUT; assumption].
  - exfalso. apply Hd. assert (E : m = mone nv). { apply mono_ext; [unfold mone; rewrite repeat_length; assumption|]. intros i. destruct (Nat.lt_ge_cases i nv).
      - rewrite A by assumption. unfold ex, mone. rewrite nth_repeat. reflexivity.
      - rewrite OUT by assumption. unfold ex, mone. rewrite nth_repeat. reflexivity. }
    rewrite E. apply mdeg_mone.
Qed.
Lemma min_var m : length m = nv -> mdeg m <> 0%N -> exists v, v < nv /\ ex m v <> 0%N /\ forall j, j < v -> ex m j = 0%N.
Proof.
  intros Hm Hd. destruct (max_var m Hm Hd) as (v0 & V1 & V2 & _).
  assert (G : forall n, n <= v0 -> (exists v, v < n /\ ex m v <> 0%N /\ forall j, j < v -> ex m j = 0%N) \/ forall j, j < n -> ex m j = 0%N).
  { induction n as [|n IH]; intros Hn; [right; intros; lia|]. destruct (IH ltac:(lia)) as [(v & A1 & A2 & A3)|A].
    - left. exists v. split; [lia|auto].
    - destruct (N.eq_dec (ex m n) 0) as [E|E].
      + right. intros j Hj. destruct (Nat.eq_dec j n); [subst; assumption|apply A; lia].
      + left. exists n. auto. }
  destruct (G v0 ltac:(lia)) as [(v & A1 & A2 & A3)|A]; [exists v; split; [lia|auto]|]. exists v0. auto.
Qed.

(** ** One degree *)
Record qinv (d : nat) (qb : list mono) (ind : list nat) : Prop := {
  q_nd : NoDup qb;
  q_in : forall m, In m qb <-> standard nv lms m /\ (mdeg m <= N.of_nat d)%N;
  q_len : length ind = nv;
  q_skip : forall k m, k < nv -> In m (skipn (nth k ind 0) qb) <-> standard nv lms m /\ mdeg m = N.of_nat d /\ zone nv k m
}.

Definition blk (qb : list mono) (ind : list nat) (k : nat) : list mono := kept (map (SatModel.incr (nv - 1 - k)) (skipn (nth k ind 0) qb)).

Lemma kept_cand qb ind : kept (gen_cand nv qb ind) = bsum (blk qb ind) (seq 0 nv).
Proof.
  assert (K : forall ll, kept (concat ll) = concat (map kept ll)).
  { induction ll as [|l ll IH]; [reflexivity|]. cbn [concat map]. rewrite <- IH. unfold kept. apply filter_app. }
  unfold gen_cand, bsum. rewrite K, map_map. reflexivity.
Qed.

Lemma blk_in d qb ind k m : qinv d qb ind -> k < nv ->
  In m (blk qb ind k) <-> standard nv lms m /\ mdeg m = N.of_nat (S d) /\ zone nv k m /\ nth (nv - 1 - k) m 0%N <> 0%N.
Proof.
  intros Q Hk. unfold blk, kept. rewrite filter_In, in_map_iff. split.
  - intros ((m' & <- & Hm') & Hc). apply (q_skip _ _ _ Q) in Hm'; [|assumption]. destruct Hm' as (S1 & S2 & S3). pose proof (standard_len _ S1) as L.
    rewrite incr_bump in *. apply negb_true_iff in Hc. rewrite covered_iff in Hc by (rewrite bump_length; assumption).
    split; [assumption|]. rewrite mdeg_bump by lia. split; [lia|]. split.
    + intros j Hj. fold (ex (bump (nv - 1 - k) m') j). rewrite ex_bump by lia. replace (j =? nv - 1 - k) with false by (symmetry; apply Nat.eqb_neq; lia). apply S3. assumption.
    + fold (ex (bump (nv - 1 - k) m') (nv - 1 - k)). rewrite ex_bump by lia. rewrite Nat.eqb_refl. lia.
  - intros (S1 & S2 & S3 & S4). pose proof (standard_len _ S1) as L. split; [|apply negb_true_iff; apply covered_iff; assumption].
    exists (drop (nv - 1 - k) m). rewrite incr_bump. split; [apply bump_drop; [lia|exact S4]|]. apply (q_skip _ _ _ Q); [assumption|].
    split; [apply (std_down _ m); [rewrite drop_length; assumption|apply drop_dvd|assumption]|]. split; [apply mdeg_drop; [lia|exact S4|lia]|].
    intros j Hj. fold (ex (drop (nv - 1 - k) m) j). rewrite ex_drop by lia. replace (j =? nv - 1 - k) with false by (symmetry; apply Nat.eqb_neq; lia). apply S3. assumption.
Qed.
Lemma skipn_in {A} (l : list A) k x : In x (skipn k l) -> In x l.
Proof. intros H. rewrite <- (firstn_skipn k l). apply in_or_app. right. assumption. Qed.
Lemma nodup_skipn {A} (l : list A) : forall k, NoDup l -> NoDup (skipn k l).
Proof. induction l as [|a l IH]; intros [|k] H; cbn; auto. inversion H; subst. auto. Qed.
Lemma blk_nodup d qb ind k : qinv d qb ind -> k < nv -> NoDup (blk qb ind k).
Proof.
  intros Q Hk. unfold blk, kept. apply NoDup_filter.
  assert (HL : forall m, In m (skipn (nth k ind 0) qb) -> nv - 1 - k < length m) by (intros m Hm; apply (q_skip _ _ _ Q) in Hm; [|assumption]; destruct Hm as (S1 & _); rewrite (standard_len _ S1); lia).
  pose proof (nodup_skipn qb (nth k ind 0) (q_nd _ _ _ Q)) as ND. induction (skipn (nth k ind 0) qb) as [|m l IH]; [constructor|]. inversion ND; subst. cbn. constructor.
  - intros K. apply in_map_iff in K. destruct K as (m' & E & Hm'). rewrite !incr_bump in E. apply (f_equal (drop (nv - 1 - k))) in E.
    rewrite !drop_bump in E by (apply HL; (left; reflexivity) || (right; assumption)). subst. contradiction.
  - apply IH; [|assumption]. intros m' Hm'. apply HL. right. assumption.
Qed.
Lemma new_in d qb ind m : qinv d qb ind -> In m (bsum (blk qb ind) (seq 0 nv)) <-> standard nv lms m /\ mdeg m = N.of_nat (S d).
Proof.
  intros Q. rewrite in_bsum. split.
  - intros (k & Hk & Hm). apply in_seq in Hk. apply (blk_in d) in Hm; [|assumption|lia]. destruct Hm as (? & ? & _). auto.
  - intros (S1 & S2). destruct (max_var m (standard_len _ S1) ltac:(lia)) as (v & V1 & V2 & V3). exists (nv - 1 - v). split; [apply in_seq; lia|].
    apply (blk_in d); [assumption|lia|]. split; [assumption|]. split; [assumption|]. split.
    + intros j Hj. apply V3. lia.
    + replace (nv - 1 - (nv - 1 - v)) with v by lia. exact V2.
Qed.
Lemma new_nodup d qb ind : qinv d qb ind -> NoDup (bsum (blk qb ind) (seq 0 nv)).
Proof.
  intros Q. apply nodup_bsum; [apply seq_NoDup| |].
  - intros i Hi. apply in_seq in Hi. apply (blk_nodup d); [assumption|lia].
  - intros i j m Hi Hj Mi Mj. apply in_seq in Hi. apply in_seq in Hj. apply (blk_in d) in Mi; [|assumption|lia]. apply (blk_in d) in Mj; [|assumption|lia].
    destruct Mi as (_ & _ & I1 & I2), Mj as (_ & _ & J1 & J2). destruct (Nat.lt_trichotomy i j) as [H|[H|H]]; [|assumption|].
    + exfalso. apply I2. apply J1. lia.
    + exfalso. apply J2. apply I1. lia.
Qed.

(** ** The allocation *)
Definition ppow (d v : nat) : mono := lset (mone nv) v (N.of_nat d).
Lemma ppow_len d v : length (ppow d v) = nv.
Proof. unfold ppow. rewrite lset_length. unfold mone. apply repeat_length. Qed.
Lemma ex_ppow d v i : v < nv -> ex (ppow d v) i = if (i =? v)%nat then N.of_nat d else 0%N.
Proof.
  intros Hv. unfold ex, ppow. rewrite nth_lset_n. unfold mone. rewrite repeat_length, nth_repeat. apply Nat.ltb_lt in Hv. rewrite Hv, andb_true_r. reflexivity.
Qed.
Lemma single_var m v d : length m = nv -> v < nv -> mdeg m = N.of_nat d -> (forall j, j <> v -> ex m j = 0%N) -> m = ppow d v.
Proof.
  intros L Hv Hd H. apply mono_ext; [rewrite ppow_len; assumption|]. intros i. rewrite ex_ppow by assumption.
  assert (E : mdeg m = ex m v).
  { clear L Hv Hd. revert v H. induction m as [|x m IH]; intros [|v] H; cbn [ex] in *.
    - reflexivity. - unfold mdeg, ex. cbn. destruct v; reflexivity.
    - rewrite mdeg_cons. assert (mdeg m = 0%N); [|unfold ex; cbn; lia]. clear IH. assert (K : forall i, ex m i = 0%N) by (intros i0; apply (H (S i0)); discriminate). clear H.
      induction m as [|y m IH]; [reflexivity|]. rewrite mdeg_cons. rewrite (IH (fun i => K (S i))). pose proof (K 0). unfold ex in H. cbn in H. lia.
    - rewrite mdeg_cons. pose proof (H 0 ltac:(discriminate)) as H0. unfold ex in H0. cbn in H0. rewrite H0. rewrite (IH v); [reflexivity|]. intros j Hj. apply (H (S j)). congruence. }
  destruct (Nat.eqb_spec i v) as [->|Hi]; [lia|apply H; assumption].
Qed.
Definition cover (d : nat) (qb : list mono) (ind : list nat) : list mono :=
  bsum (fun k => map (SatModel.incr (nv - 1 - k)) (firstn (nth k ind 0) qb)) (seq 0 nv) ++ map (ppow (S d)) (seq 0 nv).
Lemma isum_firstn ind : length ind = nv -> forall qb : list mono, length (bsum (fun k => map (SatModel.incr (nv - 1 - k)) (firstn (nth k ind 0) qb)) (seq 0 nv)) <= isum ind.
Proof.
  intros HL qb. assert (G : forall (f : nat -> mono -> mono) ind a, length (bsum (fun k => map (f k) (firstn (nth (k - a) ind 0) qb)) (seq a (length ind))) <= isum ind).
  { intros f. induction ind0 as [|x ind0 IH]; intros a; [cbn; lia|]. cbn [length seq]. unfold bsum. cbn [map concat]. rewrite app_length, map_length, Nat.sub_diag. cbn [nth]. change (isum (x :: ind0)) with (x + isum ind0).
    specialize (IH (S a)). unfold bsum in IH. rewrite firstn_length.
    apply Nat.add_le_mono; [apply Nat.le_min_l|]. eapply Nat.le_trans; [|exact IH]. apply Nat.eq_le_incl. f_equal. f_equal.
    apply map_ext_in. intros k Hk. apply in_seq in Hk. replace (k - a) with (S (k - S a)) by lia. reflexivity. }
  specialize (G (fun k => SatModel.incr (nv - 1 - k)) ind 0). rewrite HL in G. cbv beta in G.
  replace (bsum (fun k => map (SatModel.incr (nv - 1 - k)) (firstn (nth k ind 0) qb)) (seq 0 nv)) with (bsum (fun k => map (SatModel.incr (nv - 1 - k)) (firstn (nth (k - 0) ind 0) qb)) (seq 0 nv)); [exact G|].
  unfold bsum. f_equal. apply map_ext. intros k. rewrite Nat.sub_0_r. reflexivity.
Qed.
Lemma firstn_or_skipn (l : list mono) k x : In x l -> In x (firstn k l) \/ In x (skipn k l).
Proof. intros H. rewrite <- (firstn_skipn k l) in H. apply in_app_or. assumption. Qed.
Lemma cover_ok d qb ind m : qinv d qb ind -> standard nv lms m -> mdeg m = N.of_nat (S d) -> In m (cover d qb ind).
Proof.
  intros Q S1 S2. pose proof (standard_len _ S1) as L. unfold cover. apply in_or_app. destruct (min_var m L ltac:(lia)) as (a & A1 & A2 & A3).
  set (m' := drop a m). assert (L' : length m' = nv) by (unfold m'; rewrite drop_length; assumption).
  assert (S' : standard nv lms m') by (apply (std_down _ m); [assumption|apply drop_dvd|assumption]).
  assert (D' : mdeg m' = N.of_nat d) by (apply mdeg_drop; [lia|assumption|lia]).
  assert (I' : In m' qb) by (apply (q_in _ _ _ Q); split; [assumption|lia]).
  destruct (firstn_or_skipn qb (nth (nv - 1 - a) ind 0) m' I') as [H|H].
  - left. apply in_bsum. exists (nv - 1 - a). split; [apply in_seq; lia|]. apply in_map_iff. exists m'. split; [|assumption].
    replace (nv - 1 - (nv - 1 - a)) with a by lia. rewrite incr_bump. apply bump_drop; [lia|assumption].
  - right. apply (q_skip _ _ _ Q) in H; [|lia]. destruct H as (_ & _ & Z3). apply in_map_iff. exists a. split; [|apply in_seq; lia].
    symmetry. apply single_var; auto. intros j Hj. destruct (Nat.lt_ge_cases j a) as [Hlt|Hge]; [apply A3; assumption|].
    specialize (Z3 j ltac:(lia)). fold (ex m' j) in Z3. unfold m' in Z3. rewrite ex_drop in Z3 by lia. replace (j =? a) with false in Z3 by (symmetry; apply Nat.eqb_neq; lia). exact Z3.
Qed.
Lemma new_room d qb ind : qinv (S d) qb ind -> length (bsum (blk qb ind) (seq 0 nv)) < isum ind + nv.
Proof.
  intros Q. pose proof (new_nodup _ _ _ Q) as ND. set (N := bsum (blk qb ind) (seq 0 nv)) in *.
  destruct N as [|m0 N0] eqn:EN; [cbn; lia|]. rewrite <- EN in *. 
  assert (S0 : standard nv lms (mone nv)).
  { assert (In m0 N) by (rewrite EN; left; reflexivity). apply (new_in (S d)) in H; [|assumption]. destruct H as (S1 & _). apply (std_down _ m0); [unfold mone; apply repeat_length| |assumption].
    intros i. unfold ex, mone. rewrite nth_repeat. lia. }
  set (x := SatModel.incr (nv - 1 - 0) (mone nv)).
  assert (Lx : nv - 1 - 0 < length (mone nv)) by (unfold mone; rewrite repeat_length; lia).
  assert (Dx : mdeg x = 1%N) by (unfold x; rewrite incr_bump, mdeg_bump, mdeg_mone by assumption; reflexivity).
  assert (I : incl (x :: N) (cover (S d) qb ind)).
  { intros m [<-|Hm].
    - unfold cover. apply in_or_app. left. apply in_bsum. exists 0. split; [apply in_seq; lia|]. apply in_map. 
      assert (I0 : In (mone nv) qb) by (apply (q_in _ _ _ Q); split; [assumption|rewrite mdeg_mone; lia]).
      destruct (firstn_or_skipn qb (nth 0 ind 0) _ I0) as [H|H]; [assumption|]. apply (q_skip _ _ _ Q) in H; [|lia]. destruct H as (_ & H & _). rewrite mdeg_mone in H. lia.
    - apply (new_in (S d)) in Hm; [|assumption]. destruct Hm. apply cover_ok; assumption. }
  apply NoDup_incl_length in I.
  - unfold cover in I. rewrite app_length, map_length, seq_length in I. pose proof (isum_firstn ind (q_len _ _ _ Q) qb). cbn [length] in I. lia.
  - constructor; [|assumption]. intros K. apply (new_in (S d)) in K; [|assumption]. destruct K as (_ & K). rewrite Dx in K. lia.
Qed.

Lemma next_inv d qb ind : qinv d qb ind -> bsum (blk qb ind) (seq 0 nv) <> [] ->
  qinv (S d) (qb ++ bsum (blk qb ind) (seq 0 nv)) (update_indices nv (length qb) (qb ++ bsum (blk qb ind) (seq 0 nv)) ind).
Proof.
  intros Q Hne. assert (HB : forall i m, i < nv -> In m (blk qb ind i) -> zone nv i m /\ nth (nv - 1 - i) m 0%N <> 0%N).
  { intros i m Hi Hm. apply (blk_in d) in Hm; [|assumption|assumption]. destruct Hm as (_ & _ & ? & ?). auto. }
  destruct (update_indices_good nv qb (blk qb ind) HB Hne ind (q_len _ _ _ Q) Hnv) as (U1 & U2). constructor.
  - apply nodup_app_intro; [apply (q_nd _ _ _ Q)|apply (new_nodup d); assumption|]. intros m H1 H2. apply (q_in _ _ _ Q) in H1. apply (new_in d) in H2; [|assumption]. lia.
  - intros m. rewrite in_app_iff, (new_in d) by assumption. rewrite (q_in _ _ _ Q). split.
    + intros [(H & K)|(H & K)]; split; auto; lia.
    + intros (H & K). destruct (N.eq_dec (mdeg m) (N.of_nat (S d))) as [E|E]; [right; auto|left; split; [assumption|lia]].
  - exact U1.
  - intros k m Hk. rewrite U2 by assumption. rewrite (start_skip nv qb (blk qb ind)) by lia. rewrite in_bsum. split.
    + intros (i & Hi & Hm). apply in_seq in Hi. apply (blk_in d) in Hm; [|assumption|lia]. destruct Hm as (M1 & M2 & M3 & _). split; [assumption|]. split; [assumption|].
      intros j Hj. apply M3. lia.
    + intros (M1 & M2 & M3). destruct (max_var m (standard_len _ M1) ltac:(lia)) as (v & V1 & V2 & V3). exists (nv - 1 - v).
      assert (v < nv - k). { destruct (Nat.lt_ge_cases v (nv - k)); [assumption|]. exfalso. apply V2. apply M3. assumption. }
      split; [apply in_seq; lia|]. apply (blk_in d); [assumption|lia|]. split; [assumption|]. split; [assumption|]. split; [intros j Hj; apply V3; lia|].
      replace (nv - 1 - (nv - 1 - v)) with v by lia. exact V2.
Qed.

Lemma none_above d m0 : (forall m, standard nv lms m -> mdeg m <> N.of_nat (S d)) -> standard nv lms m0 -> (mdeg m0 <= N.of_nat d)%N.
Proof.
  intros H. assert (G : forall e m, standard nv lms m -> mdeg m = N.of_nat (S d + e) -> False).
  { induction e as [|e IH]; intros m Sm Dm; [rewrite Nat.add_0_r in Dm; exact (H m Sm Dm)|]. pose proof (standard_len _ Sm) as L.
    destruct (max_var m L ltac:(lia)) as (v & V1 & V2 & _). apply (IH (drop v m)); [apply (std_down _ m); [rewrite drop_length; assumption|apply drop_dvd|assumption]|]. apply mdeg_drop; [lia|assumption|lia]. }
  intros S0. destruct (N.le_gt_cases (mdeg m0) (N.of_nat d)) as [K|K]; [assumption|]. exfalso. apply (G (N.to_nat (mdeg m0) - S d) m0 S0). lia.
Qed.

Lemma gen_write_step d qb ind : qinv d qb ind -> (d = 0 -> ind = repeat 0 nv /\ length qb = 1) ->
  gen_write lms (isum ind + nv) (gen_cand nv qb ind) [] = Some (bsum (blk qb ind) (seq 0 nv)).
Proof.
  intros Q H0. rewrite <- kept_cand. rewrite gen_write_ok; [reflexivity|]. cbn [app length]. destruct d as [|d].
  - right. destruct (H0 eq_refl) as (-> & H1). assert (length (gen_cand nv qb (repeat 0 nv)) = nv); [|lia]. unfold gen_cand.
    transitivity (length (seq 0 nv)); [|apply seq_length]. induction (seq 0 nv) as [|k l IH]; [reflexivity|]. cbn [map concat length]. rewrite app_length, IH, map_length, nth_repeat. cbn [skipn]. lia.
  - left. rewrite kept_cand. apply (new_room d). assumption.
Qed.

Lemma quot_loop_ok cnt : forall d qb ind, qinv d qb ind -> (d = 0 -> ind = repeat 0 nv /\ length qb = 1) ->
  exists r, quot_loop nv lms cnt qb ind = Some r /\ NoDup r /\ forall m, In m r <-> standard nv lms m /\ (mdeg m <= N.of_nat (d + cnt))%N.
Proof.
  induction cnt as [|cnt IH]; intros d qb ind Q H0; cbn [quot_loop].
  - exists qb. rewrite Nat.add_0_r. split; [reflexivity|]. split; [apply (q_nd _ _ _ Q)|apply (q_in _ _ _ Q)].
  - rewrite (gen_write_step d) by assumption. cbn [ModInvModel.obind]. destruct (bsum (blk qb ind) (seq 0 nv)) as [|m0 N0] eqn:EN.
    + exists qb. split; [reflexivity|]. split; [apply (q_nd _ _ _ Q)|]. intros m. rewrite (q_in _ _ _ Q). split; [intros (? & ?); split; [assumption|lia]|].
      intros (Sm & _). split; [assumption|]. apply (none_above d); [|assumption]. intros m1 S1 D1. assert (K : In m1 (bsum (blk qb ind) (seq 0 nv))) by (apply (new_in d); auto). rewrite EN in K. exact K.
    + destruct (IH (S d) _ _ (next_inv d qb ind Q ltac:(rewrite EN; discriminate))) as (r & R1 & R2 & R3); [discriminate|].
      exists r. rewrite <- EN. split; [exact R1|]. split; [exact R2|]. intros m. rewrite R3. replace (S d + cnt) with (d + S cnt) by lia. reflexivity.
Qed.

Lemma quotient_ok D : standard nv lms (mone nv) ->
  exists r, quotient_basis nv lms D = Some r /\ NoDup r /\ forall m, In m r <-> standard nv lms m /\ (mdeg m <= N.of_nat D)%N.
Proof.
  intros S0. unfold quotient_basis. rewrite (proj2 (covered_iff (mone nv) (repeat_length _ _)) S0). destruct (quot_loop_ok D 0 [mone nv] (repeat 0 nv)) as (r & R1 & R2 & R3); [|auto|exists r; auto].
  assert (Z0 : forall m, standard nv lms m -> (mdeg m <= 0)%N -> m = mone nv).
  { intros m Sm Dm. destruct (N.eq_dec (mdeg m) 0) as [E|E]; [|lia]. apply mono_ext; [rewrite (standard_len _ Sm); unfold mone; rewrite repeat_length; reflexivity|].
    intros i. rewrite (MonoSpecProofs.mdeg_zero m E). unfold ex, mone. rewrite nth_repeat. reflexivity. }
  constructor.
  - constructor; [intros []|constructor].
  - intros m. cbn. split; [intros [<-|[]]; split; [assumption|rewrite mdeg_mone; lia]|]. intros (Sm & Dm). left. symmetry. apply Z0; assumption.
  - apply repeat_length.
  - intros k m Hk. rewrite nth_repeat. cbn. split.
    + intros [<-|[]]. split; [assumption|]. split; [apply mdeg_mone|]. intros j _. unfold mone. apply nth_repeat.
    + intros (Sm & Dm & _). left. symmetry. apply Z0; [assumption|lia].
Qed.
Lemma quotient_some D r : quotient_basis nv lms D = Some r -> standard nv lms (mone nv) /\ NoDup r /\ (forall m, In m r -> length m = nv) /\ exists t, r = mone nv :: t.
Proof.
  intros H. assert (S0 : standard nv lms (mone nv)).
  { apply covered_iff; [unfold mone; apply repeat_length|]. unfold quotient_basis in H. destruct (covered lms (mone nv)); [discriminate|reflexivity]. }
  destruct (quotient_ok D S0) as (r' & R1 & R2 & R3). rewrite R1 in H. inversion H; subst r'. split; [assumption|]. split; [assumption|].
  split; [intros m Hm; apply R3 in Hm; destruct Hm as (Sm & _); apply standard_len; assumption|].
  assert (HH : forall r cnt qb ind, quot_loop nv lms cnt qb ind = Some r -> exists t, r = qb ++ t).
  { clear. intros r. induction cnt as [|cnt IH]; intros qb ind H; cbn [quot_loop] in H; [inversion H; exists []; rewrite app_nil_r; reflexivity|].
    destruct (gen_write _ _ _ _) as [[|m0 N0]|]; cbn in H; [inversion H; exists []; rewrite app_nil_r; reflexivity| |discriminate].
    apply IH in H. destruct H as (t & ->). rewrite <- app_assoc. eauto. }
  unfold quotient_basis in R1. destruct (covered lms (mone nv)); [discriminate|]. apply HH in R1. destruct R1 as (t & ->). exists t. reflexivity.
Qed.
End Quot.
