From Coq Require Import NArith Arith List Bool Lia Wf_nat Relations Wellfounded.
From Verif Require Import MonoSpec.
Import ListNotations.
Open Scope N_scope.

Lemma map2_length f a : forall b, length a = length b -> length (map2 f a b) = length a.
Proof. induction a as [|x a IH]; intros [|y b] H; cbn in *; try discriminate; auto. Qed.

Lemma ex_map2 f a : forall b i, length a = length b -> f 0 0 = 0 -> ex (map2 f a b) i = f (ex a i) (ex b i).
Proof.
  unfold ex. induction a as [|x a IH]; intros [|y b] i H H0; cbn in *; try discriminate.
  - destruct i; auto.
  - destruct i; auto.
Qed.

Lemma ex_mmul a b i : length a = length b -> ex (mmul a b) i = ex a i + ex b i.
Proof. intros H. unfold mmul. rewrite ex_map2; auto. Qed.
Lemma ex_mlcm a b i : length a = length b -> ex (mlcm a b) i = N.max (ex a i) (ex b i).
Proof. intros H. unfold mlcm. rewrite ex_map2; auto. Qed.
Lemma ex_mquo a b i : length a = length b -> ex (mquo a b) i = ex a i - ex b i.
Proof. intros H. unfold mquo. rewrite ex_map2; auto. Qed.
Lemma mmul_length a b : length a = length b -> length (mmul a b) = length a.
Proof. apply map2_length. Qed.
Lemma mlcm_length a b : length a = length b -> length (mlcm a b) = length a.
Proof. apply map2_length. Qed.
Lemma mquo_length a b : length a = length b -> length (mquo a b) = length a.
Proof. apply map2_length. Qed.
Lemma mone_length n : length (mone n) = n.
Proof. apply repeat_length. Qed.
Lemma ex_mone n i : ex (mone n) i = 0.
Proof. unfold ex, mone. destruct (Nat.lt_ge_cases i n).
  - apply nth_repeat. - apply nth_overflow. rewrite repeat_length. assumption. Qed.

Lemma ex_eq (a b : mono) : length a = length b -> (forall i, ex a i = ex b i) -> a = b.
Proof. intros Hl H. apply nth_ext with (d := 0) (d' := 0); auto. intros i _. apply H. Qed.

Lemma mdeg_cons x a : mdeg (x :: a) = x + mdeg a.
Proof. reflexivity. Qed.

Lemma ex_nil i : ex [] i = 0.
Proof. destruct i; reflexivity. Qed.

Lemma ex_overflow a i : (length a <= i)%nat -> ex a i = 0.
Proof. apply nth_overflow. Qed.

(** degree *)
Lemma mdeg_mmul a : forall b, length a = length b -> mdeg (mmul a b) = mdeg a + mdeg b.
Proof. induction a as [|x a IH]; intros [|y b] H; cbn in *; try discriminate; auto.
  rewrite IH by lia. fold (mdeg a) (mdeg b). lia. Qed.
Lemma mdeg_mone n : mdeg (mone n) = 0.
Proof. induction n; cbn; auto. Qed.
Lemma mdeg_zero a : mdeg a = 0 -> forall i, ex a i = 0.
Proof. induction a as [|x a IH]; intros H i; cbn in *.
  - destruct i; reflexivity.
  - fold (mdeg a) in H. unfold ex in *. destruct i; cbn; [lia|]. apply IH. lia. Qed.
Lemma ex_le_mdeg a i : ex a i <= mdeg a.
Proof. revert i. induction a as [|x a IH]; intros i; cbn; unfold ex in *.
  - destruct i; cbn; lia.
  - destruct i; cbn; fold (mdeg a); [lia|]. specialize (IH i). lia. Qed.
Lemma mdeg_mono a : forall b, (forall i, ex a i <= ex b i) -> mdeg a <= mdeg b.
Proof. induction a as [|x a IH]; intros b H; [cbn; lia|].
  destruct b as [|y b].
  - assert (Hz : forall i, ex (x :: a) i = 0).
    { intros i. specialize (H i). rewrite ex_nil in H. lia. }
    change (mdeg (x :: a) <= 0).
    clear -Hz. induction (x :: a) as [|z l IHl]; [cbn; lia|].
    cbn. fold (mdeg l). pose proof (Hz O) as H0. unfold ex in H0; cbn in H0. subst z.
    rewrite N.add_0_l. apply IHl. intros i. apply (Hz (S i)).
  - rewrite !mdeg_cons. pose proof (H O) as H0. unfold ex in H0; cbn in H0.
    assert (mdeg a <= mdeg b) by (apply IH; intros i; apply (H (S i))). lia. Qed.
Lemma mdeg_app a b : mdeg (a ++ b) = mdeg a + mdeg b.
Proof. induction a as [|x a IH]; [reflexivity|]. cbn [app]. rewrite !mdeg_cons, IH. lia. Qed.

(** divisibility *)
Lemma mdvd_refl a : mdvd a a. Proof. intros i; lia. Qed.
Lemma mdvd_trans a b c : mdvd a b -> mdvd b c -> mdvd a c.
Proof. intros H1 H2 i. specialize (H1 i). specialize (H2 i). lia. Qed.
Lemma mdvd_antisym a b : length a = length b -> mdvd a b -> mdvd b a -> a = b.
Proof. intros Hl H1 H2. apply ex_eq; auto. intros i. specialize (H1 i). specialize (H2 i). lia. Qed.
Lemma mdvd_mquo a b : length a = length b -> mdvd a b -> mmul (mquo b a) a = b.
Proof. intros Hl H. apply ex_eq.
  - rewrite mmul_length; rewrite mquo_length; auto.
  - intros i. rewrite ex_mmul by (rewrite mquo_length; auto). rewrite ex_mquo by auto. specialize (H i). lia. Qed.
Lemma mdvd_mmul_l a b : length a = length b -> mdvd a (mmul b a).
Proof. intros Hl i. rewrite ex_mmul by auto. lia. Qed.
Lemma mdvd_iff a b : length a = length b -> mdvd a b <-> exists c, length c = length a /\ b = mmul c a.
Proof. intros Hl. split.
  - intros H. exists (mquo b a). split; [rewrite mquo_length; auto|]. symmetry. apply mdvd_mquo; auto.
  - intros (c & Hc & ->). apply mdvd_mmul_l. auto. Qed.
Lemma mlcm_dvd_l a b : length a = length b -> mdvd a (mlcm a b).
Proof. intros H i. rewrite ex_mlcm by auto. lia. Qed.
Lemma mlcm_dvd_r a b : length a = length b -> mdvd b (mlcm a b).
Proof. intros H i. rewrite ex_mlcm by auto. lia. Qed.
Lemma mlcm_least a b c : length a = length b -> mdvd a c -> mdvd b c -> mdvd (mlcm a b) c.
Proof. intros H H1 H2 i. rewrite ex_mlcm by auto. specialize (H1 i). specialize (H2 i). lia. Qed.
Lemma mmul_comm a b : length a = length b -> mmul a b = mmul b a.
Proof. intros H. apply ex_eq; [rewrite !mmul_length; auto|]. intros i. rewrite !ex_mmul by auto. lia. Qed.
Lemma mmul_assoc a b c : length a = length b -> length b = length c -> mmul a (mmul b c) = mmul (mmul a b) c.
Proof. intros H1 H2. apply ex_eq; [rewrite !mmul_length; rewrite ?mmul_length; auto; congruence|].
  intros i. rewrite !ex_mmul; rewrite ?mmul_length; auto; try congruence. lia. Qed.
Lemma mmul_one_l a n : length a = n -> mmul (mone n) a = a.
Proof. intros H. apply ex_eq; [rewrite mmul_length; rewrite mone_length; auto|].
  intros i. rewrite ex_mmul by (rewrite mone_length; auto). rewrite ex_mone. lia. Qed.

(** ** Lexicographic order *)
Lemma lex_trans a b c : lex_lt a b -> lex_lt b c -> lex_lt a c.
Proof.
  intros (i & Hi & Hi') (j & Hj & Hj'). destruct (lt_eq_lt_dec i j) as [[H|H]|H].
  - exists i. split; [rewrite <- (Hj' i) by assumption; assumption|].
    intros k Hk. rewrite Hi', Hj' by lia. reflexivity.
  - subst j. exists i. split; [lia|]. intros k Hk. rewrite Hi', Hj' by lia. reflexivity.
  - exists j. split; [rewrite (Hi' j) by assumption; assumption|].
    intros k Hk. rewrite Hi', Hj' by lia. reflexivity.
Qed.
Lemma lex_irrefl a : ~ lex_lt a a.
Proof. intros (i & H & _). lia. Qed.

(* least index where two lists differ *)
Lemma first_diff a : forall b, length a = length b -> a = b \/
  exists i, (i < length a)%nat /\ ex a i <> ex b i /\ forall j, (j < i)%nat -> ex a j = ex b j.
Proof.
  induction a as [|x a IH]; intros [|y b] H; cbn in *; try discriminate; auto.
  destruct (N.eq_dec x y) as [->|Hne].
  - destruct (IH b ltac:(lia)) as [->|(i & Hl & Hi & Hi')]; [auto|]. right. exists (S i). split; [lia|]. split; [assumption|].
    intros [|j] Hj; [reflexivity|]. apply Hi'. lia.
  - right. exists O. split; [lia|]. split; [assumption|]. intros; lia.
Qed.

Lemma last_diff a b : length a = length b -> a = b \/
  exists i, (i < length a)%nat /\ ex a i <> ex b i /\ forall j, (i < j)%nat -> ex a j = ex b j.
Proof.
  intros H. destruct (first_diff (rev a) (rev b)) as [E|(i & Hl & Hi & Hi')].
  - rewrite !rev_length. assumption.
  - left. rewrite <- (rev_involutive a), <- (rev_involutive b), E. reflexivity.
  - right. rewrite rev_length in Hl. exists (length a - S i)%nat. split; [lia|]. unfold ex in *.
    assert (Hr : forall (l : mono) k, (k < length l)%nat -> nth k l 0 = nth (length l - S k) (rev l) 0).
    { intros l k Hk. rewrite rev_nth by lia. f_equal. lia. }
    split.
    + rewrite (Hr a), (Hr b) by lia. replace (length b - S (length a - S i))%nat with i by lia.
      replace (length a - S (length a - S i))%nat with i by lia. assumption.
    + intros j Hj. destruct (Nat.lt_ge_cases j (length a)).
      * rewrite (Hr a), (Hr b) by lia. replace (length b - S j)%nat with (length a - S j)%nat by lia. apply Hi'. lia.
      * rewrite !nth_overflow by lia. reflexivity.
Qed.

Lemma lex_total n a b : length a = n -> length b = n -> lex_lt a b \/ a = b \/ lex_lt b a.
Proof.
  intros Ha Hb. destruct (first_diff a b) as [->|(i & Hl & Hi & Hi')]; [congruence|auto|].
  destruct (N.lt_total (ex a i) (ex b i)) as [H|[H|H]]; [left|contradiction|right; right]; exists i; split; auto.
  intros j Hj. symmetry. auto.
Qed.

(* well-foundedness of lex on lists of a given length *)
Definition onlen (n : nat) (lt : mono -> mono -> Prop) (x y : mono) : Prop := length x = n /\ length y = n /\ lt x y.

Lemma lex_cons x a y b : lex_lt (x :: a) (y :: b) <-> x < y \/ (x = y /\ lex_lt a b).
Proof.
  split.
  - intros (i & Hi & Hi'). destruct i as [|i].
    + left. exact Hi.
    + right. split; [exact (Hi' O ltac:(lia))|]. exists i. split; [exact Hi|].
      intros j Hj. exact (Hi' (S j) ltac:(lia)).
  - intros [H|[-> (i & Hi & Hi')]].
    + exists O. split; [exact H|]. intros; lia.
    + exists (S i). split; [exact Hi|]. intros [|j] Hj; [reflexivity|]. apply Hi'. lia.
Qed.

Lemma lex_wf : forall n a, length a = n -> Acc (onlen n lex_lt) a.
Proof.
  induction n as [|n IH]; intros a Ha.
  - constructor. intros b (Hb & _ & (i & Hi & _)). destruct a; [|discriminate]. unfold ex in Hi. destruct i; cbn in Hi; lia.
  - destruct a as [|x a]; [discriminate|]. injection Ha as Ha.
    revert a Ha. induction x as [x IHx] using (well_founded_induction N.lt_wf_0). intros a Ha.
    specialize (IH a Ha) as Hacc. revert Ha. induction Hacc as [a _ IHa]. intros Ha.
    constructor. intros b (Hb & _ & Hlt). destruct b as [|y b]; [discriminate|]. injection Hb as Hb.
    apply lex_cons in Hlt. destruct Hlt as [Hlt|[-> Hlt]].
    + apply IHx; assumption.
    + apply IHa; [|assumption]. split; [assumption|]. split; assumption.
Qed.

Lemma mono_order_lex n : mono_order n lex_lt.
Proof.
  constructor.
  - apply lex_irrefl.
  - intros a b c _ _ _. apply lex_trans.
  - apply lex_total.
  - intros a b c Ha Hb Hc (i & Hi & Hi'). exists i. rewrite !ex_mmul by congruence.
    split; [lia|]. intros j Hj. rewrite !ex_mmul by congruence. rewrite Hi' by assumption. reflexivity.
  - intros a Ha Hne. destruct (lex_total n (mone n) a) as [H|[H|H]]; auto.
    + apply mone_length.
    + exfalso. apply Hne. auto.
    + exfalso. destruct H as (i & Hi & _). rewrite ex_mone in Hi. lia.
  - apply lex_wf.
Qed.

(** ** Degree reverse lexicographic order *)
Lemma drl_irrefl a : ~ drl_lt a a.
Proof. intros [H|[_ (i & H & _)]]; lia. Qed.

Lemma drl_trans a b c : drl_lt a b -> drl_lt b c -> drl_lt a c.
Proof.
  intros [H1|[H1 (i & Hi & Hi')]] [H2|[H2 (j & Hj & Hj')]]; try (left; lia).
  right. split; [lia|]. destruct (lt_eq_lt_dec i j) as [[H|H]|H].
  - exists j. split; [rewrite (Hi' j) by assumption; assumption|].
    intros k Hk. rewrite Hi', Hj' by lia. reflexivity.
  - subst j. exists i. split; [lia|]. intros k Hk. rewrite Hi', Hj' by lia. reflexivity.
  - exists i. split; [rewrite <- (Hj' i) by assumption; assumption|].
    intros k Hk. rewrite Hi', Hj' by lia. reflexivity.
Qed.

Lemma drl_total n a b : length a = n -> length b = n -> drl_lt a b \/ a = b \/ drl_lt b a.
Proof.
  intros Ha Hb. destruct (N.lt_total (mdeg a) (mdeg b)) as [H|[H|H]]; [left; left; assumption| |right; right; left; assumption].
  destruct (last_diff a b) as [->|(i & Hl & Hi & Hi')]; [congruence|auto|].
  destruct (N.lt_total (ex a i) (ex b i)) as [H'|[H'|H']]; [right; right|contradiction|left].
  - right. split; [auto|]. exists i. split; [assumption|]. intros j Hj. symmetry. auto.
  - right. split; [auto|]. exists i. auto.
Qed.

Lemma drl_mul n a b c : length a = n -> length b = n -> length c = n -> drl_lt a b -> drl_lt (mmul c a) (mmul c b).
Proof.
  intros Ha Hb Hc [H|[H (i & Hi & Hi')]].
  - left. rewrite !mdeg_mmul by congruence. lia.
  - right. rewrite !mdeg_mmul by congruence. split; [lia|]. exists i. rewrite !ex_mmul by congruence. split; [lia|].
    intros j Hj. rewrite !ex_mmul by congruence. rewrite Hi' by assumption. reflexivity.
Qed.

Lemma drl_one n a : length a = n -> a <> mone n -> drl_lt (mone n) a.
Proof.
  intros Ha Hne. left. rewrite mdeg_mone. destruct (N.eq_dec (mdeg a) 0) as [E|]; [exfalso|lia].
  apply Hne. apply ex_eq; [rewrite mone_length; assumption|]. intros i. rewrite ex_mone. apply mdeg_zero; assumption.
Qed.

(* drl as a lexicographic order: degree, then degree minus exponent from the last variable on *)
Definition drl_key (a : mono) : mono := mdeg a :: map (fun x => mdeg a - x) (rev a).

Lemma drl_key_length a : length (drl_key a) = S (length a).
Proof. unfold drl_key. cbn. rewrite map_length, rev_length. reflexivity. Qed.

Lemma ex_rev a i : (i < length a)%nat -> ex (rev a) i = ex a (length a - S i).
Proof. intros H. unfold ex. apply rev_nth. assumption. Qed.

Lemma drl_key_lt a b : length a = length b -> drl_lt a b -> lex_lt (drl_key a) (drl_key b).
Proof.
  intros Hl [H|[H (i & Hi & Hi')]]; unfold drl_key; apply lex_cons; [left; assumption|right].
  split; [assumption|]. rewrite H.
  assert (Hib : (i < length a)%nat).
  { destruct (Nat.lt_ge_cases i (length a)); [assumption|]. rewrite (ex_overflow a i) in Hi by assumption. lia. }
  assert (Hm : forall (l : mono) k, (k < length l)%nat -> ex (map (fun x => mdeg b - x) l) k = mdeg b - ex l k).
  { intros l k Hk. unfold ex. rewrite (nth_indep _ 0 (mdeg b - 0)) by (rewrite map_length; assumption).
    apply (map_nth (fun x => mdeg b - x)). }
  exists (length a - S i)%nat. split.
  - rewrite !Hm by (rewrite rev_length; lia). rewrite !ex_rev by lia.
    replace (length a - S (length a - S i))%nat with i by lia.
    replace (length b - S (length a - S i))%nat with i by lia.
    pose proof (ex_le_mdeg a i). pose proof (ex_le_mdeg b i). lia.
  - intros j Hj. rewrite !Hm by (rewrite rev_length; lia). rewrite !ex_rev by lia.
    replace (length b - S j)%nat with (length a - S j)%nat by lia. rewrite Hi' by lia. reflexivity.
Qed.

Lemma drl_wf n a : length a = n -> Acc (onlen n drl_lt) a.
Proof.
  intros Ha. assert (Hk : Acc (onlen (S n) lex_lt) (drl_key a)).
  { apply lex_wf. rewrite drl_key_length, Ha. reflexivity. }
  apply (Acc_incl _ (onlen n drl_lt) (fun x y => onlen (S n) lex_lt (drl_key x) (drl_key y))).
  - intros x y (Hx & Hy & H). split; [rewrite drl_key_length; lia|]. split; [rewrite drl_key_length; lia|].
    apply drl_key_lt; [congruence|assumption].
  - apply Acc_inverse_image. assumption.
Qed.

Lemma mono_order_drl n : mono_order n drl_lt.
Proof.
  constructor.
  - apply drl_irrefl.
  - intros a b c _ _ _. apply drl_trans.
  - apply drl_total.
  - apply drl_mul.
  - apply drl_one.
  - apply drl_wf.
Qed.

(** ** Block order *)
Lemma map2_firstn f k : forall a b, firstn k (map2 f a b) = map2 f (firstn k a) (firstn k b).
Proof. induction k as [|k IH]; intros [|x a] [|y b]; cbn; auto. f_equal. apply IH. Qed.
Lemma map2_skipn f k : forall a b, length a = length b -> skipn k (map2 f a b) = map2 f (skipn k a) (skipn k b).
Proof. induction k as [|k IH]; intros [|x a] [|y b] H; cbn in *; try discriminate; auto. Qed.
Lemma firstn_mone n k : firstn k (mone n) = mone (Nat.min k n).
Proof. unfold mone. revert n; induction k as [|k IH]; intros [|n]; cbn; auto. f_equal. apply IH. Qed.
Lemma skipn_mone n k : skipn k (mone n) = mone (n - k).
Proof. unfold mone. revert n; induction k as [|k IH]; intros [|n]; cbn; auto. Qed.

Lemma blk_irrefl k a : ~ blk_lt k a a.
Proof. intros [H|[_ H]]; eapply drl_irrefl; eassumption. Qed.

Lemma blk_trans k a b c : blk_lt k a b -> blk_lt k b c -> blk_lt k a c.
Proof.
  intros [H1|[E1 H1]] [H2|[E2 H2]].
  - left. eapply drl_trans; eassumption.
  - left. rewrite <- E2. assumption.
  - left. rewrite E1. assumption.
  - right. split; [congruence|]. eapply drl_trans; eassumption.
Qed.

Lemma blk_total k n a b : length a = n -> length b = n -> blk_lt k a b \/ a = b \/ blk_lt k b a.
Proof.
  intros Ha Hb.
  destruct (drl_total (length (firstn k a)) (firstn k a) (firstn k b)) as [H|[H|H]]; auto.
  - rewrite !firstn_length. lia.
  - left. left. assumption.
  - destruct (drl_total (length (skipn k a)) (skipn k a) (skipn k b)) as [H'|[H'|H']]; auto.
    + rewrite !skipn_length. lia.
    + left. right. auto.
    + right. left. rewrite <- (firstn_skipn k a), <- (firstn_skipn k b). congruence.
    + right. right. right. auto.
  - right. right. left. assumption.
Qed.

Lemma blk_mul k n a b c : length a = n -> length b = n -> length c = n -> blk_lt k a b -> blk_lt k (mmul c a) (mmul c b).
Proof.
  intros Ha Hb Hc [H|[E H]]; unfold blk_lt, mmul.
  - left. rewrite !map2_firstn. apply (drl_mul (length (firstn k a))); auto; rewrite !firstn_length; lia.
  - right. rewrite !map2_firstn, E. split; [reflexivity|].
    rewrite !map2_skipn by congruence. apply (drl_mul (length (skipn k a))); auto; rewrite !skipn_length; lia.
Qed.

Lemma blk_one k n a : length a = n -> a <> mone n -> blk_lt k (mone n) a.
Proof.
  intros Ha Hne. unfold blk_lt. rewrite firstn_mone, skipn_mone.
  destruct (list_eq_dec N.eq_dec (firstn k a) (mone (Nat.min k n))) as [E|E].
  - right. split; [auto|]. apply drl_one; [rewrite skipn_length; lia|]. intros E'.
    apply Hne. rewrite <- (firstn_skipn k a), E, E', <- firstn_mone, <- skipn_mone. apply firstn_skipn.
  - left. apply drl_one; [rewrite firstn_length; lia|assumption].
Qed.

Lemma lex_app_l a b c d : length a = length b -> lex_lt a b -> lex_lt (a ++ c) (b ++ d).
Proof.
  intros Hl (i & Hi & Hi').
  assert (Hib : (i < length a)%nat).
  { destruct (Nat.lt_ge_cases i (length a)); [assumption|]. rewrite (ex_overflow b i) in Hi by lia. lia. }
  exists i. unfold ex in *. rewrite !app_nth1 by lia. split; [assumption|]. intros j Hj. rewrite !app_nth1 by lia. auto.
Qed.
Lemma lex_app_r a c d : lex_lt c d -> lex_lt (a ++ c) (a ++ d).
Proof. intros H. induction a as [|x a IH]; cbn; [assumption|]. apply lex_cons. right. auto. Qed.

Lemma blk_wf k n a : length a = n -> Acc (onlen n (blk_lt k)) a.
Proof.
  intros Ha. set (key := fun x => drl_key (firstn k x) ++ drl_key (skipn k x)).
  assert (Hlen : forall x, length (key x) = S (S (length x))).
  { intros x. unfold key. rewrite app_length, !drl_key_length.
    rewrite <- (firstn_skipn k x) at 3. rewrite app_length. lia. }
  apply (Acc_incl _ (onlen n (blk_lt k)) (fun x y => onlen (S (S n)) lex_lt (key x) (key y))).
  - intros x y (Hx & Hy & H). split; [rewrite Hlen; lia|]. split; [rewrite Hlen; lia|]. unfold key.
    destruct H as [H|[E H]].
    + apply lex_app_l.
      * rewrite !drl_key_length, !firstn_length. lia.
      * apply drl_key_lt; [rewrite !firstn_length; lia|assumption].
    + rewrite E. apply lex_app_r. apply drl_key_lt; [rewrite !skipn_length; lia|assumption].
  - apply Acc_inverse_image. apply lex_wf. rewrite Hlen, Ha. reflexivity.
Qed.

Lemma mono_order_blk k n : mono_order n (blk_lt k).
Proof.
  constructor.
  - apply blk_irrefl.
  - intros a b c _ _ _. apply blk_trans.
  - apply blk_total.
  - apply blk_mul.
  - apply blk_one.
  - apply blk_wf.
Qed.

(** Elimination: a monomial without block variables is larger only than monomials without them. *)
Lemma blk_elim k a b : mdeg (firstn k b) = 0 -> blk_lt k a b -> mdeg (firstn k a) = 0.
Proof.
  intros Hb [[H|[H _]]|[E _]]; [lia|congruence|congruence].
Qed.

(** No infinite descent, from accessibility *)
Lemma no_infinite_descent n lt : (forall a, length a = n -> Acc (onlen n lt) a) ->
  ~ exists f : nat -> mono, forall i, length (f i) = n /\ lt (f (S i)) (f i).
Proof.
  intros Hacc (f & Hf).
  assert (H : forall a, Acc (onlen n lt) a -> forall i, f i = a -> False).
  { intros a Ha. induction Ha as [a _ IH]. intros i E.
    destruct (Hf i) as [Hl Hlt]. destruct (Hf (S i)) as [Hl' _].
    apply (IH (f (S i))) with (i := S i); [|reflexivity]. subst a. split; [assumption|]. split; assumption. }
  apply (H (f O)) with (i := O); [|reflexivity]. apply Hacc, Hf.
Qed.
