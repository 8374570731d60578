From Coq Require Import ZArith NArith Arith List Bool Lia Sorted.
From Verif Require Import ModInvModel MonoSpec MonoSpecProofs HilbSpec HilbModel.
Import ListNotations.
Open Scope N_scope.

(** ** Divisibility tests *)
Lemma is_divisible_exp_ok n : forall a b, (n <= length a)%nat -> (n <= length b)%nat ->
  exists r, is_divisible_exp n a b = Some r /\ (r = true <-> forall i, (i < n)%nat -> ex b i <= ex a i).
Proof.
  induction n as [|n IH]; intros a b Ha Hb.
  - exists true. split; [reflexivity|]. split; auto. intros _ i Hi; lia.
  - destruct a as [|x a]; [cbn in Ha; lia|]. destruct b as [|y b]; [cbn in Hb; lia|].
    cbn [is_divisible_exp]. destruct (x <? y) eqn:E.
    + exists false. split; auto. split; [discriminate|]. intros H. specialize (H 0%nat ltac:(lia)).
      cbn in H. apply N.ltb_lt in E. lia.
    + apply N.ltb_ge in E. destruct (IH a b) as [r [H1 H2]]; [cbn in Ha; lia|cbn in Hb; lia|].
      exists r. split; auto. rewrite H2. split.
      * intros H [|i] Hi; cbn; auto. apply H. lia.
      * intros H i Hi. apply (H (S i)). lia.
Qed.

Lemma is_divisible_lexp_ok n a : forall lms, (n <= length a)%nat -> Forall (fun l => (n <= length l)%nat) lms ->
  exists r, is_divisible_lexp n a lms = Some r /\
    (r = true <-> exists l, In l lms /\ forall i, (i < n)%nat -> ex l i <= ex a i).
Proof.
  induction lms as [|l r IH]; intros Ha Hl.
  - exists false. split; auto. split; [discriminate|]. intros (l & [] & _).
  - inversion Hl as [|? ? Hl1 Hl2]; subst.
    cbn [is_divisible_lexp]. destruct (is_divisible_exp_ok n a l Ha Hl1) as [b [Hb1 Hb2]]. rewrite Hb1. cbn [obind].
    destruct b.
    + exists true. split; auto. split; auto. intros _. exists l. split; [left; auto|]. apply Hb2. auto.
    + destruct (IH Ha Hl2) as [c [Hc1 Hc2]]. exists c. split; auto. rewrite Hc2. split.
      * intros (m & Hm & H). exists m. split; [right|]; auto.
      * intros (m & [<-|Hm] & H); [|exists m; auto]. apply Hb2 in H. discriminate.
Qed.

Lemma mdvd_short n a l : length a = n -> length l = n -> (forall i, (i < n)%nat -> ex l i <= ex a i) <-> mdvd l a.
Proof.
  intros Ha Hl. split; intros H i; [|intros; apply H].
  destruct (Nat.lt_ge_cases i n); [auto|]. rewrite (ex_overflow l) by lia. lia.
Qed.

Definition dvb (nv : nat) (lms : list mono) (m : mono) : bool :=
  match is_divisible_lexp nv m lms with Some b => b | None => false end.
Definition keep nv lms m := negb (dvb nv lms m).

Section S.
Variable nv : nat.
Variable lms : list mono.
Hypothesis Hlms : Forall (fun l => length l = nv) lms.

Lemma lms_ge : Forall (fun l => (nv <= length l)%nat) lms.
Proof. eapply Forall_impl; [|apply Hlms]. intros l Hl. cbn in *. lia. Qed.

Lemma dvb_some m : length m = nv -> is_divisible_lexp nv m lms = Some (dvb nv lms m).
Proof.
  intros Hm. unfold dvb. destruct (is_divisible_lexp_ok nv m lms) as [r [H1 H2]]; [lia|apply lms_ge|].
  rewrite H1. reflexivity.
Qed.

Lemma keep_iff m : length m = nv -> keep nv lms m = true <-> standard nv lms m.
Proof.
  intros Hm. unfold keep, dvb. destruct (is_divisible_lexp_ok nv m lms) as [r [H1 H2]]; [lia|apply lms_ge|].
  rewrite H1. unfold standard. rewrite negb_true_iff. split.
  - intros ->. split; auto. intros l Hl Hd. assert (false = true); [|discriminate]. apply H2.
    exists l. split; auto.
  - intros [_ H]. destruct r; auto. destruct H2 as [H2 _]. destruct (H2 eq_refl) as (l & Hl & Hd).
    exfalso. apply (H l Hl). apply (mdvd_short nv); auto.
    rewrite Forall_forall in Hlms. auto.
Qed.

Lemma standard_down a b : length a = nv -> mdvd a b -> standard nv lms b -> standard nv lms a.
Proof. intros Ha Hd [_ H]. split; auto. intros l Hl Hla. apply (H l Hl). eapply mdvd_trans; eauto. Qed.

(** ** Increment of an exponent *)
Fixpoint bump (n : nat) (m : mono) : mono :=
  match m with [] => [] | x :: r => match n with O => x + 1 :: r | S n' => x :: bump n' r end end.
Fixpoint drop (n : nat) (m : mono) : mono :=
  match m with [] => [] | x :: r => match n with O => x - 1 :: r | S n' => x :: drop n' r end end.

Lemma bump_length m : forall n, length (bump n m) = length m.
Proof. induction m as [|x m IH]; intros [|n]; cbn; auto. Qed.
Lemma drop_length m : forall n, length (drop n m) = length m.
Proof. induction m as [|x m IH]; intros [|n]; cbn; auto. Qed.

Lemma ex_bump m : forall n i, (n < length m)%nat -> ex (bump n m) i = if (i =? n)%nat then ex m i + 1 else ex m i.
Proof.
  induction m as [|x m IH]; intros n i Hn; [cbn in Hn; lia|]. unfold ex in *.
  destruct n as [|n], i as [|i]; cbn; auto. apply IH. cbn in Hn. lia.
Qed.
Lemma ex_drop m : forall n i, (n < length m)%nat -> ex (drop n m) i = if (i =? n)%nat then ex m i - 1 else ex m i.
Proof.
  induction m as [|x m IH]; intros n i Hn; [cbn in Hn; lia|]. unfold ex in *.
  destruct n as [|n], i as [|i]; cbn; auto. apply IH. cbn in Hn. lia.
Qed.
Lemma mdeg_bump m : forall n, (n < length m)%nat -> mdeg (bump n m) = mdeg m + 1.
Proof.
  induction m as [|x m IH]; intros n Hn; [cbn in Hn; lia|]. destruct n as [|n]; cbn [bump]; rewrite !mdeg_cons.
  - lia. - rewrite IH by (cbn in Hn; lia). lia.
Qed.
Lemma drop_bump n m : (n < length m)%nat -> drop n (bump n m) = m.
Proof.
  intros Hn. apply ex_eq; [rewrite drop_length; apply bump_length|]. intros i. rewrite ex_drop, ex_bump; auto.
  - destruct (i =? n)%nat; lia. - rewrite bump_length; auto.
Qed.
Lemma bump_drop n m : (n < length m)%nat -> ex m n <> 0 -> bump n (drop n m) = m.
Proof.
  intros Hn Hx. apply ex_eq; [rewrite bump_length; apply drop_length|]. intros i. rewrite ex_bump, ex_drop; auto.
  - destruct (i =? n)%nat eqn:E; auto. apply Nat.eqb_eq in E. subst. lia. - rewrite drop_length; auto.
Qed.
Lemma mdeg_drop n m d : (n < length m)%nat -> ex m n <> 0 -> mdeg m = d + 1 -> mdeg (drop n m) = d.
Proof.
  intros Hn Hx Hd. rewrite <- (bump_drop n m Hn Hx) in Hd. rewrite mdeg_bump in Hd by (rewrite drop_length; auto). lia.
Qed.
Lemma drop_dvd n m : mdvd (drop n m) m.
Proof.
  intros i. destruct (Nat.lt_ge_cases n (length m)) as [H|H].
  - rewrite ex_drop by auto. destruct (i =? n)%nat; lia.
  - assert (E : drop n m = m).
    { clear i. revert n H. induction m as [|x m IH]; intros [|n] H; cbn in *; auto; [lia|]. f_equal. apply IH. lia. }
    rewrite E. lia.
Qed.

Lemma incr_ok m : forall n, (n < length m)%nat -> ex m n < i32_max -> incr n m = Some (bump n m).
Proof.
  induction m as [|x m IH]; intros n Hn Hx; [cbn in Hn; lia|]. destruct n as [|n]; cbn [incr bump].
  - cbn in Hx. apply N.ltb_lt in Hx. rewrite Hx. reflexivity.
  - rewrite IH; [reflexivity|cbn in Hn; lia|exact Hx].
Qed.

Lemma incr_some m : forall n b, incr n m = Some b -> b = bump n m.
Proof.
  induction m as [|x m IH]; intros n b H; [destruct n; cbn in H; discriminate H|]. destruct n as [|n]; cbn [incr bump] in *.
  - destruct (x <? i32_max); inversion H; auto.
  - destruct (incr n m) as [r|] eqn:E; cbn in H; inversion H. f_equal. apply IH in E. auto.
Qed.

Lemma bump_drl n a b : (n < length a)%nat -> (n < length b)%nat -> drl_lt a b -> drl_lt (bump n a) (bump n b).
Proof.
  intros Ha Hb [H|[H (i & Hi & Hj)]]; [left|right]; rewrite !mdeg_bump by auto.
  - lia.
  - split; [lia|]. exists i. rewrite !ex_bump by auto. split.
    + destruct (i =? n)%nat; lia.
    + intros j Hij. rewrite !ex_bump by auto. rewrite (Hj j Hij). reflexivity.
Qed.

(** ** The functional content of one generation step *)
Definition chunk (T : nat -> list mono) (n : nat) := filter (keep nv lms) (map (bump n) (T (S n))).
Fixpoint next (T : nat -> list mono) (n : nat) : list mono :=
  match n with O => [] | S n' => chunk T n' ++ next T n' end.

(** all variables from the n-th on are absent *)
Definition low (n : nat) (m : mono) : Prop := forall i, (n <= i)%nat -> ex m i = 0.

Record level (d : N) (T : nat -> list mono) : Prop := {
  lv_in : forall n m, (1 <= n <= nv)%nat -> In m (T n) <-> standard nv lms m /\ mdeg m = d /\ low n m;
  lv_sort : forall n, (1 <= n <= nv)%nat -> StronglySorted drl_lt (T n) }.

Lemma in_chunk d T n m : level d T -> (n < nv)%nat ->
  In m (chunk T n) <-> standard nv lms m /\ mdeg m = d + 1 /\ low (S n) m /\ ex m n <> 0.
Proof.
  intros HL Hn. unfold chunk. rewrite filter_In, in_map_iff. split.
  - intros [(a & <- & Ha) Hk]. apply (lv_in _ _ HL) in Ha; [|lia]. destruct Ha as [[Hal Has] [Had Halow]].
    rewrite keep_iff in Hk by (rewrite bump_length; auto). split; auto. rewrite mdeg_bump by lia.
    split; [lia|]. split.
    + intros i Hi. rewrite ex_bump by lia. destruct (i =? n)%nat eqn:E; [apply Nat.eqb_eq in E; lia|]. apply Halow; lia.
    + rewrite ex_bump by lia. rewrite Nat.eqb_refl. lia.
  - intros (Hs & Hd & Hlow & Hx). assert (Hlen : length m = nv) by apply Hs.
    split; [|apply keep_iff; auto]. exists (drop n m). split; [apply bump_drop; lia|].
    apply (lv_in _ _ HL); [lia|]. split; [|split].
    + apply standard_down with m; auto; [rewrite drop_length; auto|apply drop_dvd].
    + apply mdeg_drop; auto; lia.
    + intros i Hi. rewrite ex_drop by lia. rewrite (Hlow i Hi). destruct (i =? n)%nat; lia.
Qed.

Lemma in_next d T n m : level d T -> (n <= nv)%nat ->
  In m (next T n) <-> standard nv lms m /\ mdeg m = d + 1 /\ low n m.
Proof.
  intros HL. induction n as [|n IH]; intros Hn.
  - cbn. split; [tauto|]. intros (Hs & Hd & Hlow). assert (mdeg m = 0); [|lia].
    assert (E : m = mone nv).
    { apply ex_eq; [rewrite mone_length; apply Hs|]. intros i. rewrite ex_mone. apply Hlow; lia. }
    rewrite E. apply mdeg_mone.
  - cbn [next]. rewrite in_app_iff, IH, (in_chunk d) by (auto; lia). split.
    + intros [(H1 & H2 & H3 & H4)|(H1 & H2 & H3)]; auto. split; auto. split; auto. intros i Hi. apply H3. lia.
    + intros (H1 & H2 & H3). destruct (N.eq_dec (ex m n) 0) as [E|E]; [right|left; auto].
      split; auto. split; auto. intros i Hi. destruct (Nat.eq_dec i n); [subst; auto|apply H3; lia].
Qed.

Lemma sorted_map_filter (l : list mono) n : (n < nv)%nat -> Forall (fun m => length m = nv) l -> StronglySorted drl_lt l ->
  StronglySorted drl_lt (filter (keep nv lms) (map (bump n) l)).
Proof.
  intros Hn. induction l as [|a l IH]; intros Hl Hs; cbn; [constructor|].
  inversion Hl; subst. inversion Hs; subst. specialize (IH ltac:(auto) ltac:(auto)).
  destruct (keep _ lms (bump n a)); auto. constructor; auto.
  rewrite Forall_forall in *. intros b Hb. apply filter_In in Hb. destruct Hb as [Hb _]. apply in_map_iff in Hb.
  destruct Hb as (c & <- & Hc). apply bump_drl; try (rewrite H1 by auto; lia); auto; try lia.
  all: rewrite ?(H2 c Hc); lia.
Qed.

Lemma sorted_app (a b : list mono) : StronglySorted drl_lt a -> StronglySorted drl_lt b ->
  (forall x y, In x a -> In y b -> drl_lt x y) -> StronglySorted drl_lt (a ++ b).
Proof.
  intros Ha Hb Hab. induction a as [|x a IH]; cbn; auto. inversion Ha; subst. constructor.
  - apply IH; auto. intros; apply Hab; cbn; auto.
  - rewrite Forall_forall in *. intros y Hy. apply in_app_iff in Hy. destruct Hy; [auto|apply Hab; cbn; auto].
Qed.

Lemma next_sorted d T n : level d T -> (n <= nv)%nat -> StronglySorted drl_lt (next T n).
Proof.
  intros HL. induction n as [|n IH]; intros Hn; cbn [next]; [constructor|].
  apply sorted_app; [|apply IH; lia|].
  - unfold chunk. apply sorted_map_filter; [lia| |apply (lv_sort _ _ HL); lia].
    apply Forall_forall. intros m Hm. apply (lv_in _ _ HL) in Hm; [|lia]. apply Hm.
  - intros x y Hx Hy. apply (in_chunk d) in Hx; [|auto|lia]. apply (in_next d) in Hy; [|auto|lia].
    destruct Hx as (_ & Hxd & Hxl & Hxn). destruct Hy as (_ & Hyd & Hyl).
    right. split; [lia|]. exists n. rewrite (Hyl n) by lia. split; [lia|].
    intros j Hj. rewrite Hxl, Hyl by lia. reflexivity.
Qed.

Lemma level_next d T : level d T -> level (d + 1) (next T).
Proof.
  intros HL. constructor.
  - intros n m Hn. apply (in_next d); auto; lia.
  - intros n Hn. apply (next_sorted d); auto; lia.
Qed.

(** ** gen *)
Lemma gen_i_ok n cap : (n < nv)%nat -> forall (s basis : list mono) i (acc : list mono),
  skipn i basis = s -> Forall (fun m => length m = nv /\ ex m n < i32_max) s ->
  (length acc + length (filter (keep nv lms) (map (bump n) s)) < cap \/ length acc + length s <= cap)%nat ->
  gen_i nv n cap lms basis i (length s) acc = Some (acc ++ filter (keep nv lms) (map (bump n) s)).
Proof.
  intros Hn. induction s as [|b s IH]; intros basis i acc Hs Hf Hc.
  - cbn. rewrite app_nil_r. reflexivity.
  - cbn [length gen_i].
    assert (Hnth : nth_error basis i = Some b).
    { rewrite <- (Nat.add_0_r i). rewrite <- (firstn_skipn i basis) at 1. rewrite Hs.
      assert (Hi : (i < length basis)%nat).
      { destruct (Nat.lt_ge_cases i (length basis)); auto. rewrite skipn_all2 in Hs by lia. discriminate. }
      rewrite nth_error_app2; rewrite firstn_length_le by lia; [|lia]. replace (i + 0 - i)%nat with 0%nat by lia. reflexivity. }
    assert (Hs' : skipn (S i) basis = s).
    { clear - Hs. revert i Hs. induction basis as [|x l IHl]; intros i Hs; [destruct i; discriminate|].
      destruct i as [|i]; cbn in Hs |- *; [inversion Hs; auto|]. apply IHl; auto. }
    rewrite Hnth. cbn [obind]. inversion Hf as [|? ? [Hbl Hbx] Hf']; subst x l.
    assert (Hacc : (length acc <? cap)%nat = true).
    { apply Nat.ltb_lt. cbn in Hc. lia. }
    rewrite Hacc, incr_ok by (auto; lia). cbn [obind]. rewrite dvb_some by (rewrite bump_length; auto). cbn [obind].
    cbn [map filter]. cbn [map filter] in Hc.
    assert (Ek : keep nv lms (bump n b) = negb (dvb nv lms (bump n b))) by reflexivity.
    rewrite Ek in Hc |- *. destruct (dvb nv lms (bump n b)) eqn:E; cbn [negb] in *.
    + apply IH; auto. cbn in Hc. lia.
    + rewrite IH; auto.
      * rewrite <- app_assoc. reflexivity.
      * rewrite app_length. cbn in Hc |- *. lia.
Qed.

Lemma filter_le {A} (f : A -> bool) l : (length (filter f l) <= length l)%nat.
Proof. induction l as [|x l IH]; cbn; [lia|]. destruct (f x); cbn; lia. Qed.

Definition tot_attempts (T : nat -> list mono) (n : nat) : nat := list_sum (map (fun v => length (T (S v))) (seq 0 n)).

(** the index table of a level whose suffixes are T *)
Definition ind_of (T : nat -> list mono) (tot : nat) : list nat := map (fun p => (tot - length (T (nv - p)))%nat) (seq 0 nv).

Lemma nth_ind_of T tot p : (p < nv)%nat -> nth_error (ind_of T tot) p = Some (tot - length (T (nv - p)))%nat.
Proof.
  intros Hp. unfold ind_of. rewrite nth_error_map. rewrite (nth_error_nth' _ 0%nat) by (rewrite seq_length; auto).
  rewrite seq_nth by auto. reflexivity.
Qed.

Lemma skipn_suffix (pre s basis : list mono) : basis = pre ++ s -> skipn (length basis - length s) basis = s.
Proof.
  intros ->. rewrite app_length. replace (length pre + length s - length s)%nat with (length pre) by lia.
  rewrite skipn_app, Nat.sub_diag. rewrite skipn_all2 by lia. reflexivity.
Qed.

Lemma tot_attempts_S T n : tot_attempts T (S n) = (tot_attempts T n + length (T (S n)))%nat.
Proof. unfold tot_attempts. rewrite seq_S, map_app, list_sum_app. cbn. lia. Qed.

Lemma gen_n_ok (T : nat -> list mono) (basis : list mono) cap : (forall n, (1 <= n <= nv)%nat -> exists pre, basis = pre ++ T n) ->
  (forall n, (n < nv)%nat -> Forall (fun m => length m = nv /\ ex m n < i32_max) (T (S n))) ->
  forall n (acc : list mono), (n <= nv)%nat ->
  (length acc + length (next T n) < cap \/ length acc + tot_attempts T n <= cap)%nat ->
  gen_n nv cap (ind_of T (length basis)) (length basis) lms basis n acc = Some (acc ++ next T n).
Proof.
  intros Hsuf Hf. induction n as [|n IH]; intros acc Hn Hc.
  - cbn. rewrite app_nil_r. reflexivity.
  - cbn [gen_n]. rewrite nth_ind_of by lia. cbn [obind]. replace (nv - (nv - 1 - n))%nat with (S n) by lia.
    destruct (Hsuf (S n)) as [pre Hpre]; [lia|].
    replace (length basis - (length basis - length (T (S n))))%nat with (length (T (S n))).
    2:{ rewrite Hpre, app_length. lia. }
    rewrite tot_attempts_S in Hc. cbn [next] in Hc. rewrite app_length in Hc.
    rewrite gen_i_ok.
    + cbn [obind]. rewrite IH; [|lia|].
      * rewrite <- app_assoc. reflexivity.
      * rewrite app_length. fold (chunk T n).
        assert (length (chunk T n) <= length (T (S n)))%nat.
        { unfold chunk. rewrite <- (map_length (bump n) (T (S n))). apply filter_le. }
        lia.
    + lia.
    + apply skipn_suffix with pre. auto.
    + apply Hf. lia.
    + fold (chunk T n). lia.
Qed.

(** ** update_indices *)
Lemma set_nth_ok v : forall i l, (i < length l)%nat -> exists l', set_nth i v l = Some l' /\ length l' = length l /\
  forall j, nth_error l' j = if (j =? i)%nat then Some v else nth_error l j.
Proof.
  induction i as [|i IH]; intros [|x l] H; cbn in H; try lia.
  - exists (v :: l). split; [reflexivity|]. split; [reflexivity|]. intros [|j]; reflexivity.
  - destruct (IH l) as (l' & H1 & H2 & H3); [lia|]. exists (x :: l'). cbn [set_nth]. rewrite H1. split; [reflexivity|].
    split; [cbn; lia|]. intros [|j]; cbn; auto.
Qed.

Lemma fill_end_ok tot : forall n ind, (n < nv)%nat -> length ind = nv ->
  exists ind', fill_end nv tot n ind = Some ind' /\ length ind' = nv /\
  forall p, nth_error ind' p = if ((nv - n - 1 <=? p) && (p <? nv))%nat then Some tot else nth_error ind p.
Proof.
  induction n as [|n IH]; intros ind Hn Hl; cbn [fill_end].
  - destruct (set_nth_ok tot (nv - 0 - 1) ind) as (l & H1 & H2 & H3); [lia|]. rewrite H1. cbn [obind].
    exists l. split; auto. split; [lia|]. intros p. rewrite H3.
    destruct (Nat.eqb_spec p (nv - 0 - 1)), (Nat.leb_spec (nv - 0 - 1) p), (Nat.ltb_spec p nv); cbn [andb]; auto; lia.
  - destruct (set_nth_ok tot (nv - S n - 1) ind) as (l & H1 & H2 & H3); [lia|]. rewrite H1. cbn [obind].
    destruct (IH l) as (l' & H4 & H5 & H6); [lia|lia|]. rewrite H4. exists l'. split; auto. split; auto.
    intros p. rewrite H6, H3.
    destruct (Nat.eqb_spec p (nv - S n - 1)), (Nat.leb_spec (nv - S n - 1) p), (Nat.leb_spec (nv - n - 1) p), (Nat.ltb_spec p nv);
      cbn [andb]; auto; lia.
Qed.

Lemma skipn_cons_nth (basis : list mono) i b s : skipn i basis = b :: s -> nth_error basis i = Some b /\ skipn (S i) basis = s.
Proof.
  revert i. induction basis as [|x l IHl]; intros i Hs; [destruct i; discriminate|].
  destruct i as [|i]; cbn in Hs |- *; [inversion Hs; auto|]. apply IHl; auto.
Qed.

Lemma nth_error_ex (m : mono) i : (i < length m)%nat -> nth_error m i = Some (ex m i).
Proof. intros. unfold ex. apply nth_error_nth'. auto. Qed.

Lemma upd_i_ok (basis : list mono) n (t : list mono) : (S n < nv)%nat -> Forall (fun m => length m = nv) t ->
  (match t with [] => True | m :: _ => ex m (S n) = 0 end) ->
  forall (c : list mono) i ind, skipn i basis = c ++ t -> Forall (fun m => length m = nv /\ ex m (S n) <> 0) c ->
  length ind = nv -> (i + length c + length t = length basis)%nat ->
  exists ind', upd_i nv (length basis) basis n i (length (c ++ t)) ind = Some ind' /\ length ind' = nv /\
    (forall p, (p < nv - n - 1)%nat -> nth_error ind' p = nth_error ind p) /\
    (t <> [] -> nth_error ind' (nv - n - 1) = Some (length basis - length t)%nat) /\
    (t = [] -> c <> [] \/ (forall p, (nv - n - 1 <= p < nv)%nat -> nth_error ind p = Some (length basis)) ->
       forall p, (nv - n - 1 <= p < nv)%nat -> nth_error ind' p = Some (length basis)).
Proof.
  intros Hn Ht Hh. induction c as [|b c IH]; intros i ind Hs Hc Hl Hlen.
  - destruct t as [|b t].
    + cbn. exists ind. split; auto. split; auto. split; auto. split; [congruence|]. intros _ [H|H]; [congruence|auto].
    + cbn [app length upd_i]. destruct (skipn_cons_nth basis i b t Hs) as [Hb _]. rewrite Hb. cbn [obind].
      assert (Hbl : length b = nv) by (inversion Ht; auto). rewrite nth_error_ex by lia. cbn [obind]. replace (n + 1)%nat with (S n) by lia. rewrite Hh, N.eqb_refl.
      destruct (set_nth_ok i (nv - n - 1) ind) as (l & H3 & H4 & H5); [lia|]. exists l. split; auto. split; [lia|].
      split; [|split; [|congruence]].
      * intros p Hp. rewrite H5. destruct (Nat.eqb_spec p (nv - n - 1)); [lia|auto].
      * intros _. rewrite H5, Nat.eqb_refl. f_equal. cbn [length] in Hlen |- *. lia.
  - cbn [app length upd_i]. destruct (skipn_cons_nth basis i b (c ++ t) Hs) as [Hb Hs']. rewrite Hb. cbn [obind].
    destruct (Forall_inv Hc) as [Hbl Hbx]. pose proof (Forall_inv_tail Hc) as Hc'. rewrite nth_error_ex by lia. cbn [obind]. replace (n + 1)%nat with (S n) by lia.
    destruct (ex b (S n) =? 0) eqn:E; [apply N.eqb_eq in E; congruence|].
    destruct (fill_end_ok (length basis) n ind) as (l & H3 & H4 & H5); [lia|auto|]. rewrite H3. cbn [obind].
    destruct (IH (S i) l Hs' Hc' H4) as (l' & G1 & G2 & G3 & G4 & G5); [cbn [length] in Hlen; lia|].
    exists l'. split; auto. split; auto. split; [|split; [auto|]].
    + intros p Hp. rewrite G3, H5 by auto. destruct (Nat.leb_spec (nv - n - 1) p); cbn [andb]; auto; lia.
    + intros Et _. apply G5; auto. right. intros p Hp. rewrite H5.
      destruct (Nat.leb_spec (nv - n - 1) p), (Nat.ltb_spec p nv); cbn [andb]; auto; lia.
Qed.

Lemma next_suffix T n : (n <= nv)%nat -> exists pre, next T nv = pre ++ next T n.
Proof.
  intros H. remember (nv - n)%nat as k. revert n H Heqk. induction k as [|k IH]; intros n H Hk.
  - replace n with nv by lia. exists []. reflexivity.
  - destruct (IH (S n)) as [pre Hp]; [lia|lia|]. exists (pre ++ chunk T n). rewrite Hp. cbn [next].
    rewrite <- app_assoc. reflexivity.
Qed.

Lemma upd_n_ok d T basis old : level d T -> basis = old ++ next T nv -> next T nv <> [] ->
  forall n ind, (n < nv)%nat -> length ind = nv ->
  (forall v, (n <= v < nv)%nat -> nth_error ind (nv - 1 - v) = Some (length basis - length (next T (S v)))%nat) ->
  (next T (S n) = [] -> forall v, (v < n)%nat -> nth_error ind (nv - 1 - v) = Some (length basis)) ->
  exists ind', upd_n nv (length basis) basis n ind = Some ind' /\ length ind' = nv /\
  forall v, (v < nv)%nat -> nth_error ind' (nv - 1 - v) = Some (length basis - length (next T (S v)))%nat.
Proof.
  intros HL Hb Hne. induction n as [|n IH]; intros ind Hn Hl Hok He; cbn [upd_n].
  - exists ind. split; auto. split; auto. intros v Hv. apply Hok. lia.
  - replace (nv - 1 - n - 1)%nat with (nv - 1 - S n)%nat by lia. rewrite Hok by lia. cbn [obind].
    destruct (next_suffix T (S (S n))) as [pre Hpre]; [lia|].
    assert (Hlen : (length (next T (S (S n))) <= length basis)%nat) by (rewrite Hb, Hpre, !app_length; lia).
    replace (length basis - (length basis - length (next T (S (S n)))))%nat with (length (next T (S (S n)))) by lia.
    assert (Hsk : skipn (length basis - length (next T (S (S n)))) basis = next T (S (S n))).
    { apply skipn_suffix with (old ++ pre). rewrite Hb, Hpre, app_assoc. reflexivity. }
    assert (E2 : next T (S (S n)) = chunk T (S n) ++ next T (S n)) by reflexivity.
    rewrite E2 in Hsk, Hlen, He |- *.
    assert (E3 : length (chunk T (S n) ++ next T (S n)) = (length (chunk T (S n)) + length (next T (S n)))%nat) by apply app_length.
    destruct (upd_i_ok basis n (next T (S n))) with (c := chunk T (S n)) (i := (length basis - length (chunk T (S n) ++ next T (S n)))%nat) (ind := ind)
      as (ind' & G1 & G2 & G3 & G4 & G5); auto.
    + apply Forall_forall. intros m Hm. apply (in_next d) in Hm; [apply Hm|auto|lia].
    + destruct (next T (S n)) as [|m r] eqn:E; auto.
      assert (Hm : In m (next T (S n))) by (rewrite E; left; auto). apply (in_next d) in Hm; [|auto|lia]. apply Hm. lia.
    + apply Forall_forall. intros m Hm. apply (in_chunk d) in Hm; [|auto|lia]. split; apply Hm.
    + lia.
    + rewrite G1. cbn [obind]. apply IH; auto; [lia| |].
      * intros v Hv. destruct (Nat.eq_dec v n) as [->|Hvn].
        -- replace (nv - 1 - n)%nat with (nv - n - 1)%nat by lia.
           destruct (next T (S n)) as [|m r] eqn:E.
           ++ replace (length basis - length (@nil mono))%nat with (length basis) by (cbn; lia). apply G5; auto; [|lia].
              destruct (chunk T (S n)) as [|m r] eqn:Ec; [right|left; congruence].
              intros p Hp. replace p with (nv - 1 - (nv - 1 - p))%nat by lia. apply He; [reflexivity|lia].
           ++ apply G4. congruence.
        -- rewrite G3 by lia. apply Hok. lia.
      * intros E v Hv. destruct (next T (S n)) as [|m r] eqn:E'; [|discriminate].
        apply G5; auto; [|lia].
        destruct (chunk T (S n)) as [|m r] eqn:Ec; [right|left; congruence].
        intros p Hp. replace p with (nv - 1 - (nv - 1 - p))%nat by lia. apply He; [reflexivity|lia].
Qed.

Lemma nth_error_ext {A} (a b : list A) : (forall p, nth_error a p = nth_error b p) -> a = b.
Proof.
  revert b. induction a as [|x a IH]; intros [|y b] H; auto.
  - specialize (H 0%nat). discriminate. - specialize (H 0%nat). discriminate.
  - f_equal; [specialize (H 0%nat); cbn in H; congruence|]. apply IH. intros p. apply (H (S p)).
Qed.

Lemma update_indices_ok d T old ind : level d T -> next T nv <> [] -> (1 <= nv)%nat -> length ind = nv ->
  update_indices nv ind (old ++ next T nv) (length old) (length (next T nv)) =
  Some (ind_of (next T) (length (old ++ next T nv))).
Proof.
  intros HL Hne Hnv Hl. unfold update_indices.
  destruct (set_nth_ok (length old) 0 ind) as (l & H1 & H2 & H3); [lia|]. rewrite H1. cbn [obind].
  rewrite <- app_length.
  destruct (upd_n_ok d T (old ++ next T nv) old HL eq_refl Hne (nv - 1) l) as (ind' & G1 & G2 & G3); [lia|lia| | |].
  - intros v Hv. replace (nv - 1 - v)%nat with 0%nat by lia. rewrite H3. cbn [Nat.eqb]. f_equal.
    replace (S v) with nv by lia. rewrite app_length. lia.
  - replace (S (nv - 1)) with nv by lia. congruence.
  - rewrite G1. f_equal. apply nth_error_ext. intros p.
    destruct (Nat.lt_ge_cases p nv) as [Hp|Hp].
    + rewrite nth_ind_of by auto. replace p with (nv - 1 - (nv - 1 - p))%nat at 1 by lia. rewrite G3 by lia.
      replace (S (nv - 1 - p)) with (nv - p)%nat by lia. reflexivity.
    + rewrite (proj2 (nth_error_None _ _)) by lia. symmetry. apply nth_error_None. unfold ind_of.
      rewrite map_length, seq_length. auto.
Qed.
End S.
