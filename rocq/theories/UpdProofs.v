(** The pair update loses no pair: whatever relation has the formal properties of "the S-polynomial has a standard
    representation", if it holds for the pairs kept it holds for all pairs. *)
From Coq Require Import ZArith NArith Arith List Bool Lia Permutation.
From Verif Require Import MonoSpec MonoModel MonoSpecProofs GbSpec GbProofs LaModel F4Model.
Import ListNotations.
Open Scope Z_scope.

Definition coprime (a b : mono) : Prop := forall k, ex a k = 0%N \/ ex b k = 0%N.
Record fam (nv n : nat) (L : nat -> mono) (D : mono -> nat -> nat -> Prop) : Prop := {
  f_refl : forall t i, (i < n)%nat -> D t i i;
  f_sym : forall t i j, D t i j -> D t j i;
  f_trans : forall t i j k, D t i j -> D t j k -> D t i k;
  f_up : forall s t i j, (i < n)%nat -> (j < n)%nat -> length s = nv -> length t = nv -> mdvd (L i) s -> mdvd (L j) s -> mdvd s t -> D s i j -> D t i j;
  f_prod : forall i j, (i < n)%nat -> (j < n)%nat -> coprime (L i) (L j) -> D (mlcm (L i) (L j)) i j }.
Definition covers (nv n : nat) (L : nat -> mono) (Q : nat -> nat -> Prop) : Prop :=
  forall D, fam nv n L D -> (forall i j, Q i j -> D (mlcm (L i) (L j)) i j) -> forall i j, (i < n)%nat -> (j < n)%nat -> D (mlcm (L i) (L j)) i j.

Section Upd.
Variables (nv n : nat) (L : nat -> mono).
Hypothesis HL : forall i, (i <= n)%nat -> length (L i) = nv.
Let lcm i j := mlcm (L i) (L j).
Lemma lcm_len i j : (i <= n)%nat -> (j <= n)%nat -> length (lcm i j) = nv.
Proof. intros Hi Hj. unfold lcm. rewrite mlcm_length; rewrite ?HL; auto. Qed.
Lemma lcm_l i j : (i <= n)%nat -> (j <= n)%nat -> mdvd (L i) (lcm i j).
Proof. intros Hi Hj. apply mlcm_dvd_l. rewrite !HL; auto. Qed.
Lemma lcm_r i j : (i <= n)%nat -> (j <= n)%nat -> mdvd (L j) (lcm i j).
Proof. intros Hi Hj. apply mlcm_dvd_r. rewrite !HL; auto. Qed.
Lemma lcm_least i j t : (i <= n)%nat -> (j <= n)%nat -> mdvd (L i) t -> mdvd (L j) t -> mdvd (lcm i j) t.
Proof. intros Hi Hj. apply mlcm_least. rewrite !HL; auto. Qed.

Lemma covers_local k (Q : nat -> nat -> Prop) : (k <= S n)%nat -> (forall i j, Q i j -> (i < k)%nat /\ (j < k)%nat) -> covers nv k L Q -> forall D, fam nv k L D -> forall t, length t = nv ->
  (forall i j, Q i j -> mdvd (lcm i j) t -> D (lcm i j) i j) -> forall i j, (i < k)%nat -> (j < k)%nat -> mdvd (L i) t -> mdvd (L j) t -> D t i j.
Proof.
  intros Hk HQ HC D F t Ht H i j Hi Hj Di Dj.
  assert (F' : fam nv k L (fun s a b => mdvd s t -> D s a b)).
  { constructor.
    - intros s a Ha _. apply (f_refl _ _ _ _ F); assumption.
    - intros s a b Hab Hs. apply (f_sym _ _ _ _ F). auto.
    - intros s a b c H1 H2 Hs. apply (f_trans _ _ _ _ F s a b c); auto.
    - intros s s' a b Ha Hb Ls Ls' Da Db Ds Hab Hs'. apply (f_up _ _ _ _ F s s'); auto. apply Hab. apply (mdvd_trans s s' t); assumption.
    - intros a b Ha Hb Hp _. apply (f_prod _ _ _ _ F); assumption. }
  pose proof (HC _ F' H i j Hi Hj) as R. cbv beta in R. fold (lcm i j) in R.
  assert (Dl : mdvd (lcm i j) t) by (apply lcm_least; auto; lia).
  apply (f_up _ _ _ _ F (lcm i j) t); auto; [apply lcm_len; lia|apply lcm_l; lia|apply lcm_r; lia].
Qed.

Variables (Q Q' : nat -> nat -> Prop).
Hypothesis HQ : forall i j, Q i j -> (i < n)%nat /\ (j < n)%nat.
Hypothesis HC : covers nv n L Q.
Hypothesis Hold : forall i j, Q i j -> Q' i j \/ (mdvd (L n) (lcm i j) /\ lcm i n <> lcm i j /\ lcm j n <> lcm i j).
Definition NR (i : nat) : Prop :=
  Q' i n \/ coprime (L i) (L n) \/ (exists k, (k < n)%nat /\ mdvd (lcm k n) (lcm i n) /\ lcm k n <> lcm i n) \/
  (exists k, (k < n)%nat /\ lcm k n = lcm i n /\ (Q' k n \/ coprime (L k) (L n))).
Hypothesis Hnew : forall i, (i < n)%nat -> NR i \/ exists r, (r < n)%nat /\ mdvd (L r) (L i) /\ NR r.

Lemma strict_deg a b : length a = nv -> length b = nv -> mdvd a b -> a <> b -> (mdeg a < mdeg b)%N.
Proof.
  intros Ha Hb Hd Hne. rewrite <- (mul_quo nv a b Ha Hb Hd). assert (Lq : length (mquo b a) = nv) by (rewrite mquo_length; lia). rewrite mdeg_mmul by lia.
  destruct (N.eq_dec (mdeg (mquo b a)) 0) as [E|E]; [|lia]. exfalso. apply Hne. apply mono_ext; [lia|]. intros i.
  assert (Z0 : forall (m : mono) j, mdeg m = 0%N -> ex m j = 0%N).
  { clear. induction m as [|x m IH]; intros j H; [destruct j; reflexivity|]. unfold mdeg in H. cbn [fold_right] in H. change (fold_right N.add 0%N m) with (mdeg m) in H. destruct j as [|j]; [unfold ex; cbn; lia|]. apply (IH j). lia. }
  specialize (Z0 _ i E). rewrite ex_mquo in Z0 by lia. specialize (Hd i). lia.
Qed.

Theorem insert_covers : covers nv (S n) L Q'.
Proof.
  intros D F HD.
  assert (F0 : fam nv n L D).
  { constructor.
    - intros. apply (f_refl _ _ _ _ F). lia.
    - apply (f_sym _ _ _ _ F).
    - apply (f_trans _ _ _ _ F).
    - intros s t i j Hi Hj. apply (f_up _ _ _ _ F s t); lia.
    - intros i j Hi Hj. apply (f_prod _ _ _ _ F); lia. }
  assert (Key : forall d t, mdeg t = d -> length t = nv -> forall i j, (i <= n)%nat -> (j <= n)%nat -> mdvd (L i) t -> mdvd (L j) t -> D t i j).
  { intros d. pattern d. apply (well_founded_ind N.lt_wf_0). clear d. intros d IHd t Hd Ht.
    assert (IH : forall s, length s = nv -> mdvd s t -> s <> t -> forall i j, (i <= n)%nat -> (j <= n)%nat -> mdvd (L i) s -> mdvd (L j) s -> D s i j).
    { intros s Hs Ds Hne. apply (IHd (mdeg s)); [|reflexivity|assumption]. subst d. apply strict_deg; assumption. } clear IHd.
    assert (Old : forall i j, (i < n)%nat -> (j < n)%nat -> mdvd (L i) t -> mdvd (L j) t -> D t i j).
    { apply (covers_local n Q); auto. intros i j Hq Dl. destruct (HQ i j Hq) as (Hi & Hj). destruct (Hold i j Hq) as [Hk|(Dn & N1 & N2)]; [apply HD; assumption|].
      pose proof (lcm_len i j ltac:(lia) ltac:(lia)) as Lij. pose proof (lcm_len i n ltac:(lia) ltac:(lia)) as Lin. pose proof (lcm_len j n ltac:(lia) ltac:(lia)) as Ljn.
      assert (Din : mdvd (lcm i n) (lcm i j)) by (apply lcm_least; [lia|lia|apply lcm_l; lia|assumption]).
      assert (Djn : mdvd (lcm j n) (lcm i j)) by (apply lcm_least; [lia|lia|apply lcm_r; lia|assumption]).
      assert (G : forall a, (a < n)%nat -> mdvd (L a) (lcm i j) -> mdvd (lcm a n) (lcm i j) -> lcm a n <> lcm i j -> D (lcm i j) a n).
      { intros a Ha Da D1 N. pose proof (lcm_len a n ltac:(lia) ltac:(lia)) as Lan. apply (f_up _ _ _ _ F (lcm a n) (lcm i j)); try lia; try assumption; [apply lcm_l; lia|apply lcm_r; lia|].
        apply IH; [assumption|apply (mdvd_trans _ (lcm i j)); assumption| |lia|lia|apply lcm_l; lia|apply lcm_r; lia].
        intros E. apply N. apply mdvd_antisym; [lia|assumption|]. rewrite E. assumption. }
      apply (f_trans _ _ _ _ F _ i n j); [apply G; auto; apply lcm_l; lia|]. apply (f_sym _ _ _ _ F). apply G; auto. apply lcm_r; lia. }
    assert (NRD : forall i, (i < n)%nat -> NR i -> mdvd (L i) t -> mdvd (L n) t -> D t i n).
    { intros i Hi HNR Di Dn. pose proof (lcm_len i n ltac:(lia) ltac:(lia)) as Lin. assert (Dl : mdvd (lcm i n) t) by (apply lcm_least; auto; lia).
      assert (Up : forall k, (k < n)%nat -> mdvd (lcm k n) t -> D (lcm k n) k n -> D t i n).
      { intros k Hk Dk Hd'. pose proof (lcm_len k n ltac:(lia) ltac:(lia)) as Lkn. apply (f_trans _ _ _ _ F t i k n).
        - apply Old; auto. apply (mdvd_trans _ (lcm k n)); [apply lcm_l; lia|assumption].
        - apply (f_up _ _ _ _ F (lcm k n) t); try lia; auto; [apply lcm_l; lia|apply lcm_r; lia]. }
      destruct HNR as [H|[H|[(k & Hk & Dk & Nk)|(k & Hk & Ek & [H|H])]]].
      - apply (Up i); auto. apply HD. assumption.
      - apply (Up i); auto. apply (f_prod _ _ _ _ F); auto; lia.
      - assert (Dkt : mdvd (lcm k n) t) by (apply (mdvd_trans _ (lcm i n)); assumption). pose proof (lcm_len k n ltac:(lia) ltac:(lia)) as Lkn. apply (Up k); auto.
        apply IH; auto; [|lia|apply lcm_l; lia|apply lcm_r; lia]. intros E. apply Nk. apply mdvd_antisym; [lia|assumption|]. rewrite E. assumption.
      - apply (Up k); auto; [rewrite Ek; assumption|]. apply HD. assumption.
      - apply (Up k); auto; [rewrite Ek; assumption|]. apply (f_prod _ _ _ _ F); auto; lia. }
    assert (New : forall i, (i < n)%nat -> mdvd (L i) t -> mdvd (L n) t -> D t i n).
    { intros i Hi Di Dn. destruct (Hnew i Hi) as [H|(r & Hr & Dr & H)]; [apply NRD; assumption|].
      assert (Drt : mdvd (L r) t) by (apply (mdvd_trans _ (L i)); assumption).
      apply (f_trans _ _ _ _ F t i r n); [apply Old; auto|apply NRD; auto]. }
    intros i j Hi Hj Di Dj. destruct (Nat.eq_dec i n) as [->|]; destruct (Nat.eq_dec j n) as [->|].
    - apply (f_refl _ _ _ _ F). lia.
    - apply (f_sym _ _ _ _ F). apply New; auto; lia.
    - apply New; auto; lia.
    - apply Old; auto; lia. }
  intros i j Hi Hj. fold (lcm i j). apply (Key (mdeg (lcm i j)) (lcm i j)); [reflexivity|apply lcm_len; lia|lia|lia|apply lcm_l; lia|apply lcm_r; lia].
Qed.
End Upd.

Lemma covers_ext nv n L L' (Q : nat -> nat -> Prop) : (forall i, (i < n)%nat -> L i = L' i) -> (forall i j, Q i j -> (i < n)%nat /\ (j < n)%nat) -> covers nv n L Q -> covers nv n L' Q.
Proof.
  intros E HQ HC D F HD i j Hi Hj. rewrite <- !E by assumption. apply HC; [|intros a b Hab; destruct (HQ a b Hab); rewrite !E by assumption; apply HD; assumption|assumption|assumption].
  constructor.
  - apply (f_refl _ _ _ _ F).
  - apply (f_sym _ _ _ _ F).
  - apply (f_trans _ _ _ _ F).
  - intros s t a b Ha Hb Hs Ht. rewrite !E by assumption. apply (f_up _ _ _ _ F); assumption.
  - intros a b Ha Hb. rewrite !E by assumption. apply (f_prod _ _ _ _ F); assumption.
Qed.

(** * Lists *)
Lemma nth_lset {A} (l : list A) i x k : nth_error (lset l i x) k = if (k =? i)%nat then (match nth_error l k with Some _ => Some x | None => None end) else nth_error l k.
Proof.
  revert i k. induction l as [|y l IH]; intros i k.
  - destruct i, k; cbn; try reflexivity; destruct (k =? i)%nat; reflexivity.
  - destruct i as [|i], k as [|k]; cbn; try reflexivity. rewrite IH. reflexivity.
Qed.
Lemma lset_len {A} (l : list A) i x : length (lset l i x) = length l.
Proof. revert i. induction l as [|y l IH]; intros [|i]; cbn; auto. Qed.
Lemma insert_perm {A} le (x : A) l : Permutation (insert_by le x l) (x :: l).
Proof. induction l as [|y l IH]; cbn; [reflexivity|]. destruct (le x y); [reflexivity|]. rewrite IH. apply perm_swap. Qed.
Lemma sort_perm {A} le (l : list A) : Permutation (sort_by le l) l.
Proof. induction l as [|x l IH]; cbn; [reflexivity|]. unfold sort_by in *. cbn. rewrite insert_perm. rewrite IH. reflexivity. Qed.
Lemma fold_seq {A} (f : A -> nat -> A) (I : nat -> A -> Prop) n a : I O a -> (forall i x, (i < n)%nat -> I i x -> I (S i) (f x i)) -> I n (fold_left f (seq 0 n) a).
Proof.
  intros H0 Hs. assert (G : forall m i x, (i + m = n)%nat -> I i x -> I n (fold_left f (seq i m) x)).
  { induction m as [|m IH]; intros i x E H; cbn; [replace n with i by lia; exact H|]. apply IH; [lia|]. apply Hs; [lia|exact H]. }
  apply (G n O a); auto.
Qed.
Lemma mono_eqb_iff a b : mono_eqb a b = true <-> a = b.
Proof. unfold mono_eqb. destruct (mono_dec a b); split; congruence. Qed.

(** * The two passes over the new pairs *)
Section Passes.
Variable l0 : list spair.
Hypothesis H0 : forall x, In x l0 -> -2 <= s_deg x.
Variable nv : nat.
Hypothesis Hlen : forall x, In x l0 -> length (s_lcm x) = nv.
Definition real_multiple (x : spair) : Prop := exists y, In y l0 /\ mdvd (s_lcm y) (s_lcm x) /\ s_lcm y <> s_lcm x.
Definition R1 (x0 x : spair) : Prop := x = x0 \/ (x = set_deg x0 (-1) /\ real_multiple x0).
Definition rel1 (l : list spair) : Prop := length l = length l0 /\ forall k x, nth_error l k = Some x -> exists x0, nth_error l0 k = Some x0 /\ R1 x0 x.
Lemma R1_same x0 x : R1 x0 x -> s_lcm x = s_lcm x0 /\ s_g1 x = s_g1 x0 /\ s_g2 x = s_g2 x0 /\ (s_deg x = s_deg x0 \/ s_deg x = -1).
Proof. intros [->|[-> _]]; cbn; auto. Qed.
Lemma mult_step_rel l i : rel1 l -> rel1 (mult_step l i).
Proof.
  intros [Hl H]. unfold mult_step. destruct (nth_error l i) as [x|] eqn:Ex; [|split; assumption]. destruct (s_deg x <? 0) eqn:Ed; [split; assumption|].
  destruct (existsb _ (firstn i l)) eqn:Eb; [|split; assumption]. apply existsb_exists in Eb as (y & Hy & Hb). rewrite !andb_true_iff in Hb. destruct Hb as (((Hy1 & Hy2) & Hy3) & Hy4).
  split; [rewrite lset_len; exact Hl|]. intros k z. rewrite nth_lset. destruct (Nat.eqb_spec k i) as [->|]; [|apply H]. rewrite Ex. intros E. injection E as <-. destruct (H _ _ Ex) as (x0 & Hx0 & HR). exists x0. split; [exact Hx0|].
  right. destruct HR as [->|[-> HR]]; [|split; [reflexivity|exact HR]]. split; [reflexivity|].
  assert (Hy' : In y l) by (rewrite <- (firstn_skipn i l); apply in_or_app; left; exact Hy). apply In_nth_error in Hy' as (k & Hk). destruct (H _ _ Hk) as (y0 & Hy0 & HRy). destruct (R1_same _ _ HRy) as (E1 & _).
  exists y0. split; [eapply nth_error_In; eassumption|]. rewrite <- E1. split; [apply mdvdb_iff; [rewrite E1, !Hlen; [reflexivity| |]; eapply nth_error_In; eassumption|exact Hy4]|]. intros E. rewrite E in Hy2. destruct (mono_eqb (s_lcm x0) (s_lcm x0)) eqn:EE; [discriminate|].
  assert (mono_eqb (s_lcm x0) (s_lcm x0) = true) by (apply mono_eqb_iff; reflexivity). congruence.
Qed.
Lemma mult_steps_rel : rel1 (steps mult_step l0).
Proof.
  unfold steps. apply (fold_seq mult_step (fun _ l => rel1 l)).
  - split; [reflexivity|]. intros k x Hx. exists x. split; [exact Hx|]. left. reflexivity.
  - intros i x _. apply mult_step_rel.
Qed.

Variable l1 : list spair.
Hypothesis Hr1 : rel1 l1.
Lemma l1_deg x : In x l1 -> -2 <= s_deg x.
Proof. intros Hx. apply In_nth_error in Hx as (k & Hk). destruct Hr1 as [_ H]. destruct (H _ _ Hk) as (x0 & Hx0 & HR). apply nth_error_In in Hx0. specialize (H0 _ Hx0). destruct (R1_same _ _ HR) as (_ & _ & _ & [->| ->]); lia. Qed.
Definition killA (x1 : spair) : Prop := exists y, In y l1 /\ s_deg y = -2 /\ s_lcm y = s_lcm x1.
Definition R2 (i : nat) (l : list spair) (x1 x : spair) : Prop :=
  x = x1 \/ (x = set_deg x1 (-1) /\ (killA x1 \/ exists j y, (j < i)%nat /\ nth_error l j = Some y /\ 0 <= s_deg y /\ s_lcm y = s_lcm x1)).
Definition rel2 (i : nat) (l : list spair) : Prop := length l = length l1 /\ forall k x, nth_error l k = Some x -> exists x1, nth_error l1 k = Some x1 /\ R2 i l x1 x.
Lemma R2_same i l x1 x : R2 i l x1 x -> s_lcm x = s_lcm x1 /\ s_g1 x = s_g1 x1 /\ s_g2 x = s_g2 x1 /\ (x = x1 \/ s_deg x = -1).
Proof. intros [->|[-> _]]; cbn; auto. Qed.
Lemma same_step_rel l i : rel2 i l -> rel2 (S i) (same_step l i).
Proof.
  intros [Hl H]. assert (Keep : rel2 (S i) l).
  { split; [exact Hl|]. intros k x Hk. destruct (H k x Hk) as (x1 & Hx1 & HR). exists x1. split; [exact Hx1|]. destruct HR as [->|[-> [HA|(j & y & Hj & Hy)]]]; [left; reflexivity|right; split; [reflexivity|left; exact HA]|].
    right. split; [reflexivity|right]. exists j, y. split; [lia|exact Hy]. }
  unfold same_step. destruct (nth_error l i) as [x|] eqn:Ex; [|exact Keep]. destruct (s_deg x =? -1) eqn:Ed; [exact Keep|]. apply Z.eqb_neq in Ed.
  destruct (H _ _ Ex) as (x1 & Hx1 & HRx). destruct (R2_same _ _ _ _ HRx) as (_ & _ & _ & [Exx|?]); [subst x1|lia].
  destruct (s_deg x =? -2) eqn:Ed2.
  - apply Z.eqb_eq in Ed2. split; [rewrite map_length; exact Hl|]. intros k z Hz. rewrite nth_error_map in Hz. destruct (nth_error l k) as [w|] eqn:Ew; [|discriminate]. cbn in Hz. injection Hz as <-.
    destruct (H _ _ Ew) as (w1 & Hw1 & HRw). destruct (R2_same _ _ _ _ HRw) as (El & E1 & E2 & _). exists w1. split; [exact Hw1|]. destruct (mono_eqb (s_lcm w) (s_lcm x)) eqn:Em.
    + apply mono_eqb_iff in Em. right. split; [destruct HRw as [->|[-> _]]; reflexivity|]. left. exists x. split; [eapply nth_error_In; eassumption|]. split; [exact Ed2|]. congruence.
    + destruct HRw as [->|[-> [HA|(j & y & Hj & Hy & Dy & Ly)]]]; [left; reflexivity|right; split; [reflexivity|left; exact HA]|]. right. split; [reflexivity|right]. exists j, y. split; [lia|]. rewrite nth_error_map, Hy. cbn.
      cbn in Em. rewrite Ly, Em. auto.
  - apply Z.eqb_neq in Ed2. assert (Dx : 0 <= s_deg x) by (pose proof (l1_deg x (nth_error_In _ _ Hx1)); lia).
    destruct (existsb _ (firstn i l)) eqn:Eb; [|exact Keep]. apply existsb_exists in Eb as (y & Hy & Hb). rewrite !andb_true_iff in Hb. destruct Hb as ((Hy1 & Hy2) & Hy3). apply mono_eqb_iff in Hy3.
    apply In_nth_error in Hy as (j & Hj). assert (Lj : (j < i)%nat).
    { assert (j < length (firstn i l))%nat by (apply nth_error_Some; congruence). rewrite firstn_length in H1. lia. }
    assert (Hjl : nth_error l j = Some y).
    { rewrite <- (firstn_skipn i l). rewrite nth_error_app1; [exact Hj|]. apply nth_error_Some. congruence. }
    split; [rewrite lset_len; exact Hl|]. intros k z. rewrite nth_lset. destruct (Nat.eqb_spec k i) as [->|Nk].
    + rewrite Ex. intros E. injection E as <-. exists x. split; [exact Hx1|]. right. split; [reflexivity|].
      destruct (H _ _ Hjl) as (y1 & Hy1' & HRy). destruct (R2_same _ _ _ _ HRy) as (Ely & _ & _ & [Eyy|?]); [subst y1|destruct (Z.eqb_spec (s_deg y) (-1)); [discriminate|lia]].
      destruct (Z.eqb_spec (s_deg y) (-1)); [discriminate|]. destruct (Z.eq_dec (s_deg y) (-2)) as [E2|E2].
      * left. exists y. split; [eapply nth_error_In; eassumption|]. split; congruence.
      * right. exists j, y. split; [lia|]. split; [rewrite nth_lset; destruct (Nat.eqb_spec j i); [lia|exact Hjl]|]. split; [pose proof (l1_deg y (nth_error_In _ _ Hy1')); lia|congruence].
    + intros Hk. destruct (H _ _ Hk) as (z1 & Hz1 & HRz). exists z1. split; [exact Hz1|]. destruct HRz as [->|[-> [HA|(j' & y' & Hj' & Hy' & Dy' & Ly')]]]; [left; reflexivity|right; split; [reflexivity|left; exact HA]|].
      right. split; [reflexivity|right]. exists j', y'. split; [lia|]. rewrite nth_lset. destruct (Nat.eqb_spec j' i); [lia|]. auto.
Qed.
Lemma same_steps_rel : rel2 (length l1) (steps same_step l1).
Proof.
  unfold steps. apply (fold_seq same_step rel2).
  - split; [reflexivity|]. intros k x Hx. exists x. split; [exact Hx|]. left. reflexivity.
  - intros i x _. apply same_step_rel.
Qed.
End Passes.
(** What is left of the new pairs after both passes *)
Lemma passes_ok l0 nv : (forall x, In x l0 -> -2 <= s_deg x) -> (forall x, In x l0 -> length (s_lcm x) = nv) -> let l2 := steps same_step (steps mult_step l0) in
  (forall x, In x l2 -> exists x0, In x0 l0 /\ s_lcm x = s_lcm x0 /\ s_g1 x = s_g1 x0 /\ s_g2 x = s_g2 x0 /\ (0 <= s_deg x -> x = x0)) /\
  (forall x0, In x0 l0 -> 0 <= s_deg x0 -> In x0 l2 \/ real_multiple l0 x0 \/ (exists y, In y l0 /\ s_deg y = -2 /\ s_lcm y = s_lcm x0) \/ (exists y, In y l2 /\ 0 <= s_deg y /\ s_lcm y = s_lcm x0)).
Proof.
  intros H0 Hlen l2. pose proof (mult_steps_rel l0 nv Hlen) as Hr1. pose proof (same_steps_rel l0 H0 _ Hr1) as Hr2. fold l2 in Hr2. destruct Hr1 as [L1 R1']. destruct Hr2 as [L2 R2'].
  split.
  - intros x Hx. apply In_nth_error in Hx as (k & Hk). destruct (R2' _ _ Hk) as (x1 & Hx1 & HR2). destruct (R1' _ _ Hx1) as (x0 & Hx0 & HR1). destruct (R2_same _ _ _ _ _ HR2) as (A1 & A2 & A3 & A4). destruct (R1_same _ _ _ HR1) as (B1 & B2 & B3 & B4).
    exists x0. split; [eapply nth_error_In; eassumption|]. split; [congruence|]. split; [congruence|]. split; [congruence|]. intros Hd. destruct A4 as [->|?]; [|lia]. destruct HR1 as [->|[-> _]]; [reflexivity|cbn in Hd; lia].
  - intros x0 Hx0 Hd. apply In_nth_error in Hx0 as (k & Hk). destruct (nth_error (steps mult_step l0) k) as [x1|] eqn:Ek1; [|apply nth_error_None in Ek1; assert (k < length l0)%nat by (apply nth_error_Some; congruence); lia].
    destruct (nth_error l2 k) as [x2|] eqn:Ek2; [|apply nth_error_None in Ek2; assert (k < length (steps mult_step l0))%nat by (apply nth_error_Some; congruence); lia].
    destruct (R1' _ _ Ek1) as (x0' & Hx0' & HR1). assert (x0' = x0) by congruence. subst x0'. destruct (R2' _ _ Ek2) as (x1' & Hx1' & HR2). assert (x1' = x1) by congruence. subst x1'.
    destruct HR1 as [->|[_ HM]]; [|right; left; exact HM]. destruct HR2 as [->|[_ [(y & Hy & Dy & Ly)|(j & y & Hj & Hy & Dy & Ly)]]].
    + left. eapply nth_error_In; eassumption.
    + right. right. left. apply In_nth_error in Hy as (j & Hj). destruct (R1' _ _ Hj) as (y0 & Hy0 & HRy). destruct HRy as [->|[-> _]]; [|cbn in Dy; lia]. exists y0. split; [eapply nth_error_In; eassumption|auto].
    + right. right. right. exists y. split; [eapply nth_error_In; eassumption|auto].
Qed.

(** * States of the pair set *)
Definition Lm (els : list elt) (i : nat) : mono := e_lm (nth i els {| e_deg := 0; e_pol := [] |}).
Definition pairs_of (ps : list spair) (Dn : nat -> nat -> Prop) (i j : nat) : Prop := (exists q, In q ps /\ s_g1 q = i /\ s_g2 q = j) \/ Dn i j.
Record uinv (nv : nat) (b : basis) (ps : list spair) (Dn : nat -> nat -> Prop) : Prop := {
  ui_red : length (b_red b) = length (b_el b);
  ui_els : forall e, In e (b_el b) -> 0 <= e_deg e /\ length (e_lm e) = nv;
  ui_ps : forall q, In q ps -> (s_g1 q < length (b_el b))%nat /\ (s_g2 q < length (b_el b))%nat /\ s_lcm q = mlcm (Lm (b_el b) (s_g1 q)) (Lm (b_el b) (s_g2 q)) /\ 0 <= s_deg q;
  ui_dn : forall i j, Dn i j -> (i < length (b_el b))%nat /\ (j < length (b_el b))%nat;
  ui_dom : forall i, (i < length (b_el b))%nat -> isred (b_red b) i = true -> exists r, (r < length (b_el b))%nat /\ isred (b_red b) r = false /\ mdvd (Lm (b_el b) r) (Lm (b_el b) i);
  ui_cov : covers nv (length (b_el b)) (Lm (b_el b)) (pairs_of ps Dn);
  ui_lo : (b_lo b <= length (b_el b))%nat;
  ui_lmps : forall i, In i (b_lmps b) -> (i < b_lo b)%nat;
  ui_all : forall i, (i < b_lo b)%nat -> isred (b_red b) i = false -> In i (b_lmps b);
  ui_nodup : NoDup (b_lmps b) }.

Lemma Lm_app els e i : (i < length els)%nat -> Lm (els ++ [e]) i = Lm els i.
Proof. intros H. unfold Lm. rewrite app_nth1 by exact H. reflexivity. Qed.
Lemma Lm_last els e : Lm (els ++ [e]) (length els) = e_lm e.
Proof. unfold Lm. rewrite app_nth2 by lia. rewrite Nat.sub_diag. reflexivity. Qed.
Lemma Lm_nth els i g : nth_error els i = Some g -> Lm els i = e_lm g.
Proof. intros H. unfold Lm. rewrite (nth_error_nth _ _ _ H). reflexivity. Qed.
Lemma coprimeb_iff a : forall b, length a = length b -> coprimeb a b = true <-> coprime a b.
Proof.
  induction a as [|x a IH]; intros [|y b] Hl; try discriminate; cbn [coprimeb].
  - split; [intros _ k; left; destruct k; reflexivity|reflexivity].
  - rewrite andb_true_iff, orb_true_iff, !N.eqb_eq, (IH b) by (cbn in Hl; lia). split.
    + intros [H1 H2] [|k]; [exact H1|apply (H2 k)].
    + intros H. split; [apply (H O)|]. intros k. apply (H (S k)).
Qed.
Lemma tdeg_le a b : length a = length b -> mdvd a b -> tdeg a <= tdeg b.
Proof.
  intros Hl Hd. unfold tdeg. rewrite <- (mul_quo (length b) a b Hl eq_refl Hd). rewrite mdeg_mmul by (rewrite mquo_length; lia). lia.
Qed.
Lemma new_pairs_nth nev red els new i : nth_error (new_pairs nev red els new) i = option_map (fun g => new_pair nev red (length els) new i g) (nth_error els i).
Proof.
  unfold new_pairs. rewrite nth_error_map.
  assert (G : forall (l : list elt) k j, nth_error (combine (seq k (length l)) l) j = option_map (fun g => ((k + j)%nat, g)) (nth_error l j)).
  { induction l as [|x l IH]; intros k j; [destruct j; reflexivity|]. cbn [length seq combine]. destruct j as [|j]; cbn [nth_error]; [cbn; rewrite Nat.add_0_r; reflexivity|]. rewrite IH. destruct (nth_error l j); cbn; [repeat f_equal; lia|reflexivity]. }
  rewrite G. destruct (nth_error els i); reflexivity.
Qed.
Lemma isred_mark els red lmps mlt new i : (i < length red)%nat -> isred (mark_red els red lmps mlt new) i = true -> isred red i = true \/ exists g, nth_error els i = Some g /\ mdvdb (e_lm new) (e_lm g) = true.
Proof.
  intros Hi. unfold mark_red. destruct (e_deg new <? mlt); [|auto]. unfold isred.
  assert (G : forall (l : list bool) k j d, (j < length l)%nat -> nth j (map (fun ir => snd ir || d (fst ir)) (combine (seq k (length l)) l)) false = (nth j l false || d (k + j)%nat)).
  { induction l as [|x l IH]; intros k j d Hj; cbn [length] in Hj; [lia|]. cbn [length seq combine map nth]. destruct j as [|j]; [rewrite Nat.add_0_r; reflexivity|]. rewrite IH by lia. rewrite Nat.add_succ_comm. reflexivity. }
  rewrite (G red O i (fun j => existsb (Nat.eqb j) lmps && match nth_error els j with Some g => mdvdb (e_lm new) (e_lm g) && (e_deg new - tdeg (e_lm new) <=? e_deg g - tdeg (e_lm g)) | None => false end)) by exact Hi.
  cbn [Nat.add]. rewrite orb_true_iff. intros [H|H]; [left; exact H|]. rewrite andb_true_iff in H. destruct H as [_ H]. destruct (nth_error els i) as [g|]; [|discriminate]. rewrite andb_true_iff in H. right. exists g. split; [reflexivity|apply H].
Qed.
Lemma isred_mark_old els red lmps mlt new i : (i < length red)%nat -> isred red i = true -> isred (mark_red els red lmps mlt new) i = true.
Proof.
  intros Hi. unfold mark_red. destruct (e_deg new <? mlt); [|auto]. unfold isred.
  assert (G : forall (l : list bool) k j d, (j < length l)%nat -> nth j (map (fun ir => snd ir || d (fst ir)) (combine (seq k (length l)) l)) false = (nth j l false || d (k + j)%nat)).
  { induction l as [|x l IH]; intros k j d Hj; cbn [length] in Hj; [lia|]. cbn [length seq combine map nth]. destruct j as [|j]; [rewrite Nat.add_0_r; reflexivity|]. rewrite IH by lia. rewrite Nat.add_succ_comm. reflexivity. }
  rewrite (G red O i (fun j => existsb (Nat.eqb j) lmps && match nth_error els j with Some g => mdvdb (e_lm new) (e_lm g) && (e_deg new - tdeg (e_lm new) <=? e_deg g - tdeg (e_lm g)) | None => false end)) by exact Hi.
  intros ->. reflexivity.
Qed.
Lemma mark_red_len els red lmps mlt new : length (mark_red els red lmps mlt new) = length red.
Proof. unfold mark_red. destruct (e_deg new <? mlt); [|reflexivity]. rewrite map_length, combine_length, seq_length. lia. Qed.
Lemma isred_app1 red x i : (i < length red)%nat -> isred (red ++ x) i = isred red i.
Proof. intros H. unfold isred. apply app_nth1. exact H. Qed.
Lemma isred_app2 red : isred (red ++ [false]) (length red) = false.
Proof. unfold isred. rewrite app_nth2 by lia. rewrite Nat.sub_diag. reflexivity. Qed.

Lemma new_pair_deg nv nev red n new i g : 0 <= e_deg g -> 0 <= e_deg new -> length (e_lm g) = nv -> length (e_lm new) = nv -> isred red i = false -> coprimeb (e_lm g) (e_lm new) = false ->
  0 <= s_deg (new_pair nev red n new i g).
Proof.
  intros Hg Hn Lg Ln Hr Hc. cbn [new_pair s_deg]. rewrite Hr, Hc.
  assert (D1 : tdeg (e_lm g) <= tdeg (mlcm (e_lm g) (e_lm new))) by (apply tdeg_le; [rewrite mlcm_length; lia|apply mlcm_dvd_l; lia]).
  destruct nev; [unfold tdeg; lia|]. lia.
Qed.
Lemma new_pair_ge nv nev red n new i g : 0 <= e_deg g -> 0 <= e_deg new -> length (e_lm g) = nv -> length (e_lm new) = nv -> -2 <= s_deg (new_pair nev red n new i g).
Proof.
  intros Hg Hn Lg Ln. destruct (isred red i) eqn:Er; [cbn [new_pair s_deg]; rewrite Er; lia|]. destruct (coprimeb (e_lm g) (e_lm new)) eqn:Ec; [cbn [new_pair s_deg]; rewrite Er, Ec; lia|].
  pose proof (new_pair_deg nv nev red n new i g Hg Hn Lg Ln Er Ec). lia.
Qed.

Lemma rmap_ok {A B} (f : A -> res B) l l' : rmap f l = Ok l' -> length l' = length l /\ forall i a, nth_error l i = Some a -> exists b, nth_error l' i = Some b /\ f a = Ok b.
Proof.
  revert l'. induction l as [|a l IH]; cbn [rmap]; intros l' H.
  - injection H as <-. split; [reflexivity|]. intros [|i] a; discriminate.
  - destruct (f a) as [b| | |] eqn:Ef; try discriminate. cbn [rbind] in H. destruct (rmap f l) as [bs| | |] eqn:Er; try discriminate. cbn [rbind] in H. injection H as <-. destruct (IH _ eq_refl) as [Hl Hn].
    split; [cbn; lia|]. intros [|i] x Hx; cbn [nth_error] in *; [injection Hx as <-; exists b; auto|auto].
Qed.
Lemma rmap_in {A B} (f : A -> res B) l l' b : rmap f l = Ok l' -> In b l' -> exists a, In a l /\ f a = Ok b.
Proof.
  intros H Hb. apply In_nth_error in Hb as (i & Hi). destruct (rmap_ok _ _ _ H) as [Hl Hn]. destruct (nth_error l i) as [a|] eqn:Ea; [|apply nth_error_None in Ea; assert (i < length l')%nat by (apply nth_error_Some; congruence); lia].
  destruct (Hn _ _ Ea) as (b' & Hb' & Ef). exists a. split; [eapply nth_error_In; eassumption|]. congruence.
Qed.
Lemma rmap_in2 {A B} (f : A -> res B) l l' a : rmap f l = Ok l' -> In a l -> exists b, In b l' /\ f a = Ok b.
Proof. intros H Ha. apply In_nth_error in Ha as (i & Hi). destruct (rmap_ok _ _ _ H) as [Hl Hn]. destruct (Hn _ _ Hi) as (b & Hb & Ef). exists b. split; [eapply nth_error_In; eassumption|exact Ef]. Qed.
Lemma rmap_total {A B} (f : A -> res B) l : (forall a, In a l -> exists b, f a = Ok b) -> exists l', rmap f l = Ok l'.
Proof.
  induction l as [|a l IH]; cbn [rmap]; intros H; [eexists; reflexivity|]. destruct (H a (or_introl eq_refl)) as (b & ->). cbn [rbind]. destruct IH as (l' & ->); [intros x Hx; apply H; right; exact Hx|]. cbn [rbind]. eexists. reflexivity.
Qed.

Theorem insert_uinv nv o b ps Dn new : uinv nv b ps Dn -> 0 <= e_deg new -> length (e_lm new) = nv ->
  match insert_pairs o b ps new with
  | Ok (b', ps') => uinv nv b' ps' Dn /\ b_el b' = b_el b ++ [new] /\ b_lmps b' = b_lmps b /\ b_lo b' = b_lo b /\ b_const b' = b_const b /\ b_nold b' = b_nold b
  | Limit => True | _ => False end.
Proof.
  intros U Dnew Lnew. destruct U as [Ured Uels Ups Udn Udom Ucov Ulo Ulm Uall Und]. unfold insert_pairs. set (n := length (b_el b)) in *.
  set (pp := new_pairs (o_nev o) (b_red b) (b_el b) new). destruct (forallb _ pp); cbn [when rbind]; [|exact I].
  assert (PPnth : forall i, (i < n)%nat -> exists g, nth_error (b_el b) i = Some g /\ In g (b_el b) /\ nth_error pp i = Some (new_pair (o_nev o) (b_red b) n new i g)).
  { intros i Hi. destruct (nth_error (b_el b) i) as [g|] eqn:Eg; [|apply nth_error_None in Eg; unfold n in Hi; lia]. exists g. split; [reflexivity|]. split; [eapply nth_error_In; eassumption|]. unfold pp. rewrite new_pairs_nth, Eg. reflexivity. }
  assert (PPin : forall x, In x pp -> exists i g, (i < n)%nat /\ nth_error (b_el b) i = Some g /\ In g (b_el b) /\ x = new_pair (o_nev o) (b_red b) n new i g).
  { intros x Hx. apply In_nth_error in Hx as (i & Hi). unfold pp in Hi. rewrite new_pairs_nth in Hi. destruct (nth_error (b_el b) i) as [g|] eqn:Eg; [|discriminate]. cbn in Hi. injection Hi as <-. exists i, g. split; [apply nth_error_Some; congruence|]. split; [exact Eg|]. split; [eapply nth_error_In; eassumption|reflexivity]. }
  destruct (rmap_total (kill_old pp (e_lm new)) ps) as (old & Eold).
  { intros q Hq. destruct (Ups q Hq) as (H1 & H2 & _). unfold kill_old. destruct (PPnth _ H1) as (g1 & _ & _ & ->). destruct (PPnth _ H2) as (g2 & _ & _ & ->). eexists. reflexivity. }
  rewrite Eold. cbn [rbind].
  set (l0 := sort_by (upd_le o) pp). set (l2 := steps same_step (steps mult_step l0)).
  assert (L0in : forall x, In x l0 <-> In x pp) by (intros x; split; apply Permutation_in; [apply sort_perm|symmetry; apply sort_perm]).
  assert (Hdeg : forall x, In x l0 -> -2 <= s_deg x).
  { intros x Hx. apply L0in in Hx. destruct (PPin x Hx) as (i & g & Hi & Hg & Ig & ->). destruct (Uels g Ig). eapply new_pair_ge; eauto. }
  assert (Hlen : forall x, In x l0 -> length (s_lcm x) = nv).
  { intros x Hx. apply L0in in Hx. destruct (PPin x Hx) as (i & g & Hi & Hg & Ig & ->). destruct (Uels g Ig). cbn [new_pair s_lcm]. rewrite mlcm_length; lia. }
  destruct (passes_ok l0 nv Hdeg Hlen) as [P1 P2]. cbv zeta in P1, P2. fold l2 in P1, P2.
  set (els' := b_el b ++ [new]).
  assert (LL : forall i, (i < n)%nat -> Lm els' i = Lm (b_el b) i) by (intros i Hi; apply Lm_app; exact Hi).
  assert (Ln : Lm els' n = e_lm new) by apply Lm_last.
  assert (Llen : forall i, (i <= n)%nat -> length (Lm els' i) = nv).
  { intros i Hi. destruct (Nat.eq_dec i n) as [->|]; [rewrite Ln; exact Lnew|]. rewrite LL by lia. destruct (PPnth i ltac:(lia)) as (g & Hg & Ig & _). rewrite (Lm_nth _ _ _ Hg). apply Uels. exact Ig. }
  set (ps' := filter (fun q => 0 <=? s_deg q) (old ++ l2)).
  assert (Keep : forall q, In q ps' -> (s_g1 q < S n)%nat /\ (s_g2 q < S n)%nat /\ s_lcm q = mlcm (Lm els' (s_g1 q)) (Lm els' (s_g2 q)) /\ 0 <= s_deg q).
  { intros q Hq. apply filter_In in Hq as [Hq Dq]. apply Z.leb_le in Dq. apply in_app_or in Hq as [Hq|Hq].
    - destruct (rmap_in _ _ _ _ Eold Hq) as (q0 & Hq0 & Ek). destruct (Ups q0 Hq0) as (H1 & H2 & H3 & H4). unfold kill_old in Ek. destruct (PPnth _ H1) as (g1 & _ & _ & E1). destruct (PPnth _ H2) as (g2 & _ & _ & E2). rewrite E1, E2 in Ek. injection Ek as <-.
      destruct (_ && _); cbn [set_deg s_g1 s_g2 s_lcm] in *; rewrite !LL by assumption; repeat split; try lia; assumption.
    - destruct (P1 q Hq) as (x0 & Hx0 & E1 & E2 & E3 & E4). apply L0in in Hx0. destruct (PPin _ Hx0) as (i & g & Hi & Hg & Ig & ->). cbn [new_pair s_g1 s_g2 s_lcm] in E1, E2, E3. rewrite E2, E3, E1, Ln, LL by exact Hi. rewrite (Lm_nth _ _ _ Hg). repeat split; lia. }
  set (Dn' := Dn).
  assert (Cov : covers nv (S n) (Lm els') (pairs_of ps' Dn)).
  { apply (insert_covers nv n (Lm els') Llen (pairs_of ps Dn)).
    - intros i j [(q & Hq & <- & <-)|Hd]; [destruct (Ups q Hq) as (? & ? & _); auto|apply Udn; exact Hd].
    - apply (covers_ext nv n (Lm (b_el b))); [intros i Hi; symmetry; apply LL; exact Hi| |exact Ucov]. intros i j [(q & Hq & <- & <-)|Hd]; [destruct (Ups q Hq) as (? & ? & _); auto|apply Udn; exact Hd].
    - intros i j [(q & Hq & <- & <-)|Hd]; [|left; right; exact Hd]. destruct (rmap_in2 _ _ _ _ Eold Hq) as (q' & Hq' & Ek). destruct (Ups q Hq) as (H1 & H2 & H3 & H4). unfold kill_old in Ek. destruct (PPnth _ H1) as (g1 & G1 & I1 & E1). destruct (PPnth _ H2) as (g2 & G2 & I2 & E2). rewrite E1, E2 in Ek. injection Ek as <-.
      cbn [new_pair s_lcm] in Hq'. destruct (_ && _) eqn:Eb in Hq'.
      + right. rewrite !andb_true_iff in Eb. destruct Eb as ((((B1 & B2) & _) & _) & B5). apply negb_true_iff in B1, B2. rewrite Ln, !LL, (Lm_nth _ _ _ G1), (Lm_nth _ _ _ G2) by assumption.
        rewrite (Lm_nth _ _ _ G1), (Lm_nth _ _ _ G2) in H3. rewrite <- H3. split; [apply mdvdb_iff; [|exact B5]; rewrite H3, mlcm_length; [destruct (Uels g1 I1); lia|destruct (Uels g1 I1), (Uels g2 I2); lia]|].
        split; intros E; apply mono_eqb_iff in E; congruence.
      + left. left. exists q. split; [|auto]. apply filter_In. split; [apply in_or_app; left; exact Hq'|apply Z.leb_le; exact H4].
    - intros i Hi.
      assert (NRi : forall i, (i < n)%nat -> isred (b_red b) i = false -> NR n (Lm els') (pairs_of ps' Dn) i).
      { clear i Hi. intros i Hi Hr. destruct (PPnth i Hi) as (g & Hg & Ig & Ei). destruct (Uels g Ig) as [Dg Lg]. set (x0 := new_pair (o_nev o) (b_red b) n new i g) in *.
        assert (Elc : forall k h, (k < n)%nat -> nth_error (b_el b) k = Some h -> mlcm (Lm els' k) (Lm els' n) = mlcm (e_lm h) (e_lm new)) by (intros k h Hk Eh; rewrite Ln, LL, (Lm_nth _ _ _ Eh) by exact Hk; reflexivity).
        unfold NR. destruct (coprimeb (e_lm g) (e_lm new)) eqn:Ec.
        - right. left. rewrite Ln, LL, (Lm_nth _ _ _ Hg) by exact Hi. apply coprimeb_iff; [lia|exact Ec].
        - assert (Dx : 0 <= s_deg x0) by (eapply new_pair_deg; eauto).
          assert (Ix : In x0 l0) by (apply L0in; eapply nth_error_In; exact Ei).
          destruct (P2 x0 Ix Dx) as [H|[(y & Hy & Dy & Ny)|[(y & Hy & Dy & Ly)|(y & Hy & Dy & Ly)]]].
          + left. left. exists x0. split; [|split; reflexivity]. apply filter_In. split; [apply in_or_app; right; exact H|apply Z.leb_le; exact Dx].
          + right. right. left. apply L0in in Hy. destruct (PPin y Hy) as (k & h & Hk & Eh & Ih & ->). exists k. split; [exact Hk|]. rewrite (Elc _ _ Hk Eh), (Elc _ _ Hi Hg). split; [exact Dy|exact Ny].
          + right. right. right. apply L0in in Hy. destruct (PPin y Hy) as (k & h & Hk & Eh & Ih & ->). exists k. split; [exact Hk|]. rewrite (Elc _ _ Hk Eh), (Elc _ _ Hi Hg). split; [exact Ly|]. right. rewrite Ln, LL, (Lm_nth _ _ _ Eh) by exact Hk. destruct (Uels h Ih) as [Dh Lh].
            apply coprimeb_iff; [lia|]. destruct (coprimeb (e_lm h) (e_lm new)) eqn:Ech; [reflexivity|]. exfalso. cbn [new_pair s_deg] in Dy. destruct (isred (b_red b) k) eqn:Erk; [lia|].
            pose proof (new_pair_deg nv (o_nev o) (b_red b) n new k h Dh Dnew Lh Lnew Erk Ech) as K. cbn [new_pair s_deg] in K. rewrite Erk in K. lia.
          + right. right. right. destruct (P1 y Hy) as (y0 & Hy0 & A1 & A2 & A3 & A4). specialize (A4 Dy). subst y0. apply L0in in Hy0. destruct (PPin y Hy0) as (k & h & Hk & Eh & Ih & ->). exists k. split; [exact Hk|]. rewrite (Elc _ _ Hk Eh), (Elc _ _ Hi Hg). split; [exact Ly|].
            left. left. eexists. split; [|split; [|]]; [apply filter_In; split; [apply in_or_app; right; exact Hy|apply Z.leb_le; exact Dy]|reflexivity|reflexivity]. }
      destruct (isred (b_red b) i) eqn:Er; [|left; apply NRi; assumption]. right. destruct (Udom i Hi Er) as (r & Hr & Rr & Dr). exists r. split; [exact Hr|]. split; [rewrite !LL by assumption; exact Dr|]. apply NRi; assumption. }
  split; [|repeat split; reflexivity].
  constructor; cbn [b_el b_red b_lmps b_lo].
  - unfold els'. rewrite !app_length, mark_red_len. cbn [length]. unfold n in Ured. rewrite Ured. reflexivity.
  - intros e He. apply in_app_or in He as [He|[<-|[]]]; [apply Uels; exact He|auto].
  - fold els' ps'. replace (length els') with (S n) by (unfold els'; rewrite app_length; cbn; fold n; lia). exact Keep.
  - intros i j Hd. destruct (Udn i j Hd). unfold els'. rewrite app_length. cbn. fold n. lia.
  - fold els'. replace (length els') with (S n) by (unfold els'; rewrite app_length; cbn; fold n; lia). intros i Hi.
    assert (Lr : length (b_red b) = n) by exact Ured. set (mr := mark_red (b_el b) (b_red b) (b_lmps b) (Z.max (b_mlt b) (e_deg new)) new).
    assert (Lmr : length mr = n) by (unfold mr; rewrite mark_red_len; exact Lr).
    assert (Rn : isred (mr ++ [false]) n = false) by (rewrite <- Lmr; apply isred_app2).
    assert (Bynew : forall k, (k < n)%nat -> mdvd (Lm els' n) (Lm els' k) -> exists r, (r < S n)%nat /\ isred (mr ++ [false]) r = false /\ mdvd (Lm els' r) (Lm els' k)) by (intros k Hk Hd; exists n; split; [lia|auto]).
    assert (Mk : forall k, (k < n)%nat -> isred mr k = true -> isred (b_red b) k = false -> mdvd (Lm els' n) (Lm els' k)).
    { intros k Hk H1 H2. apply isred_mark in H1; [|lia]. destruct H1 as [H1|(g & Eg & Hd)]; [congruence|]. rewrite Ln, LL, (Lm_nth _ _ _ Eg) by exact Hk. apply mdvdb_iff; [|exact Hd]. rewrite Lnew. symmetry. apply Uels. eapply nth_error_In; eassumption. }
    intros Hir. destruct (Nat.eq_dec i n) as [->|Ni]; [rewrite Rn in Hir; discriminate|]. assert (Hi' : (i < n)%nat) by lia. rewrite isred_app1 in Hir by lia.
    destruct (isred (b_red b) i) eqn:Er; [|apply (Bynew i Hi'); apply Mk; assumption].
    destruct (Udom i Hi' Er) as (r & Hr & Rr & Dr). destruct (isred mr r) eqn:Emr.
    + apply (Bynew i Hi'). apply (mdvd_trans _ (Lm els' r)); [apply Mk; assumption|rewrite !LL by assumption; exact Dr].
    + exists r. split; [lia|]. rewrite isred_app1 by lia. split; [exact Emr|]. rewrite !LL by assumption. exact Dr.
  - fold els' ps'. replace (length els') with (S n) by (unfold els'; rewrite app_length; cbn; fold n; lia). exact Cov.
  - unfold els'. rewrite app_length. cbn. fold n. lia.
  - exact Ulm.
  - intros i Hi Hr. apply Uall; [exact Hi|]. assert (Hin : (i < length (b_red b))%nat) by lia. rewrite isred_app1 in Hr by (rewrite mark_red_len; exact Hin).
    destruct (isred (b_red b) i) eqn:Er; [|reflexivity]. rewrite (isred_mark_old _ _ _ _ _ _ Hin Er) in Hr. discriminate.
  - exact Und.
Qed.

Lemma insert_all_uinv nv o news : forall b ps Dn, uinv nv b ps Dn -> (forall e, In e news -> 0 <= e_deg e /\ length (e_lm e) = nv) ->
  match insert_all o b ps news with
  | Ok (b', ps') => uinv nv b' ps' Dn /\ b_el b' = b_el b ++ news /\ b_lmps b' = b_lmps b /\ b_lo b' = b_lo b /\ b_const b' = b_const b
  | Limit => True | _ => False end.
Proof.
  induction news as [|e news IH]; intros b ps Dn U H; cbn [insert_all]; [rewrite app_nil_r; auto|].
  destruct (H e (or_introl eq_refl)) as [H1 H2]. pose proof (insert_uinv nv o b ps Dn e U H1 H2) as K. destruct (insert_pairs o b ps e) as [[b1 ps1]| | |]; cbn [rbind]; auto. destruct K as (U1 & E1 & E2 & E3 & E4 & _).
  specialize (IH b1 ps1 Dn U1 (fun x Hx => H x (or_intror Hx))). destruct (insert_all o b1 ps1 news) as [[b2 ps2]| | |]; auto. destruct IH as (U2 & F1 & F2 & F3 & F4). rewrite F1, E1, <- app_assoc. split; [exact U2|]. repeat split; congruence.
Qed.
Theorem update_uinv nv o b ps Dn news : uinv nv b ps Dn -> (forall e, In e news -> 0 <= e_deg e /\ length (e_lm e) = nv) ->
  match update_basis o b ps news with
  | Ok (b', ps') => uinv nv b' ps' Dn /\ b_el b' = b_el b ++ news /\ b_lo b' = length (b_el b') /\ b_const b' = b_const b
  | Limit => True | _ => False end.
Proof.
  intros U H. unfold update_basis. pose proof (insert_all_uinv nv o news b ps Dn U H) as K. destruct (insert_all o b ps news) as [[b1 ps1]| | |]; cbn [rbind]; auto. destruct K as (U1 & E1 & E2 & E3 & E4). cbn [b_el b_lo b_const].
  split; [|auto]. destruct U1 as [Ured Uels Ups Udn Udom Ucov Ulo Ulm Uall Und]. set (keep := fun i => negb (isred (b_red b1) i)). set (lm0 := if (o_mo o =? 0)%nat && (b_nold b1 <? nred (b_red b1))%nat then filter keep (b_lmps b1) else b_lmps b1).
  assert (S1 : forall i, In i lm0 -> In i (b_lmps b1)) by (intros i; unfold lm0; destruct (_ && _); [intros Hi; apply filter_In in Hi; apply Hi|auto]).
  assert (S2 : forall i, In i (b_lmps b1) -> isred (b_red b1) i = false -> In i lm0).
  { intros i Hi Hr. unfold lm0. destruct (_ && _); [|exact Hi]. apply filter_In. split; [exact Hi|]. unfold keep. rewrite Hr. reflexivity. }
  constructor; cbn [b_el b_red b_lmps b_lo]; try assumption.
  - lia.
  - intros i Hi. apply in_app_or in Hi as [Hi|Hi]; [specialize (Ulm i (S1 i Hi)); lia|]. apply filter_In in Hi as [Hi _]. apply in_seq in Hi. lia.
  - intros i Hi Hr. apply in_or_app. destruct (Nat.lt_ge_cases i (b_lo b1)) as [Hl|Hl]; [left; apply S2; auto|]. right. apply filter_In. split; [apply in_seq; lia|]. unfold keep. rewrite Hr. reflexivity.
  - assert (ND : forall (l l' : list nat), NoDup l -> NoDup l' -> (forall x, In x l -> ~ In x l') -> NoDup (l ++ l')).
    { clear. induction l as [|x l IH]; cbn; intros l' H1 H2 H3; [exact H2|]. inversion H1; subst. constructor; [|apply IH; auto]. intros K. apply in_app_or in K as [K|K]; [contradiction|]. apply (H3 x); auto. }
    apply ND.
    + unfold lm0. destruct (_ && _); [apply NoDup_filter|]; exact Und.
    + apply NoDup_filter. apply seq_NoDup.
    + intros x Hx Hy. apply S1 in Hx. specialize (Ulm x Hx). apply filter_In in Hy as [Hy _]. apply in_seq in Hy. lia.
Qed.
(** Selection of pairs *)
Lemma select_uinv nv b ps ps' Dn (Dn' : nat -> nat -> Prop) : uinv nv b ps Dn -> (forall q, In q ps' -> In q ps) -> (forall i j, Dn i j -> Dn' i j) -> (forall i j, Dn' i j -> (i < length (b_el b))%nat /\ (j < length (b_el b))%nat) ->
  (forall q, In q ps -> In q ps' \/ Dn' (s_g1 q) (s_g2 q)) -> uinv nv b ps' Dn'.
Proof.
  intros [Ured Uels Ups Udn Udom Ucov Ulo Ulm Uall Und] H1 H2 H3 H4. constructor; auto.
  intros D F HD. apply Ucov; [exact F|]. intros i j Q. apply HD. destruct Q as [(q & Hq & <- & <-)|Q]; [|right; auto]. destruct (H4 q Hq) as [K|K]; [left; exists q; auto|right; exact K].
Qed.
