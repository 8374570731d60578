From Coq Require Import NArith ZArith Arith List Bool Lia Sorted.
From Verif Require Import MonoSpec MonoProps HilbSpec HilbModel HilbProofs HilbProps ModInvModel MonoModel FglmModel PrintModel DenseSpec DenseModel.
Import ListNotations.
Open Scope nat_scope.

(** ** Lists *)
Lemma omap_ok {A B} (f : A -> option B) (g : A -> B) l : (forall x, In x l -> f x = Some (g x)) -> omap f l = Some (map g l).
Proof. induction l as [|x l IH]; intros H; [reflexivity|]. cbn [omap map]. rewrite H by (left; reflexivity). cbn [obind]. rewrite IH by (intros y Hy; apply H; right; exact Hy). reflexivity. Qed.
Lemma omap_app {A B} (f : A -> option B) a b : omap f (a ++ b) = match omap f a, omap f b with Some x, Some y => Some (x ++ y) | _, _ => None end.
Proof.
  induction a as [|x a IH]; cbn [omap app].
  - destruct (omap f b); reflexivity.
  - destruct (f x) as [y|]; cbn [obind]; [|reflexivity]. rewrite IH. destruct (omap f a); cbn [obind]; [|reflexivity]. destruct (omap f b); reflexivity.
Qed.
Lemma omap_nth_seq (ev pre l : list N) : ev = pre ++ l -> omap (fun i => nth_error ev i) (seq (length pre) (length l)) = Some l.
Proof.
  revert pre. induction l as [|x l IH]; intros pre E; [reflexivity|]. cbn [length seq omap]. rewrite E at 1. rewrite nth_error_app2, Nat.sub_diag by lia. cbn [nth_error obind].
  specialize (IH (pre ++ [x])). rewrite app_length in IH. cbn [length] in IH. rewrite Nat.add_1_r in IH. rewrite IH by (rewrite <- app_assoc; exact E). reflexivity.
Qed.
Lemma exps_layout nv nev e : length e = nv -> nev <= nv -> exps_of nv nev (layout nev e) = Some e.
Proof.
  intros L LE. unfold exps_of, evi, ht_ebl, ht_evl, layout. destruct (Nat.eqb_spec nev 0) as [->|NE]; cbn [Nat.eqb].
  - replace (nv + 1 - 1) with (length e) by lia. apply (omap_nth_seq _ [mdeg e]). reflexivity.
  - destruct (Nat.eqb_spec (nev + 1) 0); [lia|]. rewrite omap_app. assert (F : length (firstn nev e) = nev) by (rewrite firstn_length; lia).
    replace (nev + 1 - 1) with nev by lia.
    assert (G : forall ev pre l suf : list N, ev = pre ++ l ++ suf -> omap (fun i => nth_error ev i) (seq (length pre) (length l)) = Some l).
    { intros ev pre l suf ->. revert pre. induction l as [|x l IH]; intros pre; [reflexivity|]. cbn [length seq omap]. rewrite nth_error_app2, Nat.sub_diag by lia. cbn [nth_error app obind].
      specialize (IH (pre ++ [x])). rewrite app_length in IH. cbn [length] in IH. rewrite Nat.add_1_r, <- app_assoc in IH. cbn [app] in IH. rewrite IH. reflexivity. }
    pose proof (G (mdeg (firstn nev e) :: firstn nev e ++ mdeg (skipn nev e) :: skipn nev e) [mdeg (firstn nev e)] (firstn nev e) (mdeg (skipn nev e) :: skipn nev e) eq_refl) as G0.
    cbn [length] in G0. rewrite F in G0. rewrite G0. clear G0.
    specialize (G (mdeg (firstn nev e) :: firstn nev e ++ mdeg (skipn nev e) :: skipn nev e) (mdeg (firstn nev e) :: firstn nev e ++ [mdeg (skipn nev e)]) (skipn nev e) []).
    cbn [length] in G. rewrite app_length in G. cbn [length] in G. rewrite F in G. rewrite skipn_length, L in G.
    replace (nv + 2 - (nev + 1 + 1)) with (nv - nev) by lia. replace (nev + 1 + 1) with (S (nev + 1)) by lia. rewrite G.
    + rewrite firstn_skipn. reflexivity.
    + cbn [app]. f_equal. rewrite app_nil_r, <- app_assoc. reflexivity.
Qed.

(** ** Comparison and search *)
Lemma equal_from_ok e1 e2 elim : forall cnt i, i + cnt <= length e2 -> i + cnt + elim <= length e1 ->
  equal_from e1 e2 i elim cnt = Some (if list_eq_dec N.eq_dec (firstn cnt (skipn (i + elim) e1)) (firstn cnt (skipn i e2)) then true else false).
Proof.
  induction cnt as [|c IH]; intros i H1 H2; [reflexivity|]. cbn [equal_from].
  assert (A : forall (l : list N) k, k < length l -> skipn k l = nth k l 0%N :: skipn (S k) l).
  { intros l. induction l as [|x l IHl]; intros [|k] Hk; cbn in *; try lia; [reflexivity|]. apply IHl. lia. }
  rewrite (nth_error_nth' e1 0%N) by lia. rewrite (nth_error_nth' e2 0%N) by lia. cbn [obind]. rewrite (A e1 (i + elim)), (A e2 i) by lia. cbn [firstn].
  destruct (N.eqb_spec (nth (i + elim) e1 0%N) (nth i e2 0%N)) as [E|NE].
  - rewrite IH by lia. cbn [Nat.add]. repeat destruct (list_eq_dec _ _ _); try congruence.
  - destruct (list_eq_dec _ _ _); congruence.
Qed.
Lemma is_equal_ok (pre m b : mono) nv elim : length pre = elim -> length m = nv - elim -> length b = nv - elim -> elim < nv ->
  is_equal_exponent_elim (pre ++ m) b nv elim = Some (if list_eq_dec N.eq_dec m b then true else false).
Proof.
  intros Lp Lm Lb LE. unfold is_equal_exponent_elim. rewrite equal_from_ok by (rewrite ?app_length; lia). cbn [Nat.add skipn obind].
  rewrite skipn_app, skipn_all2, Lp, Nat.sub_diag by lia. cbn [app skipn].
  assert (D : forall (l : list N), length l = nv - elim -> l = firstn (nv - elim - 1) l ++ [nth (nv - elim - 1) l 0%N]).
  { intros l L. rewrite <- (firstn_skipn (nv - elim - 1) l) at 1. f_equal. assert (S1 : length (skipn (nv - elim - 1) l) = 1) by (rewrite skipn_length; lia).
    destruct (skipn (nv - elim - 1) l) as [|x [|]] eqn:E; cbn in S1; try lia. rewrite <- (firstn_skipn (nv - elim - 1) l). rewrite app_nth2 by (rewrite firstn_length; lia). rewrite firstn_length, L, Nat.min_l, Nat.sub_diag, E by lia. reflexivity. }
  destruct (list_eq_dec N.eq_dec (firstn (nv - elim - 1) m) (firstn (nv - elim - 1) b)) as [E|NE].
  - destruct (Nat.leb_spec nv elim); [lia|]. rewrite (nth_error_nth' _ 0%N) by (rewrite app_length; lia). rewrite (nth_error_nth' b 0%N) by lia. cbn [obind]. rewrite app_nth2 by lia. rewrite Lp. replace (nv - 1 - elim) with (nv - elim - 1) by lia. f_equal.
    destruct (N.eqb_spec (nth (nv - elim - 1) m 0%N) (nth (nv - elim - 1) b 0%N)) as [E2|N2]; destruct (list_eq_dec N.eq_dec m b) as [X|X]; try reflexivity.
    + exfalso. apply X. rewrite (D m Lm), (D b Lb), E, E2. reflexivity.
    + subst. congruence.
  - destruct (list_eq_dec N.eq_dec m b); [subst; congruence|reflexivity].
Qed.
Lemma drl_irrefl a : ~ drl_lt a a.
Proof. intros [H|[_ (i & H & _)]]; lia. Qed.
Lemma sorted_nth (l : list mono) : StronglySorted drl_lt l -> forall i j a b, nth_error l i = Some a -> nth_error l j = Some b -> i < j -> drl_lt a b.
Proof.
  induction 1 as [|x l H IH F]; intros i j a b A B Lt; [destruct i; discriminate|]. destruct i as [|i], j as [|j]; try lia; cbn in A, B.
  - injection A as <-. apply nth_error_In in B. rewrite Forall_forall in F. auto.
  - apply (IH i j); auto. lia.
Qed.
Lemma drl_asym nv a b : length a = nv -> length b = nv -> drl_lt a b -> ~ drl_lt b a.
Proof. intros A B H K. destruct (proj1 (proj2 (C10_orders nv))) as [I T _ _]. exact (I a (T a b a A B A H K)). Qed.
Lemma seek_ok (pre m : mono) (basis : list mono) nv elim j : length pre = elim -> elim < nv -> Forall (fun b => length b = nv - elim) basis -> StronglySorted drl_lt basis -> nth_error basis j = Some m ->
  forall n, j < n <= length basis -> seek (pre ++ m) basis nv elim n = Some j.
Proof.
  intros Lp LE F S0 E n. induction n as [|n IH]; intros H; [lia|]. cbn [seek]. destruct (nth_error basis n) as [b|] eqn:Eb; [|apply nth_error_None in Eb; lia]. cbn [obind].
  rewrite Forall_forall in F. assert (Lm : length m = nv - elim) by (apply F; eapply nth_error_In; eauto). rewrite (is_equal_ok pre m b nv elim Lp Lm (F b (nth_error_In _ _ Eb)) LE). cbn [obind].
  destruct (list_eq_dec N.eq_dec m b) as [->|NE].
  - f_equal. destruct (Nat.eq_dec n j); [auto|]. exfalso. apply (drl_irrefl b). apply (sorted_nth basis S0 j n); auto. lia.
  - apply IH. split; [|lia]. destruct (Nat.eq_dec n j); [|lia]. subst. rewrite E in Eb. congruence.
Qed.

(** ** Lengths *)
Lemma forallb_ge_sum (a : list N) : forall b, length a = length b -> forallb (fun ab => negb (fst ab <? snd ab)%N) (combine a b) = true -> (mdeg b <= mdeg a)%N /\ (mdeg a = mdeg b -> a = b).
Proof.
  induction a as [|x a IH]; intros [|y b] L H; cbn in L; try lia; [split; [lia|auto]|]. cbn [combine forallb fst snd] in H. apply andb_prop in H as [H1 H2]. destruct (IH b) as [A B]; [lia|exact H2|]. apply negb_true_iff in H1. apply N.ltb_ge in H1. change (mdeg (x :: a)) with (x + mdeg a)%N. change (mdeg (y :: b)) with (y + mdeg b)%N. split; [lia|]. intros E. f_equal; [lia|]. apply B. lia.
Qed.
Lemma compute_length_ok (lm : mono) (basis : list mono) : fits lm = true -> Forall (fun b => length b = length lm /\ fits b = true) basis -> ~ In lm basis ->
  exists n, compute_length lm (rev basis) = Some n /\ n <= length basis /\ forall b, In b basis -> (mdeg b <= mdeg lm)%N -> In b (firstn n basis).
Proof.
  intros Fl F NI. induction basis as [|b basis IH] using rev_ind; [exists 0; cbn; auto|].
  apply Forall_app in F as [F1 F2]. inversion F2 as [|? ? [Lb Fb] _]. subst. rewrite rev_app_distr. cbn [rev app]. cbn [compute_length]. unfold grevlex_is_less_than. rewrite Fl, Fb. cbn [andb].
  assert (K : (mdeg lm < mdeg b)%N \/ (exists t, (if (mdeg lm <? mdeg b)%N then Some true else if (mdeg b <? mdeg lm)%N then Some false else Some (forallb (fun ab => negb (fst ab <? snd ab)%N) (combine lm b))) = Some t /\ t = false)).
  { destruct (N.ltb_spec (mdeg lm) (mdeg b)) as [A|A]; [left; exact A|]. right. destruct (N.ltb_spec (mdeg b) (mdeg lm)) as [B|B]; [exists false; auto|]. eexists; split; [reflexivity|]. destruct (forallb _ _) eqn:E; [|reflexivity]. exfalso. apply NI. apply in_or_app. right. left. symmetry. apply (forallb_ge_sum lm b); [congruence|exact E|lia]. }
  destruct K as [K|(t & Kt & ->)].
  - destruct (N.ltb_spec (mdeg lm) (mdeg b)); [|lia]. cbn [obind]. destruct IH as (n & A & B & C); [exact F1|intros X; apply NI; apply in_or_app; left; exact X|]. exists n. rewrite app_length. repeat split; [exact A|lia|]. intros x Hx Hd. rewrite firstn_app. apply in_or_app. left. apply in_app_iff in Hx as [Hx|[<-|[]]]; [auto|lia].
  - rewrite Kt. cbn [obind]. eexists. split; [reflexivity|]. cbn [length]. rewrite rev_length, app_length. cbn [length]. split; [lia|]. intros x Hx _. rewrite firstn_all2 by (rewrite app_length; cbn; lia). exact Hx.
Qed.

(** ** Writing one polynomial *)
Lemma put_ok {A} (l : list A) : forall i x, i < length l -> exists l', put l i x = Some l' /\ length l' = length l /\ forall k, nth_error l' k = if k =? i then Some x else nth_error l k.
Proof.
  induction l as [|a l IH]; intros i x H; [cbn in H; lia|]. destruct i as [|i]; cbn [put].
  - exists (x :: l). repeat split. intros [|k]; reflexivity.
  - destruct (IH i x) as (l' & A1 & A2 & A3); [cbn in H; lia|]. rewrite A1. cbn [obind]. exists (a :: l'). repeat split; [cbn; lia|]. intros [|k]; [reflexivity|]. cbn. apply A3.
Qed.
Definition find_m (m : mono) (ts : poly) : option N := match find (fun t => if list_eq_dec N.eq_dec (snd t) m then true else false) ts with Some t => Some (fst t) | None => None end.
Lemma find_m_none m ts : (forall t, In t ts -> snd t <> m) -> find_m m ts = None.
Proof. intros H. unfold find_m. match goal with |- context [find ?g ts] => destruct (find g ts) as [t|] eqn:E end; [|reflexivity]. apply find_some in E as [E1 E2]. destruct (list_eq_dec N.eq_dec (snd t) m); [exfalso; eapply H; eauto|discriminate]. Qed.
Lemma coef_find f m : coef f m = match find_m m f with Some c => c | None => 0%N end.
Proof. unfold coef, find_m. match goal with |- context [find ?g f] => destruct (find g f) end; reflexivity. Qed.

Section Store.
Variables (nv nev : nat) (mb : list mono) (np : nat).
Hypothesis Hlt : nev < nv.
Hypothesis Hmb : Forall (fun b => length b = nv - nev) mb.
Hypothesis Hsort : StronglySorted drl_lt mb.

Lemma set_terms_ok (ts : poly) : forall n (f : list cells), n <= length f -> length f <= length mb -> (forall c, In c f -> np < length c) -> decreasing ts -> (forall t, In t ts -> In (snd t) (firstn n mb)) ->
  exists f', set_terms nv nev mb np (map (fun t => (fst t, layout nev (mone nev ++ snd t))) ts) n f = Some f' /\ length f' = length f /\
    forall j (m : mono) (c : cells), nth_error mb j = Some m -> nth_error f j = Some c -> exists c' : cells, nth_error f' j = Some c' /\ length c' = length c /\
      forall k, nth_error c' k = if k =? np then match find_m m ts with Some v => Some (Some v) | None => nth_error c k end else nth_error c k.
Proof.
  induction ts as [|[v m0] ts IH]; intros n f Hn Hf Hc D Hin.
  - cbn [map set_terms]. exists f. repeat split. intros j m c _ Ec. exists c. repeat split; auto. intros k. destruct (k =? np); reflexivity.
  - cbn [map set_terms fst snd]. assert (Lone : length (mone nev) = nev) by apply repeat_length.
    pose proof (Hin (v, m0) (or_introl eq_refl)) as I0. cbn [snd] in I0. apply In_nth_error in I0 as [bc Ebc].
    assert (Hbc : bc < n) by (assert (Q : nth_error (firstn n mb) bc <> None) by congruence; apply nth_error_Some in Q; rewrite firstn_length in Q; lia).
    assert (Ebc' : nth_error mb bc = Some m0). { rewrite <- (firstn_skipn n mb). rewrite nth_error_app1 by (rewrite firstn_length; lia). exact Ebc. }
    assert (Lm0 : length m0 = nv - nev) by (rewrite Forall_forall in Hmb; apply Hmb; eapply nth_error_In; eauto).
    rewrite exps_layout by (rewrite ?app_length; lia). cbn [obind]. rewrite (seek_ok (mone nev) m0 mb nv nev bc) by (auto; lia). cbn [obind].
    destruct (nth_error f bc) as [a|] eqn:Ea; [|apply nth_error_None in Ea; lia]. cbn [obind].
    destruct (put_ok a np (Some v)) as (a' & P1 & P2 & P3); [apply Hc; eapply nth_error_In; eauto|]. 
    rewrite P1. cbn [obind].
    destruct (put_ok f bc a') as (f1 & Q1 & Q2 & Q3); [lia|]. rewrite Q1. cbn [obind].
    inversion D as [|? ? D1 D2]. subst.
    destruct (IH bc f1) as (f' & R1 & R2 & R3); [lia|lia| |exact D1| |].
    { intros c Ic. apply In_nth_error in Ic as [i Ei]. rewrite Q3 in Ei. destruct (i =? bc); [injection Ei as <-; rewrite P2; apply Hc; eapply nth_error_In; eauto|apply Hc; eapply nth_error_In; eauto]. }
    { intros t It. pose proof (Hin t (or_intror It)) as It'. apply In_nth_error in It' as [i Ei]. assert (Hi : i < n) by (assert (Q : nth_error (firstn n mb) i <> None) by congruence; apply nth_error_Some in Q; rewrite firstn_length in Q; lia).
      assert (Ei' : nth_error mb i = Some (snd t)). { rewrite <- (firstn_skipn n mb). rewrite nth_error_app1 by (rewrite firstn_length; lia). exact Ei. }
      rewrite Forall_forall in D2. specialize (D2 t It). cbn [snd] in D2.
      assert (i < bc). { destruct (Nat.lt_trichotomy i bc) as [|[->|X]]; [auto| |]. - rewrite Ebc' in Ei'. injection Ei' as Ei'. exfalso. rewrite <- Ei' in D2. exact (drl_irrefl _ D2). - exfalso. pose proof (sorted_nth mb Hsort bc i _ _ Ebc' Ei' X) as Y. refine (drl_asym (nv - nev) _ _ _ _ Y D2); [exact Lm0|]. rewrite Forall_forall in Hmb. apply Hmb. eapply nth_error_In; eauto. }
      apply (nth_error_In _ i). rewrite <- (firstn_skipn bc mb) in Ei'. rewrite nth_error_app1 in Ei' by (rewrite firstn_length; lia). exact Ei'. }
    exists f'. split; [exact R1|]. split; [lia|]. intros j m c Em Ec.
    destruct (Nat.eq_dec j bc) as [->|NJ].
    + rewrite Ebc' in Em. injection Em as <-. rewrite Ea in Ec. injection Ec as <-. destruct (R3 bc m0 a') as (c' & S1 & S2 & S3); [exact Ebc'|rewrite Q3, Nat.eqb_refl; reflexivity|].
      exists c'. split; [exact S1|]. split; [lia|]. intros k. rewrite S3. rewrite (find_m_none m0 ts).
      * rewrite P3. unfold find_m. cbn [find snd]. destruct (list_eq_dec N.eq_dec m0 m0); [|congruence]. destruct (k =? np); reflexivity.
      * intros t It E. rewrite Forall_forall in D2. specialize (D2 t It). cbn [snd] in D2. rewrite E in D2. exact (drl_irrefl _ D2).
    + destruct (R3 j m c) as (c' & S1 & S2 & S3); [exact Em|rewrite Q3; destruct (Nat.eqb_spec j bc); [lia|exact Ec]|].
      exists c'. split; [exact S1|]. split; [exact S2|]. intros k. rewrite S3. unfold find_m. cbn [find snd].
      destruct (list_eq_dec N.eq_dec m0 m) as [->|]; [|reflexivity]. exfalso. apply NJ.
      destruct (Nat.lt_trichotomy j bc) as [X|[X|X]]; auto; exfalso; eapply drl_irrefl; [exact (sorted_nth mb Hsort j bc m m Em Ebc' X)|exact (sorted_nth mb Hsort bc j m m Ebc' Em X)].
Qed.
End Store.
