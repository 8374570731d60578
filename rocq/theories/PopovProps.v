(** C88: the approximant bases are in shifted ordered weak Popov form, with the shift that is returned as row degrees. *)
From Coq Require Import ZArith Arith List Bool Lia Permutation Setoid Morphisms Znumtheory Sorted.
From Verif Require Import ModInvModel LinSpec FglmSpec MatVecProofs LnullSpec LnullModel LnullProofs LnullProps AppSpec AppModel AppProofs AppRunProofs AppProps PmbModel PmbProps.
Import ListNotations.
Open Scope Z_scope.

(** Specification.  [B d r j] is the coefficient of x^d in row [r], column [j].  With the shift [s], the degree of the entry of column [j] counts
    [s j] more; [s'] is the list of the shifted degrees of the rows, and the last entry of row [r] of this degree is the one of column [r], with
    leading coefficient 1. *)
Definition weak_popov (m : nat) (s s' : nat -> Z) (B : nat -> nat -> nat -> Z) : Prop :=
  forall r, (r < m)%nat -> s r <= s' r /\ B (Z.to_nat (s' r - s r)) r r = 1 /\
    forall d j, (j < m)%nat -> B d r j <> 0 -> s j + Z.of_nat d <= s' r /\ ((r < j)%nat -> s j + Z.of_nat d < s' r).

Record wp (m : nat) (s : nat -> Z) (st : state) : Prop := {
  w_len : (1 <= ln st)%nat;
  w_zero : forall d r j, (ln st <= d)%nat -> co st d r j = 0;
  w_form : weak_popov m s (sh st) (co st) }.

Lemma sorted_nth (R : nat -> nat -> Prop) : forall l a b, StronglySorted R l -> (a < b < length l)%nat -> R (nth a l 0%nat) (nth b l 0%nat).
Proof.
  induction l as [|x l IH]; intros a b H Hab; cbn [length] in *; [lia|]. inversion H as [|? ? H1 H2]; subst. rewrite Forall_forall in H2.
  destruct b as [|b]; [lia|]. destruct a as [|a]; cbn [nth]; [apply H2, nth_In; lia|apply IH; [auto|lia]].
Qed.

Lemma nth_firstn_lt : forall (l : list nat) k a, (a < k)%nat -> nth a (firstn k l) 0%nat = nth a l 0%nat.
Proof. induction l as [|x l IH]; intros k a H; [rewrite firstn_nil; reflexivity|]. destruct k as [|k]; [lia|]. destruct a as [|a]; cbn [firstn nth]; [reflexivity|apply IH; lia]. Qed.
Lemma sumn_nonzero f : forall k, sumn k f <> 0 -> exists i, (i < k)%nat /\ f i <> 0.
Proof.
  induction k as [|k IH]; [cbn; congruence|]. cbn [sumn]. intros H. destruct (Z.eq_dec (f k) 0) as [E|E]; [|exists k; auto].
  destruct IH as (i & Hi & Hn); [rewrite E, Z.add_0_r in H; exact H|]. exists i. split; [lia|exact Hn].
Qed.

Lemma in_firstn_idx m l k r : Permutation l (seq 0 m) -> (r < m)%nat -> (k <= m)%nat -> existsb (Nat.eqb r) (firstn k l) = (idx r l <? k)%nat.
Proof.
  intros P Hr Hk. pose proof (Permutation_length P) as L. rewrite seq_length in L. destruct (idx_lt m l r P Hr) as [H1 H2].
  destruct (Nat.ltb_spec (idx r l) k) as [H|H].
  - apply existsb_exists. exists r. rewrite Nat.eqb_refl. split; [|reflexivity]. rewrite <- H2 at 1.
    assert (E : nth (idx r l) (firstn k l) 0%nat = nth (idx r l) l 0%nat).
    { apply nth_firstn_lt. exact H. }
    rewrite <- E. apply nth_In. rewrite firstn_length. lia.
  - apply Bool.not_true_iff_false. intros HE. apply existsb_exists in HE. destruct HE as (x & Hx & Ex). apply Nat.eqb_eq in Ex. subst x.
    apply (In_nth _ _ 0%nat) in Hx. destruct Hx as (a & Ha & Ea). rewrite firstn_length in Ha.
    assert (E : nth a (firstn k l) 0%nat = nth a l 0%nat).
    { apply nth_firstn_lt. lia. }
    rewrite E in Ea. rewrite <- Ea in H. rewrite (idx_nth m) in H by (auto; lia). lia.
Qed.

Lemma update_wp p m n M s st K N R Y : 1 < p -> wp m s st -> kernel p m n M K N ->
  Permutation (R ++ N) (seq 0 m) -> length R = (m - length N)%nat -> (length N <= m)%nat ->
  (forall i j, (i < length N)%nat -> (j < length R)%nat -> entry Y i j = Some (K (nth j R 0%nat) i)) ->
  wp m s (update p m (length N) (shift_perm m (sh st)) (R ++ N) Y st).
Proof.
  intros Hp [HL HZ HW] HK HRN HR HN HY. set (rank := (m - length N)%nat) in *. set (null := length N) in *.
  destruct (C86_order m (sh st)) as [HP HS]. set (perm := shift_perm m (sh st)) in *.
  pose proof (Permutation_length HP) as Lperm. rewrite seq_length in Lperm.
  set (piv := map (fun q => nth q perm 0%nat) (R ++ N)).
  pose proof (piv_perm m perm (R ++ N) HP HRN) as HPiv. fold piv in HPiv.
  assert (LP : length (R ++ N) = m) by (rewrite (Permutation_length HRN), seq_length; reflexivity).
  assert (Hpiv : forall i, (i < m)%nat -> nth i piv 0%nat = nth (nth i (R ++ N) 0%nat) perm 0%nat).
  { intros i Hi. unfold piv. rewrite nth_map_nat by (rewrite LP; exact Hi). reflexivity. }
  assert (PR : forall k, (k < rank)%nat -> nth k (R ++ N) 0%nat = nth k R 0%nat) by (intros k Hk; apply app_nth1; lia).
  assert (PN : forall i, nth (rank + i) (R ++ N) 0%nat = nth i N 0%nat) by (intros i; rewrite app_nth2 by lia; f_equal; lia).
  set (Yf := fun i k => nth k (nth i Y []) 0).
  assert (HYf : forall i k, (i < null)%nat -> (k < rank)%nat -> Yf i k = K (nth k R 0%nat) i).
  { intros i k Hi Hk. specialize (HY i k Hi ltac:(lia)). unfold entry, obind in HY. unfold Yf. destruct (nth_error Y i) as [row|] eqn:E1; [|discriminate].
    rewrite (nth_error_nth Y i [] E1). apply nth_error_nth. exact HY. }
  (* a row is only added to rows that come later in the order of the shift *)
  assert (HLt : forall i k, (i < null)%nat -> (k < rank)%nat -> Yf i k <> 0 ->
    let rk := nth k piv 0%nat in let ri := nth (rank + i) piv 0%nat in sh st rk < sh st ri \/ sh st rk = sh st ri /\ (rk < ri)%nat).
  { intros i k Hi Hk Hn. cbv zeta. rewrite !Hpiv by lia. rewrite PR, PN by auto.
    apply (sorted_nth _ perm _ _ HS). rewrite Lperm. rewrite HYf in Hn by auto.
    assert (A1 : (nth k R 0 < m)%nat) by (rewrite <- PR by auto; apply (perm_lt m); auto; lia).
    assert (A2 : (nth i N 0 < m)%nat) by (apply (k_lt _ _ _ _ _ _ HK), nth_In; exact Hi).
    split; [|exact A2]. destruct (Nat.lt_trichotomy (nth k R 0%nat) (nth i N 0%nat)) as [H|[H|H]]; [exact H| |].
    - exfalso. pose proof (perm_nodup m _ HRN) as ND. rewrite <- (PR k Hk), <- (PN i) in H.
      rewrite NoDup_nth with (d := 0%nat) in ND. specialize (ND k (rank + i)%nat ltac:(rewrite LP; lia) ltac:(rewrite LP; lia) H). lia.
    - exfalso. apply Hn. apply (k_low _ _ _ _ _ _ HK); [exact Hi|]. lia. }
  constructor.
  - unfold update. cbn [ln]. destruct (existsb _ _); lia.
  - intros d r j. unfold update. cbn [ln co]. cbv zeta. match goal with |- context [if existsb ?f ?l then _ else _] => destruct (existsb f l) end; intros Hd;
      (match goal with |- (if ?b then _ else _) = 0 => destruct b end;
       match goal with |- (if (?x <? ?y)%nat then _ else _) = 0 => destruct (Nat.ltb_spec x y); [lia|try reflexivity; apply HZ; lia] end).
  - intros r Hr. destruct (idx_lt m piv r HPiv Hr) as [Hi Er]. set (i := idx r piv) in *.
    destruct (HW r Hr) as (W1 & W2 & W3).
    unfold update. cbn [sh co]. cbv zeta. fold rank piv. fold i. rewrite (in_firstn_idx m) by (auto; unfold rank; lia). fold i.
    match goal with |- context [if existsb ?f ?l then _ else _] => set (grow := existsb f l) end.
    destruct (Nat.ltb_spec i rank) as [Hir|Hir].
    + rewrite Er. split; [lia|]. split.
      * replace (Z.to_nat (sh st r + 1 - s r)) with (S (Z.to_nat (sh st r - s r))) by lia. set (e := Z.to_nat (sh st r - s r)) in *.
        assert (He : (e < ln st)%nat) by (destruct (Nat.lt_ge_cases e (ln st)) as [H|H]; [exact H|rewrite HZ in W2 by exact H; discriminate]).
        match goal with |- (if (?x <? ?y)%nat then _ else _) = _ => assert (H : (x < y)%nat) end.
        { destruct grow eqn:EG; [lia|]. destruct (Nat.eq_dec e (ln st - 1)) as [Ee|Ee]; [|lia]. exfalso.
          assert (grow = true); [|congruence]. apply existsb_exists. exists i. split; [apply in_seq; lia|]. apply existsb_exists. exists r. split; [apply in_seq; lia|].
          destruct (Nat.ltb_spec i rank); [|lia]. rewrite Er, <- Ee, W2. reflexivity. }
        apply Nat.ltb_lt in H. rewrite H. exact W2.
      * intros d j Hj. match goal with |- (if ?b then _ else _) <> 0 -> _ => destruct b end; [|congruence]. destruct d as [|d]; [congruence|]. intros Hn.
        destruct (W3 d j Hj Hn) as [X1 X2]. split; [lia|]. intros Hrj. specialize (X2 Hrj). lia.
    + rewrite Er. split; [lia|].
      (* the added rows *)
      assert (HA : forall d j, (j < m)%nat -> sumn rank (fun k => Yf (i - rank)%nat k * co st d (nth k piv 0%nat) j) <> 0 ->
        s j + Z.of_nat d <= sh st r /\ ((r <= j)%nat -> s j + Z.of_nat d < sh st r)).
      { intros d j Hj Hn.
        assert (HE : exists k, (k < rank)%nat /\ Yf (i - rank)%nat k <> 0 /\ co st d (nth k piv 0%nat) j <> 0).
        { destruct (sumn_nonzero _ _ Hn) as (k & Hk & Hn1). cbv beta in Hn1. exists k. split; [exact Hk|]. split; intros C; apply Hn1; rewrite C; ring. }
        destruct HE as (k & Hk & Yk & Ck). pose proof (HLt (i - rank)%nat k ltac:(lia) Hk Yk) as HLk. cbv zeta in HLk.
        replace (rank + (i - rank))%nat with i in HLk by lia. rewrite Er in HLk. assert (Hkm : (nth k piv 0 < m)%nat) by (apply (perm_lt m); auto; lia).
        destruct (HW _ Hkm) as (_ & _ & V3). destruct (V3 d j Hj Ck) as [X1 X2]. split; [lia|]. intros Hrj. destruct HLk as [HLk|[HLk HLj]]; [lia|]. specialize (X2 ltac:(lia)). lia. }
      split.
      * set (e := Z.to_nat (sh st r - s r)) in *.
        assert (He : (e < ln st)%nat) by (destruct (Nat.lt_ge_cases e (ln st)) as [H|H]; [exact H|rewrite HZ in W2 by exact H; discriminate]).
        apply Nat.ltb_lt in He. rewrite He, W2.
        destruct (Z.eq_dec (sumn rank (fun k => Yf (i - rank)%nat k * co st e (nth k piv 0%nat) r)) 0) as [E0|E0].
        -- unfold Yf in E0. rewrite E0. rewrite Z.add_0_r. apply Z.mod_1_l. exact Hp.
        -- exfalso. destruct (HA e r Hr E0) as [_ X]. specialize (X (le_n _)). unfold e in X. rewrite Z2Nat.id in X by lia. lia.
      * intros d j Hj. destruct (Nat.ltb_spec d (ln st)) as [Hd|Hd]; [|rewrite HZ by exact Hd; congruence]. intros Hn.
        destruct (Z.eq_dec (sumn rank (fun k => Yf (i - rank)%nat k * co st d (nth k piv 0%nat) j)) 0) as [E0|E0].
        -- unfold Yf in E0. rewrite E0, Z.add_0_r in Hn. apply W3; [exact Hj|]. intros C. rewrite C in Hn. apply Hn. apply Z.mod_0_l. lia.
        -- destruct (HA d j Hj E0) as [X1 X2]. split; [exact X1|]. intros Hrj. apply X2. lia.
Qed.

Lemma iterate_wp p m n flen F ker s : 1 < p -> ker_ok p m n ker ->
  forall k ord st st' b, wp m s st -> iterate p m n ker flen F k ord st = Some (st', b) -> wp m s st'.
Proof.
  intros Hp Hker. induction k as [|k IH]; intros ord st st' b HW HE.
  - cbn [iterate] in HE. injection HE as <- _. exact HW.
  - cbn [iterate] in HE. set (res := if (ord =? 0)%nat then F 0%nat else mul_coeff p m (ln st) flen (co st) F ord) in *. set (perm := shift_perm m (sh st)) in *.
    destruct (Hker (fun i c => res (nth i perm 0%nat) c)) as (K & N & HK & EN & HG).
    set (kr := ker (fun i c => res (nth i perm 0%nat) c)) in *. cbv zeta in HE. rewrite EN in HE.
    destruct (C85_compact p m n _ K N (fst kr) (repeat 0%nat m) HK HG (repeat_length _ _)) as (R & Y & EC & PRN & _ & _ & LR & _ & HY).
    rewrite EC in HE. cbn [obind fst snd] in HE. pose proof (N_le p m n _ K N HK) as HNm.
    destruct (length N =? 0)%nat; [injection HE as <- _; exact HW|]. destruct (length N <? m)%nat; [|eapply IH; eauto].
    eapply IH; [|exact HE]. eapply update_wp; eauto.
Qed.

Lemma one_wp m s : wp m s {| ln := 1; co := one; sh := s |}.
Proof.
  constructor; cbn [ln co sh]; [lia|intros [|d] r j Hd; [lia|reflexivity]|]. intros r Hr. split; [lia|]. rewrite Z.sub_diag. split; [cbn; rewrite Nat.eqb_refl; reflexivity|].
  intros [|d] j Hj; cbn [one]; [|congruence]. destruct (Nat.eqb_spec r j) as [->|]; [|congruence]. intros _. split; lia.
Qed.

(** The iterative routine, for a nonzero input and also when it is left early. *)
Theorem C88_iterative : forall p m n ker flen F order shift st early, 1 < p -> ker_ok p m n ker -> (0 < flen)%nat ->
  mbasis p m n ker flen F order shift = Some (st, early) -> weak_popov m shift (sh st) (co st).
Proof.
  intros p m n ker flen F order shift st early Hp Hk Hl HE. unfold mbasis in HE. destruct (Nat.eqb_spec flen 0); [lia|].
  apply w_form. eapply iterate_wp; [exact Hp|exact Hk|apply one_wp|exact HE].
Qed.
Print Assumptions C88_iterative.

Lemma sumn_one k f i : (i < k)%nat -> (forall j, (j < k)%nat -> j <> i -> f j = 0) -> sumn k f = f i.
Proof.
  intros Hi H. rewrite (sumn_ext k f (fun j => if (j =? i)%nat then f j else 0)); [apply sumn_delta; exact Hi|].
  intros j Hj. destruct (Nat.eqb_spec j i); [reflexivity|apply H; auto].
Qed.

(** The product of two such matrices, the second for the row degrees of the first. *)
Theorem C88_product : forall p m s s1 s2 A B, 1 < p -> weak_popov m s s1 B -> weak_popov m s1 s2 A -> weak_popov m s s2 (product p m A B).
Proof.
  intros p m s s1 s2 A B Hp HB HA r Hr. destruct (HA r Hr) as (A1 & A2 & A3). destruct (HB r Hr) as (B1 & B2 & B3).
  assert (HT : forall d e k j, (e <= d)%nat -> (k < m)%nat -> (j < m)%nat -> A e r k * B (d - e)%nat k j <> 0 ->
    s j + Z.of_nat d <= s2 r /\ ((r < j)%nat -> s j + Z.of_nat d < s2 r) /\ (k <> r -> (r <= j)%nat -> s j + Z.of_nat d < s2 r)).
  { intros d e k j He Hk Hj Hn. assert (Na : A e r k <> 0) by (intros C; apply Hn; rewrite C; ring). assert (Nb : B (d - e)%nat k j <> 0) by (intros C; apply Hn; rewrite C; ring).
    destruct (A3 e k Hk Na) as [X1 X2]. destruct (HB k Hk) as (_ & _ & C3). destruct (C3 _ j Hj Nb) as [Y1 Y2]. split; [lia|]. split.
    - intros Hrj. destruct (Nat.lt_ge_cases r k) as [H|H]; [specialize (X2 H); lia|specialize (Y2 ltac:(lia)); lia].
    - intros Hkr Hrj. destruct (Nat.lt_ge_cases r k) as [H|H]; [specialize (X2 H); lia|specialize (Y2 ltac:(lia)); lia]. }
  split; [lia|]. split.
  - unfold product. set (D := Z.to_nat (s2 r - s r)). set (e0 := Z.to_nat (s2 r - s1 r)).
    assert (HD : s r + Z.of_nat D = s2 r) by (unfold D; lia). assert (He0 : s1 r + Z.of_nat e0 = s2 r) by (unfold e0; lia).
    rewrite (sumn_one (S D) _ e0); [|lia|].
    + rewrite (sumn_one m _ r); [|exact Hr|].
      * replace (D - e0)%nat with (Z.to_nat (s1 r - s r)) by lia. fold e0 in A2. rewrite A2, B2. rewrite Z.mul_1_l. apply Z.mod_1_l. exact Hp.
      * intros k Hk Hkr. destruct (Z.eq_dec (A e0 r k * B (D - e0)%nat k r) 0) as [E|E]; [exact E|]. destruct (HT D e0 k r ltac:(lia) Hk Hr E) as (_ & _ & X). specialize (X Hkr (le_n _)). lia.
    + intros e He Hne. apply sumn_zero_ext. intros k Hk. destruct (Z.eq_dec (A e r k * B (D - e)%nat k r) 0) as [E|E]; [exact E|].
      destruct (HT D e k r ltac:(lia) Hk Hr E) as (_ & _ & X). destruct (Nat.eq_dec k r) as [->|Hkr]; [|specialize (X Hkr (le_n _)); lia].
      assert (Na : A e r r <> 0) by (intros C; apply E; rewrite C; ring). assert (Nb : B (D - e)%nat r r <> 0) by (intros C; apply E; rewrite C; ring).
      destruct (A3 e r Hk Na) as [X1 _]. destruct (B3 _ r Hk Nb) as [Y1 _]. lia.
  - intros d j Hj Hn. unfold product in Hn. assert (Hs : sumn (S d) (fun e => sumn m (fun k => A e r k * B (d - e)%nat k j)) <> 0).
    { intros C. rewrite C in Hn. apply Hn. apply Z.mod_0_l. lia. }
    destruct (sumn_nonzero _ _ Hs) as (e & He & Hn1). destruct (sumn_nonzero _ _ Hn1) as (k & Hk & Hn2). cbv beta in Hn2.
    destruct (HT d e k j ltac:(lia) Hk Hj Hn2) as (X1 & X2 & _). auto.
Qed.
Print Assumptions C88_product.

(** Divide and conquer, when no call of the iterative routine gets a zero matrix. *)
Theorem C88_divide : forall thres fuel p m n ker flen F order shift st, 1 < p -> ker_ok p m n ker ->
  pmbasis thres fuel p m n ker flen F order shift = Some (st, false) -> weak_popov m shift (sh st) (co st).
Proof.
  intros thres. induction fuel as [|f IH]; intros p m n ker flen F order shift st Hp Hk HE; [discriminate|]. cbn [pmbasis] in HE. destruct (order <=? thres)%nat.
  - cbv zeta in HE. set (l := trunc_len m n flen F order) in *. destruct (mbasis _ _ _ _ l _ _ _) as [[s e]|] eqn:E; [|discriminate]. cbn [obind fst snd] in HE.
    injection HE as <- HE. apply orb_false_iff in HE. destruct HE as [HE1 HE2]. apply Nat.eqb_neq in HE1. eapply C88_iterative; [exact Hp|exact Hk| |exact E]. lia.
  - cbv zeta in HE. match type of HE with obind ?x _ = _ => destruct x as [[s1 e1]|] eqn:E1 end; [|discriminate]. cbn [obind fst snd] in HE.
    match type of HE with obind ?x _ = _ => destruct x as [[s2 e2]|] eqn:E2 end; [|discriminate]. cbn [obind fst snd] in HE. injection HE as <- HE. apply orb_false_iff in HE. destruct HE as [-> ->].
    cbn [sh co]. eapply C88_product; [exact Hp|eapply IH; eauto|eapply IH; eauto].
Qed.
Print Assumptions C88_divide.

Lemma max_key {A} (key : A -> Z) : forall l (x : A), In x l -> exists y, In y l /\ forall z, In z l -> key z <= key y.
Proof.
  induction l as [|a l IH]; intros x Hx; [destruct Hx|]. destruct l as [|b l].
  - exists a. split; [left; reflexivity|]. intros z [<-|[]]. lia.
  - destruct (IH b (or_introl eq_refl)) as (y & Hy & Hm). destruct (Z.le_gt_cases (key a) (key y)) as [H|H].
    + exists y. split; [right; exact Hy|]. intros z [<-|Hz]; [exact H|apply Hm, Hz].
    + exists a. split; [left; reflexivity|]. intros z [<-|Hz]; [lia|]. specialize (Hm z Hz). lia.
Qed.

(** Predictable degrees: no cancellation in a combination of the rows.  If the polynomial before row [r] has a nonzero term of degree [d], the
    combination has an entry of shifted degree at least [d + s' r]. *)
Theorem C88_degree : forall p m s s' B a q, weak_popov m s s' B -> polyv p m a ->
  (forall t j, (j < m)%nat -> eqp p (q t j) (mulc m a B t j)) ->
  forall d r, (r < m)%nat -> ~ eqp p (a d r) 0 -> exists t j, (j < m)%nat /\ ~ eqp p (q t j) 0 /\ Z.of_nat d + s' r <= s j + Z.of_nat t.
Proof.
  intros p m s s' B a q HB [L HL] Hq d r Hr Hn.
  set (S0 := filter (fun x => if Zdivide_dec p (a (fst x) (snd x) - 0) then false else true) (list_prod (seq 0 L) (seq 0 m))).
  assert (HS : forall e k, In (e, k) S0 <-> (k < m)%nat /\ ~ eqp p (a e k) 0).
  { intros e k. unfold S0. rewrite filter_In, in_prod_iff, !in_seq. cbn [fst snd]. unfold eqp. destruct (Zdivide_dec p (a e k - 0)) as [H|H].
    - split; [intros [_ X]; discriminate|intros [_ X]; contradiction].
    - split; [intros [X _]; split; [lia|exact H]|]. intros [X1 X2]. split; [|reflexivity]. split; [|lia]. split; [lia|].
      destruct (Nat.lt_ge_cases e L) as [HeL|HeL]; [lia|]. exfalso. apply X2. apply HL; auto. }
  destruct (max_key (fun x => (Z.of_nat (fst x) + s' (snd x)) * Z.of_nat m + Z.of_nat (snd x)) S0 (d, r)) as ([e0 r0] & H0 & HM); [apply HS; auto|].
  cbn [fst snd] in HM. destruct (proj1 (HS e0 r0) H0) as [Hr0 Hn0]. clear H0.
  assert (HM' : forall e k, (k < m)%nat -> ~ eqp p (a e k) 0 -> Z.of_nat e + s' k < Z.of_nat e0 + s' r0 \/ Z.of_nat e + s' k = Z.of_nat e0 + s' r0 /\ (k <= r0)%nat).
  { intros e k Hk Hne. specialize (HM (e, k) (proj2 (HS e k) (conj Hk Hne))). cbn [fst snd] in HM. assert (Z.of_nat k < Z.of_nat m) by lia. assert (Z.of_nat r0 < Z.of_nat m) by lia.
    destruct (Z.lt_trichotomy (Z.of_nat e + s' k) (Z.of_nat e0 + s' r0)) as [H'|[H'|H']]; [left; exact H'| |exfalso; nia]. right. split; [exact H'|]. rewrite H' in HM. lia. }
  destruct (HB r0 Hr0) as (B1 & B2 & B3). set (t := (e0 + Z.to_nat (s' r0 - s r0))%nat).
  exists t, r0. split; [exact Hr0|]. split.
  - intros C. apply Hn0. rewrite <- C. rewrite (Hq t r0 Hr0). unfold mulc. symmetry.
    transitivity (sumn (S t) (fun e => if (e =? e0)%nat then a e r0 else 0)); [|rewrite sumn_delta by (unfold t; lia); reflexivity].
    apply sumn_eqp. intros e He.
    transitivity (sumn m (fun k => if (k =? r0)%nat then (if (e =? e0)%nat then a e r0 else 0) else 0)); [|rewrite sumn_delta by exact Hr0; reflexivity].
    apply sumn_eqp. intros k Hk. destruct (Nat.eqb_spec k r0) as [->|Hkr].
    + destruct (Nat.eqb_spec e e0) as [->|Hee].
      * replace (t - e0)%nat with (Z.to_nat (s' r0 - s r0)) by (unfold t; lia). rewrite B2, Z.mul_1_r. reflexivity.
      * destruct (Zdivide_dec p (a e r0 - 0)) as [Hd|Hd]; [change (eqp p (a e r0) 0) in Hd; rewrite Hd; reflexivity|].
        destruct (Z.eq_dec (B (t - e)%nat r0 r0) 0) as [E|E]; [rewrite E, Z.mul_0_r; reflexivity|]. exfalso.
        destruct (HM' e r0 Hr0 Hd) as [X|[X _]]; [|lia]. destruct (B3 _ r0 Hr0 E) as [Y _]. unfold t in Y, He. lia.
    + destruct (Zdivide_dec p (a e k - 0)) as [Hd|Hd]; [change (eqp p (a e k) 0) in Hd; rewrite Hd; reflexivity|].
      destruct (Z.eq_dec (B (t - e)%nat k r0) 0) as [E|E]; [rewrite E, Z.mul_0_r; reflexivity|]. exfalso.
      destruct (HB k Hk) as (_ & _ & C3). destruct (C3 _ r0 Hr0 E) as [Y1 Y2]. unfold t in Y1, Y2, He.
      destruct (HM' e k Hk Hd) as [X|[X X']]; [lia|]. specialize (Y2 ltac:(lia)). lia.
  - destruct (HM' d r Hr Hn) as [X|[X _]]; unfold t; lia.
Qed.
Print Assumptions C88_degree.

(** Minimality: an approximant that is not zero has a shifted degree not smaller than that of one of the rows of the result. *)
Theorem C88_minimal : forall p m n ker flen F order shift, 1 < p -> ker_ok p m n ker ->
  (forall d r c, (flen <= d)%nat -> (r < m)%nat -> (c < n)%nat -> F d r c = 0) ->
  exists st exc, pmbasis_code p m n ker flen F order shift = Some (st, exc) /\
  (exc = false -> forall q, polyv p m q -> approximant p m n F order q -> (exists t j, (j < m)%nat /\ ~ eqp p (q t j) 0) ->
     exists t j r, (j < m)%nat /\ (r < m)%nat /\ ~ eqp p (q t j) 0 /\ sh st r <= shift j + Z.of_nat t).
Proof.
  intros p m n ker flen F order shift Hp Hk HF. destruct (C87_basis p m n ker flen F order shift ltac:(lia) Hk HF) as (st & exc & E & HB). exists st, exc. split; [exact E|].
  intros -> q Hq1 Hq2 (t0 & j0 & Hj0 & Hn0). specialize (HB eq_refl). pose proof (C88_divide _ _ _ _ _ _ _ _ _ _ _ Hp Hk E) as HW.
  destruct (b_gen _ _ _ _ _ _ HB q Hq1 Hq2) as (a & Ha & Hqa).
  assert (HD : exists d r, (r < m)%nat /\ ~ eqp p (a d r) 0).
  { destruct Ha as [L HL].
    set (l := filter (fun x => if Zdivide_dec p (a (fst x) (snd x) - 0) then false else true) (list_prod (seq 0 L) (seq 0 m))).
    destruct l as [|[d r] l'] eqn:El.
    - exfalso. apply Hn0. rewrite (Hqa t0 j0 Hj0). unfold mulc. rewrite <- (sumn_zero (S t0)). apply sumn_eqp. intros d Hd. rewrite <- (sumn_zero m). apply sumn_eqp. intros r Hr.
      assert (Z0 : eqp p (a d r) 0); [|rewrite Z0; reflexivity]. destruct (Nat.lt_ge_cases d L) as [HdL|HdL]; [|apply HL; auto].
      destruct (Zdivide_dec p (a d r - 0)) as [H|H]; [exact H|]. exfalso. assert (I : In (d, r) l); [|rewrite El in I; destruct I].
      unfold l. apply filter_In. split; [apply in_prod; apply in_seq; lia|]. cbn [fst snd]. destruct (Zdivide_dec p (a d r - 0)); [contradiction|reflexivity].
    - assert (I : In (d, r) l) by (rewrite El; left; reflexivity). unfold l in I. apply filter_In in I. destruct I as [I1 I2]. apply in_prod_iff in I1. rewrite !in_seq in I1. cbn [fst snd] in I2.
      exists d, r. split; [lia|]. unfold eqp. destruct (Zdivide_dec p (a d r - 0)); [discriminate|assumption]. }
  destruct HD as (d & r & Hr & Hn). destruct (C88_degree p m shift (sh st) (co st) a q HW Ha Hqa d r Hr Hn) as (t & j & Hj & Ht & Hle).
  exists t, j, r. repeat split; auto. lia.
Qed.
Print Assumptions C88_minimal.

(** The case of C86 and C87, order 3 modulo 7: the rows (2x + x^2, 6x) and (6 + x, 4 + x) have degrees 2 and 1, the last entries of these degrees
    are on the diagonal, and nothing below degree 1 annihilates (1 + 3x, 2 + x^2) modulo x^3. *)
Example C88_ex : match pmbasis_code 7 2 1 ker2 3 F2 3 (fun _ => 0) with
  | Some (st, e) => e = false /\ sh st 0%nat = 2 /\ sh st 1%nat = 1 /\ co st 2%nat 0%nat 0%nat = 1 /\ co st 2%nat 0%nat 1%nat = 0 /\ co st 1%nat 1%nat 1%nat = 1 /\ co st 1%nat 1%nat 0%nat = 1
  | None => False end.
Proof. vm_compute. repeat split. Qed.
Example C88_shift_ex : match pmbasis 1 4 7 2 1 ker2 3 F2 3 (fun j => if (j =? 0)%nat then 3 else 0) with
  | Some (st, e) => e = false /\ map (sh st) [0; 1]%nat = [3; 3] /\ firstn 4 (table 2 st) = [[[1; 3]; [0; 0]]; [[0; 2]; [0; 0]]; [[0; 2]; [0; 0]]; [[0; 0]; [0; 1]]] | None => False end.
Proof. vm_compute. repeat split. Qed.

(** For the zero matrix the shift is returned unchanged although all rows are multiplied by x^order: it is not the list of their degrees. *)
Theorem C88_zero_refuted : forall p m n ker F order shift st early, (0 < m)%nat -> (0 < order)%nat ->
  mbasis p m n ker 0 F order shift = Some (st, early) -> ~ weak_popov m shift (sh st) (co st).
Proof.
  intros p m n ker F order shift st early Hm Ho HE HW. unfold mbasis in HE. cbn [Nat.eqb] in HE. injection HE as <- _. cbn [sh co] in HW.
  destruct (HW 0%nat Hm) as (_ & H & _). rewrite Z.sub_diag in H. cbn [Z.to_nat] in H. destruct (Nat.eqb_spec 0 order); [lia|discriminate].
Qed.
Print Assumptions C88_zero_refuted.
Example C88_zero_ex : match mbasis 7 2 1 ker2 0 F2 3 (fun _ => 0) with Some (st, e) => sh st 0%nat = 0 /\ co st 3%nat 0%nat 0%nat = 1 | None => False end.
Proof. vm_compute. split; reflexivity. Qed.
