From Coq Require Import ZArith List Bool Lia Znumtheory.
From Verif Require Import PrimesModel.
Import ListNotations.
Open Scope Z_scope.

Definition bound : Z := 65531 * 65531.

Lemma u32_small x : 0 <= x < 2 ^ 32 -> u32 x = x.
Proof. intros H. unfold u32. apply Z.mod_small. assumption. Qed.

Lemma mod_zero_div n i : 0 < i -> (n mod i =? 0) = true <-> (i | n).
Proof. intros H. rewrite Z.eqb_eq. apply Z.mod_divide. lia. Qed.

Lemma small_factor_prime n : 1 < n -> (forall d, 1 < d -> d * d <= n -> ~ (d | n)) -> prime n.
Proof.
  intros Hn H. apply prime_alt. split; [assumption|].
  intros d Hd [q Hq]. destruct (Z_le_gt_dec (d * d) n) as [Hle|Hgt].
  - apply (H d); [lia|assumption|exists q; lia].
  - assert (1 < q) by nia. apply (H q); [assumption|nia|exists d; lia].
Qed.

Lemma not_prime_of_divisor n d : 1 < d < n -> (d | n) -> ~ prime n.
Proof. intros Hd Hdv Hp. apply prime_divisors in Hdv; [lia|assumption]. Qed.

Lemma trial_ok n : 24 <= n < bound -> ~ (2 | n) -> ~ (3 | n) ->
  forall fuel i k, i = 5 + 6 * k -> 0 <= k -> (forall d, 1 < d < i -> ~ (d | n)) ->
  Z.sqrt n < i + 6 * (Z.of_nat fuel - 1) -> i <= Z.sqrt n + 6 -> (0 < fuel)%nat ->
  exists b, trial fuel i n = Some b /\ (b = true <-> prime n).
Proof.
  intros Hn H2 H3. unfold bound in Hn.
  pose proof (Z.sqrt_spec n ltac:(lia)) as Hsq.
  assert (Hs : Z.sqrt n <= 65530).
  { enough (Z.sqrt n < 65531) by lia. apply Z.sqrt_lt_square; lia. }
  induction fuel as [|fuel IH]; intros i k Hi Hk Hd Hf Hi2 Hpos; [lia|].
  cbn [trial].
  destruct (Z_le_gt_dec i 65530) as [Hsm|Hbig].
  - rewrite (u32_small (i * i)) by nia.
    destruct (Z.leb_spec (i * i) n) as [Hle|Hgt].
    + destruct (n mod i =? 0) eqn:E1.
      { apply mod_zero_div in E1; [|lia]. exists false. split; [reflexivity|]. split; [discriminate|].
        intros Hp. exfalso. apply (not_prime_of_divisor n i); auto. nia. }
      rewrite (u32_small (i + 2)) by lia.
      destruct (n mod (i + 2) =? 0) eqn:E2.
      { apply mod_zero_div in E2; [|lia]. exists false. split; [reflexivity|]. split; [discriminate|].
        intros Hp. exfalso. apply (not_prime_of_divisor n (i + 2)); auto. nia. }
      rewrite (u32_small (i + 6)) by lia.
      assert (Hisq : i <= Z.sqrt n) by (apply Z.sqrt_le_square; lia).
      apply IH with (k := k + 1); try lia.
      * intros d Hd' Hdv.
        destruct (Z_lt_ge_dec d i); [apply (Hd d); [lia|assumption]|].
        assert (d = i \/ d = i + 1 \/ d = i + 2 \/ d = i + 3 \/ d = i + 4 \/ d = i + 5)
          as [->|[->|[->|[->|[->| ->]]]]] by lia.
        -- apply mod_zero_div in Hdv; [congruence|lia].
        -- apply H2. eapply Z.divide_trans; [|exact Hdv]. exists (3 + 3 * k). lia.
        -- apply mod_zero_div in Hdv; [congruence|lia].
        -- apply H2. eapply Z.divide_trans; [|exact Hdv]. exists (4 + 3 * k). lia.
        -- apply H3. eapply Z.divide_trans; [|exact Hdv]. exists (3 + 2 * k). lia.
        -- apply H2. eapply Z.divide_trans; [|exact Hdv]. exists (5 + 3 * k). lia.
    + exists true. split; [reflexivity|]. split; [|reflexivity]. intros _.
      apply small_factor_prime; [lia|]. intros d Hd1 Hd2 Hdv. apply (Hd d); [nia|assumption].
  - (* i = 65531: the square is above n and does not wrap *)
    assert (i <= 65536) by lia. assert (i = 65531) as -> by lia.
    rewrite u32_small by lia. destruct (Z.leb_spec (65531 * 65531) n); [lia|].
    exists true. split; [reflexivity|]. split; [|reflexivity]. intros _.
    apply small_factor_prime; [lia|]. intros d Hd1 Hd2 Hdv. apply (Hd d); [nia|assumption].
Qed.

Lemma is_prime_ok n : 24 <= n < bound -> exists b, is_prime n = Some b /\ (b = true <-> prime n).
Proof.
  intros Hn. unfold is_prime.
  destruct (existsb _ primes_table) eqn:E.
  - exists false. split; [reflexivity|]. split; [discriminate|]. intros Hp. exfalso.
    apply existsb_exists in E. destruct E as (q & Hin & Hq).
    assert (Hqr : 1 < q <= 23) by (cbn in Hin; lia).
    apply mod_zero_div in Hq; [|lia]. apply (not_prime_of_divisor n q); auto. lia.
  - assert (Hnd : forall q, In q primes_table -> ~ (q | n)).
    { intros q Hin Hdv. assert (existsb (fun q => n mod q =? 0) primes_table = true); [|congruence].
      apply existsb_exists. exists q. split; [assumption|]. apply mod_zero_div; [cbn in Hin; lia|assumption]. }
    pose proof (Z.sqrt_nonneg n). pose proof (Z.div_pos (Z.sqrt n) 6 ltac:(lia) ltac:(lia)).
    apply (trial_ok n Hn) with (k := 0); try lia.
    + apply Hnd. cbn; auto.
    + apply Hnd. cbn; auto.
    + intros d Hd Hdv. assert (d = 2 \/ d = 3 \/ d = 4) as [->|[->| ->]] by lia;
      revert Hdv; apply Hnd; cbn; auto.
    + rewrite Z2Nat.id by lia. pose proof (Z.mod_pos_bound (Z.sqrt n) 6 ltac:(lia)).
      pose proof (Z.div_mod (Z.sqrt n) 6). lia.
Qed.

Lemma is_prime_24 n b : 24 <= n < bound -> is_prime n = Some b -> (b = true <-> prime n).
Proof. intros Hn E. destruct (is_prime_ok n Hn) as (b' & E' & H). rewrite E in E'. injection E' as <-. assumption. Qed.

(** next_prime *)
Lemma next_from_ok fuel : forall c p, 24 <= c -> (exists q, prime q /\ c <= q < bound) ->
  next_from fuel c = Some p -> prime p /\ c <= p < bound /\ forall q, prime q -> c <= q -> p <= q.
Proof.
  induction fuel as [|fuel IH]; intros c p Hc (q & Hq & Hcq) E; cbn [next_from] in E; [discriminate|].
  destruct (is_prime_ok c ltac:(lia)) as (b & Eb & Hb). rewrite Eb in E.
  destruct b.
  - injection E as <-. split; [tauto|]. split; [lia|]. intros; lia.
  - assert (Hnp : ~ prime c) by (intros Hp; apply Hb in Hp; discriminate).
    assert (c <> q) by (intros ->; contradiction).
    assert (bound < 2 ^ 32) by (unfold bound; lia).
    rewrite u32_small in E by lia.
    apply IH in E; [|lia|exists q; split; [assumption|lia]].
    destruct E as (H1 & H2 & H3). split; [assumption|]. split; [lia|].
    intros r Hr Hcr. apply H3; [assumption|]. assert (c <> r) by (intros ->; contradiction). lia.
Qed.

Lemma next_from_total : forall fuel c q, 24 <= c -> prime q -> c <= q < bound -> q - c < Z.of_nat fuel ->
  exists p, next_from fuel c = Some p.
Proof.
  induction fuel as [|fuel IH]; intros c q Hc Hq Hcq Hf; cbn [next_from]; [lia|].
  destruct (is_prime_ok c ltac:(lia)) as (b & Eb & Hb). rewrite Eb. destruct b; [eauto|].
  assert (Hnp : ~ prime c) by (intros Hp; apply Hb in Hp; discriminate).
  assert (c <> q) by (intros ->; contradiction).
  assert (bound < 2 ^ 32) by (unfold bound; lia).
  rewrite u32_small by lia. apply IH with (q := q); auto; lia.
Qed.

Lemma next_prime_ok fuel n p : 23 <= n -> (exists q, prime q /\ n < q < bound) -> next_prime fuel n = Some p ->
  prime p /\ n < p < bound /\ forall q, prime q -> n < q -> p <= q.
Proof.
  intros Hn (q & Hq & Hnq) E. unfold next_prime in E.
  assert (bound < 2 ^ 32) by (unfold bound; lia).
  rewrite u32_small in E by lia. apply next_from_ok in E; [|lia|exists q; split; [assumption|lia]].
  destruct E as (H1 & H2 & H3). split; [assumption|]. split; [lia|]. intros r Hr Hnr. apply H3; [assumption|lia].
Qed.

Lemma next_prime_total fuel n q : 23 <= n -> prime q -> n < q < bound -> q - n <= Z.of_nat fuel ->
  exists p, next_prime fuel n = Some p.
Proof.
  intros Hn Hq Hnq Hf. unfold next_prime. assert (bound < 2 ^ 32) by (unfold bound; lia).
  rewrite u32_small by lia. apply next_from_total with (q := q); auto; lia.
Qed.

(** the largest prime used for the wrap-around and one above it *)
Lemma prime_lprime : prime lprime.
Proof. apply (is_prime_24 lprime true); [unfold lprime, bound; lia|vm_compute; reflexivity|reflexivity]. Qed.
Lemma prime_above : prime 1303905347.
Proof. apply (is_prime_24 1303905347 true); [unfold bound; lia|vm_compute; reflexivity|reflexivity]. Qed.

(** ** Selection of primes *)
Definition range (p : Z) : Prop := prime p /\ 2 ^ 30 < p < lprime.

Lemma next_prime_ge fuel n p : 2 ^ 30 <= n < 1303905347 -> next_prime fuel n = Some p ->
  prime p /\ n < p /\ forall q, prime q -> n < q -> p <= q.
Proof.
  intros Hn E. apply next_prime_ok in E; [|lia|].
  - destruct E as (H1 & H2 & H3). split; [assumption|]. split; [lia|assumption].
  - exists 1303905347. split; [exact prime_above|unfold bound; lia].
Qed.

(* cyclic position of a prime of the range, counted from the initial prime b *)
Definition pos (b x : Z) : Z := let b := Z.min b lprime in if b <? x then x - b else x - b + (lprime - 2 ^ 30).

Lemma advance_ok fuel cur a b t :
  2 ^ 30 < b <= 1303905347 -> prime b ->
  ((cur = b /\ t = 0) \/ (range cur /\ t = pos b cur)) ->
  advance fuel cur = Some a ->
  range a /\
  ((t < pos b a /\ forall q, range q -> t < pos b q -> pos b a <= pos b q) \/
   (forall q, range q -> pos b q <= t)).
Proof.
  intros Hb Hbp Hcur. unfold advance.
  destruct (next_prime fuel cur) as [p|] eqn:E; [|discriminate].
  assert (Hp : prime p /\ cur < p /\ forall q, prime q -> cur < q -> p <= q \/ lprime <= q).
  { destruct (Z_lt_ge_dec cur 1303905347).
    - apply next_prime_ge in E; [|unfold range in Hcur; lia]. destruct E as (H1 & H2 & H3). split; [assumption|]. split; [assumption|auto].
    - destruct Hcur as [[-> ->]|[[_ Hc] _]]; [|unfold lprime in Hc; lia].
      (* b = 1303905347 : next_prime still ends at some prime above *)
      assert (b = 1303905347) as -> by lia.
      assert (Hq : exists q, prime q /\ 1303905347 < q < bound).
      { exists 4294311919. split; [|unfold bound; lia].
        apply (is_prime_24 4294311919 true); [unfold bound; lia|vm_compute; reflexivity|reflexivity]. }
      apply next_prime_ok in E; [|lia|exact Hq]. destruct E as (H1 & H2 & H3). split; [assumption|].
      split; [lia|]. intros; left; auto. }
  destruct Hp as (Hpp & Hcp & Hleast).
  assert (HL : lprime = 1303905299) by reflexivity.
  destruct (Z.leb_spec lprime p) as [Hge|Hlt].
  - (* wrapped: no prime of the range above cur *)
    intros E2. apply next_prime_ge in E2; [|lia]. destruct E2 as (Ha1 & Ha2 & Ha3).
    assert (Hal : a <= 1073741827).
    { apply Ha3; [|lia]. apply (is_prime_24 1073741827 true); [unfold bound; lia|vm_compute; reflexivity|reflexivity]. }
    assert (Har : range a) by (split; [assumption|lia]).
    split; [assumption|].
    assert (Hnone : forall q, range q -> q <= cur).
    { intros q [Hq1 Hq2]. destruct (Z_le_gt_dec q cur); [assumption|].
      destruct (Hleast q Hq1 ltac:(lia)); lia. }
    assert (Hmin : forall q, range q -> a <= q) by (intros q [Hq1 Hq2]; apply Ha3; [assumption|lia]).
    assert (Hac : a <= cur) by (apply Hnone; assumption).
    assert (Hbc : b < lprime -> b <= cur) by (intros; apply Hnone; split; [assumption|lia]).
    assert (Hab : b < lprime -> a <= b) by (intros; apply Hmin; split; [assumption|lia]).
    destruct Hcur as [[-> ->]|[Hc ->]].
    + left. unfold pos. split.
      * destruct (Z.ltb_spec (Z.min b lprime) a); lia.
      * intros q Hq. pose proof (Hmin q Hq). pose proof (Hnone q Hq). destruct Hq as [_ Hq].
        destruct (Z.ltb_spec (Z.min b lprime) a); destruct (Z.ltb_spec (Z.min b lprime) q); lia.
    + destruct (Z_lt_ge_dec b lprime) as [Hb1|Hb1]; [destruct (Z.eq_dec b cur) as [->|Hne]|].
      * (* at the initial prime itself *)
        right. intros q [_ Hq]. unfold pos. destruct (Z.ltb_spec (Z.min cur lprime) cur); [lia|].
        destruct (Z.ltb_spec (Z.min cur lprime) q); lia.
      * left. specialize (Hbc Hb1). specialize (Hab Hb1). destruct Hc as [_ Hc]. unfold pos. split.
        -- destruct (Z.ltb_spec (Z.min b lprime) cur), (Z.ltb_spec (Z.min b lprime) a); lia.
        -- intros q Hq. pose proof (Hmin q Hq). pose proof (Hnone q Hq). destruct Hq as [_ Hq].
           destruct (Z.ltb_spec (Z.min b lprime) cur), (Z.ltb_spec (Z.min b lprime) a), (Z.ltb_spec (Z.min b lprime) q); lia.
      * right. intros q Hq. pose proof (Hnone q Hq). destruct Hq as [_ Hq]. destruct Hc as [_ Hc]. unfold pos.
        destruct (Z.ltb_spec (Z.min b lprime) cur), (Z.ltb_spec (Z.min b lprime) q); lia.
  - intros E2; injection E2 as <-.
    assert (Hp30 : 2 ^ 30 < p) by (destruct Hcur as [[-> _]|[[_ H] _]]; lia).
    assert (Hpr : range p) by (split; [assumption|lia]). split; [assumption|].
    assert (Hle : forall q, range q -> cur < q -> p <= q).
    { intros q [Hq1 Hq2] Hcq. destruct (Hleast q Hq1 Hcq); [assumption|lia]. }
    assert (Hbb : cur < b -> p <= b).
    { intros H. destruct (Hleast b Hbp H); lia. }
    destruct Hcur as [[-> ->]|[Hc ->]].
    + left. unfold pos. split.
      * destruct (Z.ltb_spec (Z.min b lprime) p); lia.
      * intros q Hq. pose proof (Hle q Hq). destruct Hq as [_ Hq].
        destruct (Z.ltb_spec (Z.min b lprime) p); destruct (Z.ltb_spec (Z.min b lprime) q); lia.
    + destruct Hc as [_ Hc]. destruct (Z.eq_dec b cur) as [->|Hne].
      * right. intros q [_ Hq]. unfold pos. destruct (Z.ltb_spec (Z.min cur lprime) cur); [lia|].
        destruct (Z.ltb_spec (Z.min cur lprime) q); lia.
      * left. unfold pos. split.
        -- destruct (Z.ltb_spec (Z.min b lprime) cur), (Z.ltb_spec (Z.min b lprime) p); lia.
        -- intros q Hq. pose proof (Hle q Hq). destruct Hq as [_ Hq].
           destruct (Z.ltb_spec (Z.min b lprime) cur), (Z.ltb_spec (Z.min b lprime) p), (Z.ltb_spec (Z.min b lprime) q); lia.
Qed.

Definition good (unlucky : Z -> bool) (b p : Z) : Prop := range p /\ unlucky p = false /\ p <> b.

Lemma skip_ok fuel unlucky b : 2 ^ 30 < b <= 1303905347 -> prime b -> forall steps cur p,
  range cur -> skip fuel steps unlucky b cur = Some p ->
  good unlucky b p /\
  ((pos b cur <= pos b p /\ forall g, good unlucky b g -> pos b cur <= pos b g -> pos b p <= pos b g) \/
   (forall g, good unlucky b g -> pos b g < pos b cur)).
Proof.
  intros Hb Hbp. induction steps as [|s IH]; intros cur p Hc E; cbn [skip] in E.
  - destruct (unlucky cur || (cur =? b)) eqn:Eb; [discriminate|]. injection E as <-.
    apply orb_false_iff in Eb. destruct Eb as [E1 E2]. apply Z.eqb_neq in E2.
    split; [split; [assumption|split; assumption]|]. left. split; [lia|]. intros; assumption.
  - destruct (unlucky cur || (cur =? b)) eqn:Eb.
    + destruct (advance fuel cur) as [a|] eqn:Ea; [|discriminate].
      destruct (advance_ok fuel cur a b (pos b cur) Hb Hbp (or_intror (conj Hc eq_refl)) Ea) as (Ha & Hadv).
      apply IH in E; [|assumption]. destruct E as (Hg & Hs). split; [assumption|].
      assert (Hcb : forall g, good unlucky b g -> pos b g = pos b cur -> False).
      { intros g (Hg1 & Hg2 & Hg3) Eg. destruct Hc as [_ Hc], Hg1 as [_ Hg1].
        assert (g = cur); [|subst g; rewrite Hg2 in Eb; cbn in Eb; apply Z.eqb_eq in Eb; contradiction].
        unfold pos in Eg. destruct (Z.ltb_spec (Z.min b lprime) g), (Z.ltb_spec (Z.min b lprime) cur); lia. }
      destruct Hadv as [[H1 H2]|H1].
      * destruct Hs as [[H3 H4]|H3].
        -- left. split; [lia|]. intros g Hgg Hle. apply H4; [assumption|].
           apply H2; [apply Hgg|]. specialize (Hcb g Hgg). lia.
        -- right. intros g Hgg. specialize (H3 g Hgg).
           destruct (Z_lt_ge_dec (pos b g) (pos b cur)); [assumption|exfalso].
           specialize (Hcb g Hgg). specialize (H2 g (proj1 Hgg) ltac:(lia)). lia.
      * right. intros g Hgg. specialize (H1 g (proj1 Hgg)). specialize (Hcb g Hgg). lia.
    + injection E as <-. apply orb_false_iff in Eb. destruct Eb as [E1 E2]. apply Z.eqb_neq in E2.
      split; [split; [assumption|split; assumption]|]. left. split; [lia|]. intros; assumption.
Qed.

Lemma pick_ok fuel steps unlucky b cur p t : 2 ^ 30 < b <= 1303905347 -> prime b ->
  ((cur = b /\ t = 0) \/ (range cur /\ t = pos b cur)) ->
  pick fuel steps unlucky b cur = Some p ->
  good unlucky b p /\
  ((t < pos b p /\ forall g, good unlucky b g -> t < pos b g -> pos b p <= pos b g) \/
   (forall g, good unlucky b g -> pos b g <= t)).
Proof.
  intros Hb Hbp Hcur. unfold pick. destruct (advance fuel cur) as [a|] eqn:Ea; [|discriminate].
  intros E. destruct (advance_ok fuel cur a b t Hb Hbp Hcur Ea) as (Ha & Hadv).
  destruct (skip_ok fuel unlucky b Hb Hbp steps a p Ha E) as (Hg & Hs). split; [assumption|].
  destruct Hadv as [[H1 H2]|H1].
  - destruct Hs as [[H3 H4]|H3].
    + left. split; [lia|]. intros g Hgg Hlt. apply H4; [assumption|]. apply H2; [apply Hgg|assumption].
    + right. intros g Hgg. specialize (H3 g Hgg). destruct (Z_le_gt_dec (pos b g) t); [assumption|exfalso].
      specialize (H2 g (proj1 Hgg) ltac:(lia)). lia.
  - right. intros g Hgg. apply H1, Hgg.
Qed.

Lemma picks_good fuel steps unlucky b : 2 ^ 30 < b <= 1303905347 -> prime b -> forall n cur l,
  (cur = b \/ range cur) -> picks n fuel steps unlucky b cur = Some l ->
  forall p, In p l -> good unlucky b p.
Proof.
  intros Hb Hbp. induction n as [|n IH]; intros cur l Hcur E p Hin; cbn [picks] in E.
  - injection E as <-. destruct Hin.
  - destruct (pick fuel steps unlucky b cur) as [q|] eqn:Eq; [|discriminate].
    destruct (picks n fuel steps unlucky b q) as [l'|] eqn:El; [|discriminate]. injection E as <-.
    assert (Hq : good unlucky b q).
    { destruct Hcur as [->|Hc].
      - eapply (pick_ok fuel steps unlucky b b q 0); eauto.
      - eapply (pick_ok fuel steps unlucky b cur q (pos b cur)); eauto. }
    destruct Hin as [<-|Hin]; [assumption|]. eapply IH; [right; apply Hq|eassumption|assumption].
Qed.

(* general step: [used] are the primes already picked *)
Lemma picks_fresh fuel steps unlucky b : 2 ^ 30 < b <= 1303905347 -> prime b -> forall n cur t used l,
  ((cur = b /\ t = 0) \/ (range cur /\ t = pos b cur)) ->
  (forall q, In q used -> pos b q <= t) ->
  (forall g, good unlucky b g -> pos b g <= t -> In g used) ->
  picks n fuel steps unlucky b cur = Some l ->
  forall l1 p l2, l = l1 ++ p :: l2 ->
    ~ In p (used ++ l1) \/ (forall g, good unlucky b g -> In g (used ++ l1)).
Proof.
  intros Hb Hbp. induction n as [|n IH]; intros cur t used l Hcur Hu Hg E l1 p l2 El; cbn [picks] in E.
  - injection E as <-. destruct l1; discriminate.
  - destruct (pick fuel steps unlucky b cur) as [q|] eqn:Eq; [|discriminate].
    destruct (picks n fuel steps unlucky b q) as [l'|] eqn:El'; [|discriminate]. injection E as <-.
    destruct (pick_ok fuel steps unlucky b cur q t Hb Hbp Hcur Eq) as (Hgq & Hcase).
    destruct Hcase as [[H1 H2]|H1].
    + destruct l1 as [|x l1]; cbn in El; injection El as <- El.
      * left. rewrite app_nil_r. intros Hin. apply Hu in Hin. lia.
      * replace (used ++ q :: l1) with ((used ++ [q]) ++ l1) by (rewrite <- app_assoc; reflexivity).
        apply (IH q (pos b q) (used ++ [q]) l') with (l2 := l2); auto.
        -- right. split; [apply Hgq|reflexivity].
        -- intros r Hr. apply in_app_iff in Hr. destruct Hr as [Hr|[<-|[]]]; [apply Hu in Hr; lia|lia].
        -- intros g Hgg Hle. apply in_app_iff. destruct (Z_le_gt_dec (pos b g) t); [left; auto|].
           right. left. specialize (H2 g Hgg ltac:(lia)).
           destruct Hgq as [[_ Hq1] _], Hgg as [[_ Hg1] _]. unfold pos in *.
           destruct (Z.ltb_spec (Z.min b lprime) g), (Z.ltb_spec (Z.min b lprime) q); lia.
    + right. intros g Hgg. apply in_app_iff. left. apply Hg; [assumption|]. apply H1; assumption.
Qed.

Lemma picks_distinct fuel steps unlucky b n l : 2 ^ 30 < b <= 1303905347 -> prime b ->
  picks n fuel steps unlucky b b = Some l ->
  forall l1 p l2, l = l1 ++ p :: l2 -> ~ In p l1 \/ (forall g, good unlucky b g -> In g l1).
Proof.
  intros Hb Hbp E l1 p l2 El.
  apply (picks_fresh fuel steps unlucky b Hb Hbp n b 0 nil l) with (l2 := l2); auto.
  - intros q [].
  - intros g [[_ Hg] _] Hle. exfalso. unfold pos in Hle. assert (HL : lprime = 1303905299) by reflexivity.
    destruct (Z.ltb_spec (Z.min b lprime) g); lia.
Qed.

(* the prime 29 is the first candidate after 2: the small primes are missed *)
Lemma small_primes_missed : is_prime 2 = Some false /\ is_prime 23 = Some false /\ is_prime 1 = Some true.
Proof. vm_compute. auto. Qed.
