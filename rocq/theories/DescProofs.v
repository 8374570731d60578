(** Sign variation counts: the exact count, and the soundness of the truncated one. *)
From Coq Require Import ZArith List Arith Lia Reals Bool.
From Verif Require Import ModInvModel TaylorModel DescModel PolySpec PolyProofs TaylorProofs.
Import ListNotations.
Open Scope Z_scope.

(** ** Sign changes with a running sign, on integers *)
Fixpoint zchg (s : Z) (l : list Z) : nat :=
  match l with
  | [] => 0%nat
  | a :: l' => if s * a <? 0 then S (zchg a l') else if a =? 0 then zchg s l' else zchg a l'
  end.

Lemma zchg_sign l : forall s t, Z.sgn s = Z.sgn t -> zchg s l = zchg t l.
Proof.
  induction l as [|a l IH]; intros s t H; [reflexivity|]. cbn [zchg].
  assert (E : (s * a <? 0) = (t * a <? 0)).
  { destruct (Z.ltb_spec (s * a) 0), (Z.ltb_spec (t * a) 0); try reflexivity; exfalso;
      pose proof (Z.sgn_mul s a); pose proof (Z.sgn_mul t a); rewrite H in *;
      pose proof (Z.sgn_spec (s * a)); pose proof (Z.sgn_spec (t * a)); lia. }
  rewrite E. destruct (t * a <? 0); [reflexivity|]. destruct (a =? 0); [auto|reflexivity].
Qed.
Lemma sgn_lt s a : (Z.sgn a * s <? 0) = (s * a <? 0).
Proof.
  destruct (Z.ltb_spec (Z.sgn a * s) 0), (Z.ltb_spec (s * a) 0); try reflexivity; exfalso;
    pose proof (Z.sgn_spec a); nia.
Qed.
Lemma sgn_lt2 s a : (s * Z.sgn a <? 0) = (s * a <? 0).
Proof. rewrite Z.mul_comm. apply sgn_lt. Qed.

Lemma zchg_filter l : forall s, s <> 0 -> zchg s l = adj_changes (s :: nonzero l).
Proof.
  induction l as [|a l IH]; intros s Hs; [reflexivity|]. cbn [zchg nonzero filter].
  destruct (Z.eqb_spec a 0) as [->|Ha]; cbn [negb].
  - rewrite Z.mul_0_r. cbn. apply IH. assumption.
  - change (filter (fun a0 : Z => negb (a0 =? 0)) l) with (nonzero l). cbn [adj_changes].
    rewrite (IH a Ha). cbn [adj_changes]. destruct (s * a <? 0); reflexivity.
Qed.
Lemma zchg0 l : zchg 0 l = variations l.
Proof.
  unfold variations. induction l as [|a l IH]; [reflexivity|]. cbn [zchg nonzero filter]. rewrite Z.mul_0_l. cbn [Z.ltb Z.compare].
  destruct (Z.eqb_spec a 0) as [->|Ha]; cbn [negb]; [exact IH|].
  rewrite zchg_filter by assumption. reflexivity.
Qed.
Lemma zchg_start a l : a <> 0 -> zchg a l = variations (a :: l).
Proof.
  intros H. rewrite <- zchg0. cbn [zchg]. rewrite Z.mul_0_l. cbn [Z.ltb Z.compare].
  destruct (Z.eqb_spec a 0); [contradiction|reflexivity].
Qed.

Lemma adj_changes_snoc l : forall a b, adj_changes (l ++ [a; b]) = (adj_changes (l ++ [a]) + (if Z.ltb (a * b) 0 then 1 else 0))%nat.
Proof.
  induction l as [|c l IH]; intros a b; [cbn; lia|].
  destruct l as [|d l].
  - cbn [app adj_changes]. cbn [adj_changes]. lia.
  - specialize (IH a b). cbn [app] in IH |- *. change (adj_changes (c :: d :: l ++ [a; b])) with
      ((if Z.ltb (c * d) 0 then 1 else 0) + adj_changes (d :: l ++ [a; b]))%nat. rewrite IH.
    change (adj_changes (c :: d :: l ++ [a])) with ((if Z.ltb (c * d) 0 then 1 else 0) + adj_changes (d :: l ++ [a]))%nat. lia.
Qed.
Lemma adj_changes_rev l : adj_changes (rev l) = adj_changes l.
Proof.
  induction l as [|a [|b l] IH]; [reflexivity|reflexivity|].
  change (rev (a :: b :: l)) with ((rev l ++ [b]) ++ [a]). rewrite <- app_assoc. cbn [app].
  rewrite adj_changes_snoc. change (rev l ++ [b]) with (rev (b :: l)). rewrite IH.
  change (adj_changes (a :: b :: l)) with ((if Z.ltb (a * b) 0 then 1 else 0) + adj_changes (b :: l))%nat.
  rewrite (Z.mul_comm b a). lia.
Qed.
Lemma filter_rev {A} (f : A -> bool) l : filter f (rev l) = rev (filter f l).
Proof.
  induction l as [|a l IH]; [reflexivity|]. cbn [rev filter]. rewrite filter_app, IH. cbn [filter].
  destruct (f a); [reflexivity|apply app_nil_r].
Qed.
Lemma variations_rev l : variations (rev l) = variations l.
Proof. unfold variations, nonzero. rewrite filter_rev. apply adj_changes_rev. Qed.

(** ** The exact count *)
Lemma getz_some u j : (j < length u)%nat -> getz u j = Some (nth j u 0).
Proof. intros H. unfold getz. apply nth_error_nth'. assumption. Qed.

(** Entries [i], [i-1], ..., 0. *)
Fixpoint down (u : list Z) (i : nat) : list Z :=
  match i with O => [nth 0 u 0] | S i' => nth i u 0 :: down u i' end.
Lemma down_rev u : forall i, (i < length u)%nat -> down u i = rev (firstn (S i) u).
Proof.
  induction i as [|i IH]; intros H.
  - destruct u as [|a u]; [cbn in H; lia|]. reflexivity.
  - cbn [down]. rewrite IH by lia.
    assert (E : firstn (S (S i)) u = firstn (S i) u ++ [nth (S i) u 0]).
    { clear IH. revert i H. induction u as [|a u IH]; intros i H; [cbn in H; lia|]. destruct i as [|i].
      - destruct u as [|b u]; [cbn in H; lia|]. reflexivity.
      - cbn [length] in H. change (firstn (S (S (S i))) (a :: u)) with (a :: firstn (S (S i)) u).
        rewrite IH by lia. reflexivity. }
    rewrite E, rev_app_distr. reflexivity.
Qed.
Lemma down_all u d : length u = S d -> down u d = rev u.
Proof. intros H. rewrite down_rev by lia. rewrite <- H, firstn_all. reflexivity. Qed.

Lemma same_sign s a : s <> 0 -> a <> 0 -> ~ s * a < 0 -> Z.sgn s = Z.sgn a.
Proof. intros. pose proof (Z.sgn_spec s). pose proof (Z.sgn_spec a). nia. Qed.
Lemma zchg_keep s a l : s <> 0 -> ~ s * a < 0 -> zchg s (a :: l) = zchg s l.
Proof.
  intros Hs Hn. cbn [zchg]. destruct (Z.ltb_spec (s * a) 0); [contradiction|].
  destruct (Z.eqb_spec a 0); [reflexivity|]. symmetry. apply zchg_sign, same_sign; auto.
Qed.
Lemma zchg_turn s a l : s * a < 0 -> zchg s (a :: l) = S (zchg a l).
Proof. intros H. cbn [zchg]. destruct (Z.ltb_spec (s * a) 0); [reflexivity|lia]. Qed.
Lemma zchg_opp l : forall s t, t <> 0 -> (zchg s l <= S (zchg t l))%nat.
Proof.
  induction l as [|a l IH]; intros s t Ht; [cbn; lia|]. cbn [zchg].
  destruct (Z.ltb_spec (s * a) 0), (Z.ltb_spec (t * a) 0); try lia.
  - destruct (Z.eqb_spec a 0) as [->|]; lia.
  - destruct (Z.eqb_spec a 0) as [->|]; [lia|]. lia.
  - destruct (Z.eqb_spec a 0) as [->|]; [auto|]. lia.
Qed.
Lemma zchg_skip s a l : s <> 0 -> (zchg s l <= zchg s (a :: l))%nat.
Proof.
  intros Hs. destruct (Z_lt_dec (s * a) 0).
  - rewrite zchg_turn by assumption. apply zchg_opp. nia.
  - rewrite zchg_keep by assumption. lia.
Qed.
Lemma sgn_neq0 a : a <> 0 -> Z.sgn a <> 0.
Proof. destruct a; cbn; lia. Qed.

Lemma sv_loop_ok u i : forall s nb, (i < length u)%nat -> (nb < 3)%nat -> s <> 0 ->
  sv_loop i u s nb = Some (Nat.min 3 (nb + zchg s (down u i))).
Proof.
  induction i as [|i IH]; intros s nb Hi Hn Hs; cbn [sv_loop down]; rewrite getz_some by lia; cbn [obind].
  - rewrite sgn_lt2. cbn [zchg]. destruct (s * nth 0 u 0 <? 0); [f_equal; lia|]. destruct (nth 0 u 0 =? 0); f_equal; lia.
  - rewrite sgn_lt. destruct (Z.ltb_spec (s * nth (S i) u 0) 0) as [L|L].
    + rewrite zchg_turn by assumption.
      destruct (Nat.leb_spec 3 (S nb)); [f_equal; lia|]. rewrite IH; [|lia|lia|apply sgn_neq0; nia].
      rewrite (zchg_sign _ (Z.sgn (nth (S i) u 0)) (nth (S i) u 0)) by apply Z.sgn_sgn. f_equal. lia.
    + rewrite zchg_keep by lia. apply IH; assumption || lia.
Qed.
Lemma down_S u d : down u (S d) = nth (S d) u 0 :: down u d.
Proof. reflexivity. Qed.
Lemma var_down u d : length u = S (S d) -> nth (S d) u 0 <> 0 -> zchg (Z.sgn (nth (S d) u 0)) (down u d) = variations u.
Proof.
  intros Hl Hn. rewrite (zchg_sign _ _ (nth (S d) u 0)) by apply Z.sgn_sgn.
  rewrite zchg_start by assumption. rewrite <- down_S, (down_all u (S d)) by assumption. apply variations_rev.
Qed.
Lemma sgn_variations_ok u deg : length u = S deg -> deg <> 0%nat -> nth deg u 0 <> 0 ->
  sgn_variations u deg = Some (Nat.min 3 (variations u)).
Proof.
  intros Hl Hd Hn. unfold sgn_variations. destruct deg as [|d]; [contradiction|].
  rewrite getz_some by lia. cbn [obind]. rewrite sv_loop_ok; [|lia|lia|apply sgn_neq0; assumption].
  rewrite var_down by assumption. reflexivity.
Qed.

Lemma svz_loop_ok u i : forall s, (i < length u)%nat -> s <> 0 ->
  svz_loop i u s = Some (Nat.min 1 (zchg s (down u i))).
Proof.
  induction i as [|i IH]; intros s Hi Hs; cbn [svz_loop down]; rewrite getz_some by lia; cbn [obind].
  - rewrite sgn_lt2. cbn [zchg]. destruct (s * nth 0 u 0 <? 0); [f_equal; lia|]. destruct (nth 0 u 0 =? 0); f_equal; lia.
  - rewrite sgn_lt. destruct (Z.ltb_spec (s * nth (S i) u 0) 0) as [L|L].
    + rewrite zchg_turn by assumption. reflexivity.
    + rewrite zchg_keep by lia. apply IH; assumption || lia.
Qed.
Lemma is_zero_ok u deg : length u = S deg -> deg <> 0%nat -> nth deg u 0 <> 0 ->
  sgn_variations_is_zero u deg = Some (Nat.min 1 (variations u)).
Proof.
  intros Hl Hd Hn. unfold sgn_variations_is_zero. destruct deg as [|d]; [contradiction|].
  rewrite getz_some by lia. cbn [obind]. rewrite svz_loop_ok; [|lia|apply sgn_neq0; assumption].
  rewrite var_down by assumption. reflexivity.
Qed.

(** ** The count on approximated coefficients *)
Definition thr (deg bsize L i : nat) : nat :=
  match i with O => (L + 1)%nat | _ => Nat.min ((bsize - i + 1) * L + 1) (Nat.min deg ((i + 1) * L + 1)) end.
Definition trusted (deg bsize L i : nat) (a : Z) : Prop := Z.of_nat (thr deg bsize L i) < sizeb a /\ a <> 0.

Lemma trust_dec N a (b : bool) : (if (sizeb a <=? Z.of_nat N) || (a =? 0) then false else b) =
  (if (Z.of_nat N <? sizeb a) && negb (a =? 0) then b else false).
Proof. rewrite Z.leb_antisym. destruct (Z.of_nat N <? sizeb a), (a =? 0); reflexivity. Qed.

Lemma svb_loop_ok u l deg bsize L (Hl : length l = length u) i : forall s t nb boo n, (i < length u)%nat -> (nb < 3)%nat -> s <> 0 -> Z.sgn t = Z.sgn s ->
  (forall j, (j <= i)%nat -> trusted deg bsize L j (nth j u 0) -> Z.sgn (nth j l 0) = Z.sgn (nth j u 0)) ->
  svb_loop i u deg bsize L s nb boo = Some (Some n) ->
  (n = 3 /\ (3 <= nb + zchg t (down l i)))%nat \/
  (boo = true /\ (n = (nb + zchg t (down l i)) /\ n <= 3)%nat /\ forall j, (j <= i)%nat -> trusted deg bsize L j (nth j u 0)).
Proof.
  induction i as [|i IH]; intros s t nb boo n Hi Hn Hs Ht HT H.
  - cbn [svb_loop] in H. rewrite getz_some in H by lia. cbn [obind] in H. cbn [down].
    rewrite trust_dec, sgn_lt2 in H. pose proof (HT 0%nat (le_n 0)) as HT0. unfold trusted, thr in HT0. 
    destruct (Z.ltb_spec (Z.of_nat (L + 1)) (sizeb (nth 0 u 0))) as [B|B];
      [destruct (Z.eqb_spec (nth 0 u 0) 0) as [E|E]|]; cbn [andb negb] in H.
    + rewrite ?Bool.andb_false_r in H. destruct (Nat.leb_spec 3 nb); [lia|]. discriminate.
    + assert (S1 : Z.sgn (nth 0 l 0) = Z.sgn (nth 0 u 0)) by auto.
      assert (Z1 : zchg t [nth 0 l 0] = if s * nth 0 u 0 <? 0 then 1%nat else 0%nat).
      { rewrite (zchg_sign _ t s) by assumption. cbn [zchg]. rewrite <- sgn_lt2, S1, sgn_lt2. destruct (s * nth 0 u 0 <? 0); [reflexivity|].
        destruct (nth 0 l 0 =? 0); reflexivity. }
      rewrite Z1. rewrite ?Bool.andb_true_r in H. destruct boo.
      * rewrite Bool.orb_true_r in H. right. split; [reflexivity|]. split.
        -- injection H as <-. destruct (s * nth 0 u 0 <? 0); lia.
        -- intros j Hj. assert (j = 0)%nat as -> by lia. split; assumption.
      * rewrite Bool.orb_false_r in H. destruct (Nat.leb_spec 3 (if s * nth 0 u 0 <? 0 then S nb else nb)); [|discriminate].
        injection H as <-. left. destruct (s * nth 0 u 0 <? 0); lia.
    + rewrite ?Bool.andb_false_r in H. cbn [andb] in H. destruct (Nat.leb_spec 3 nb); [lia|]. discriminate.
  - cbn [svb_loop] in H. rewrite getz_some in H by lia. cbn [obind] in H. cbn [down].
    change (Nat.min ((bsize - S i + 1) * L + 1) (Nat.min deg ((S i + 1) * L + 1))) with (thr deg bsize L (S i)) in H.
    rewrite trust_dec, sgn_lt in H. pose proof (HT (S i) (le_n _)) as HT0. unfold trusted in HT0.
    assert (HT' : forall j, (j <= i)%nat -> trusted deg bsize L j (nth j u 0) -> Z.sgn (nth j l 0) = Z.sgn (nth j u 0)) by (intros; apply HT; auto).
    assert (Hs' : t <> 0) by (intros E; apply Hs, Z.sgn_null_iff; rewrite <- Ht, E; reflexivity).
    set (a := nth (S i) u 0) in *. set (b := nth (S i) l 0) in *.
    destruct ((Z.of_nat (thr deg bsize L (S i)) <? sizeb a) && negb (a =? 0)) eqn:D.
    + assert (T1 : trusted deg bsize L (S i) a).
      { apply andb_prop in D. destruct D as [D1 D2]. split; [apply Z.ltb_lt; assumption|]. intros E. rewrite E in D2. discriminate. }
      assert (S1 : Z.sgn b = Z.sgn a) by (apply HT0; exact T1). destruct T1 as [T1 T2].
      rewrite <- Bool.andb_assoc, D in H. rewrite Bool.andb_true_r in H.
      assert (Q : (s * a <? 0) = (t * b <? 0)).
      { rewrite <- sgn_lt2, <- S1, sgn_lt2, Z.mul_comm, <- sgn_lt2, <- Ht, sgn_lt2, Z.mul_comm. reflexivity. }
      rewrite Q in H. destruct (Z.ltb_spec (t * b) 0) as [L1|L1].
      * rewrite zchg_turn by assumption. destruct (Nat.leb_spec 3 (S nb)).
        -- injection H as <-. left. lia.
        -- destruct (IH (Z.sgn a) b (S nb) boo n ltac:(lia) ltac:(lia) (sgn_neq0 _ T2) ltac:(rewrite Z.sgn_sgn; assumption) HT' H) as [R|(R1 & R2 & R3)].
           ++ left. lia.
           ++ right. split; [assumption|]. split; [lia|]. intros j Hj. destruct (Nat.eq_dec j (S i)) as [->|]; [split; assumption|]. apply R3. lia.
      * rewrite zchg_keep by lia.
        destruct (IH s t nb boo n ltac:(lia) Hn Hs Ht HT' H) as [R|(R1 & R2 & R3)]; [left; assumption|].
        right. split; [assumption|]. split; [lia|]. intros j Hj. destruct (Nat.eq_dec j (S i)) as [->|]; [split; assumption|]. apply R3. lia.
    + rewrite <- Bool.andb_assoc, D in H. rewrite Bool.andb_false_r in H.
      destruct (IH s t nb false n ltac:(lia) Hn Hs Ht HT' H) as [R|(R1 & R2 & R3)]; [|discriminate].
      left. pose proof (zchg_skip t b (down l i) Hs'). lia.
Qed.
Lemma svb_loop_total u deg bsize L i : forall s nb boo, (i < length u)%nat -> exists r, svb_loop i u deg bsize L s nb boo = Some r.
Proof.
  induction i as [|i IH]; intros s nb boo Hi; cbn [svb_loop]; rewrite getz_some by lia; cbn [obind]; [eauto|].
  destruct (_ && _ && _); [destruct (3 <=? S nb)%nat; [eauto|]|]; apply IH; lia.
Qed.

(** [l] holds the true coefficients, [u] the approximations: a trusted approximation has the right sign. *)
Lemma bsize_ok u l deg : length u = S deg -> length l = S deg -> deg <> 0%nat ->
  Z.sgn (nth deg l 0) = Z.sgn (nth deg u 0) ->
  (forall j, (j < deg)%nat -> trusted deg deg (Nat.log2 deg) j (nth j u 0) -> Z.sgn (nth j l 0) = Z.sgn (nth j u 0)) ->
  exists r, sgn_variations_bsize u deg deg = Some r /\
    forall n, r = Some n -> n = Nat.min 3 (variations l) /\
      (n = 0%nat -> forall j, (j < deg)%nat -> trusted deg deg (Nat.log2 deg) j (nth j u 0)).
Proof.
  intros Hu Hl Hd H0 HT. unfold sgn_variations_bsize. rewrite getz_some by lia. cbn [obind].
  destruct (Z.eqb_spec (Z.sgn (nth deg u 0)) 0) as [E|E]; [eexists; split; [reflexivity|intros; discriminate]|].
  destruct deg as [|d]; [contradiction|].
  destruct (svb_loop_total u (S d) (S d) (Nat.log2 (S d)) d (Z.sgn (nth (S d) u 0)) 0 true ltac:(lia)) as (r & Er).
  exists r. split; [assumption|]. intros n ->.
  assert (Hn : nth (S d) l 0 <> 0) by (intros Q; rewrite Q in H0; symmetry in H0; exact (E H0)).
  pose proof (svb_loop_ok u l (S d) (S d) (Nat.log2 (S d)) ltac:(congruence) d _ (Z.sgn (nth (S d) l 0)) 0 true n ltac:(lia) ltac:(lia) E ltac:(rewrite !Z.sgn_sgn; exact H0)
     ltac:(intros; apply HT; [lia|assumption]) Er) as R. rewrite var_down in R by assumption.
  destruct R as [R|(_ & R & R')]; [split; [lia|intros Q; exfalso; lia]|]. split.
  - lia.
  - intros _ j Hj. apply R'. lia.
Qed.

(** ** Binomial coefficients: [bin a b] is (a+b)! / (a! b!) *)
Fixpoint bin (a : nat) : nat -> nat :=
  fix go (b : nat) : nat :=
    match a, b with
    | O, _ => 1%nat
    | _, O => 1%nat
    | S a', S b' => (bin a' b + go b')%nat
    end.
Lemma bin_0 b : bin 0 b = 1%nat. Proof. destruct b; reflexivity. Qed.
Lemma bin_r0 a : bin a 0 = 1%nat. Proof. destruct a; reflexivity. Qed.
Lemma bin_SS a b : bin (S a) (S b) = (bin a (S b) + bin (S a) b)%nat. Proof. reflexivity. Qed.
Lemma bin_sym a : forall b, bin a b = bin b a.
Proof.
  induction a as [|a IHa]; intros b; [rewrite bin_0, bin_r0; reflexivity|].
  induction b as [|b IHb]; [rewrite bin_0, bin_r0; reflexivity|].
  rewrite bin_SS, (bin_SS b a), IHb, (IHa (S b)). lia.
Qed.
Lemma bin_absorb n : forall a b, (a + b <= n)%nat ->
  ((a + 1) * bin (S a) b = (a + b + 1) * bin a b /\ (b + 1) * bin a (S b) = (a + b + 1) * bin a b)%nat.
Proof.
  induction n as [|n IH]; intros a b H.
  - assert (a = 0)%nat as -> by lia. assert (b = 0)%nat as -> by lia. cbn. lia.
  - split.
    + destruct b as [|b]; [rewrite !bin_r0; lia|]. rewrite bin_SS.
      destruct (IH a b ltac:(lia)) as [E1 E2]. nia.
    + destruct a as [|a]; [rewrite !bin_0; lia|]. rewrite bin_SS.
      destruct (IH a b ltac:(lia)) as [E1 E2]. nia.
Qed.
Lemma bin_step a b : ((a + 1) * bin (S a) b = (b + 1) * bin a (S b))%nat.
Proof. destruct (bin_absorb (a + b) a b (le_n _)) as [E1 E2]. lia. Qed.
Lemma bin_pow2 n : forall a b, (a + b <= n)%nat -> (bin a b <= 2 ^ (a + b - 1))%nat.
Proof.
  induction n as [|n IH]; intros a b H.
  - assert (a = 0)%nat as -> by lia. rewrite bin_0. assert (b = 0)%nat as -> by lia. cbn. lia.
  - destruct a as [|a]; [rewrite bin_0; pose proof (Nat.pow_nonzero 2 (0 + b - 1) ltac:(lia)); lia|].
    destruct b as [|b]; [rewrite bin_r0; pose proof (Nat.pow_nonzero 2 (S a + 0 - 1) ltac:(lia)); lia|].
    rewrite bin_SS. pose proof (IH a (S b) ltac:(lia)) as B1. pose proof (IH (S a) b ltac:(lia)) as B2.
    replace (S a + S b - 1)%nat with (S (a + b)) by lia. rewrite Nat.pow_succ_r'.
    replace (a + S b - 1)%nat with (a + b)%nat in B1 by lia. replace (S a + b - 1)%nat with (a + b)%nat in B2 by lia. lia.
Qed.
(** 2^(k-1) * binomial(n,k) <= n^k. *)
Lemma bin_pow k : forall b, (2 ^ k * bin (S k) b <= (S k + b) ^ (S k))%nat.
Proof.
  induction k as [|k IH]; intros b.
  - pose proof (bin_step 0 b) as E. rewrite bin_0 in E. cbn [Nat.pow]. lia.
  - pose proof (bin_step (S k) b) as E. specialize (IH (S b)).
    replace (S k + S b)%nat with (S (S k) + b)%nat in IH by lia.
    assert (2 * bin (S (S k)) b <= (S (S k) + b) * bin (S k) (S b))%nat by nia.
    rewrite !Nat.pow_succ_r' in *. nia.
Qed.
Lemma bin_mono_l a b : (bin a b <= bin (S a) b)%nat.
Proof. destruct b as [|b]; [rewrite !bin_r0; lia|]. rewrite bin_SS. lia. Qed.
Lemma bin_mono a a' b b' : (a <= a')%nat -> (b <= b')%nat -> (bin a b <= bin a' b')%nat.
Proof.
  intros Ha Hb. transitivity (bin a' b).
  - induction Ha; [lia|]. etransitivity; [eassumption|apply bin_mono_l].
  - rewrite !(bin_sym a'). induction Hb; [lia|]. etransitivity; [eassumption|apply bin_mono_l].
Qed.

Lemma bin_small k b L : (S k + b <= 2 ^ (L + 1))%nat -> (bin (S k) b <= 2 ^ (S k * L + 1))%nat.
Proof.
  intros H. pose proof (bin_pow k b) as P.
  assert (Q : ((S k + b) ^ S k <= 2 ^ k * 2 ^ (S k * L + 1))%nat).
  { rewrite <- Nat.pow_add_r. replace (k + (S k * L + 1))%nat with ((L + 1) * S k)%nat by lia.
    rewrite Nat.pow_mul_r. apply Nat.pow_le_mono_l. assumption. }
  pose proof (Nat.pow_nonzero 2 k ltac:(lia)). nia.
Qed.
(** The thresholds of the code dominate the propagation of the truncation error. *)
Lemma thr_ok deg i : (i < deg)%nat -> (bin (S i) (deg - i) <= 2 ^ thr deg deg (Nat.log2 deg) i)%nat.
Proof.
  intros H. set (L := Nat.log2 deg).
  assert (HL : (deg + 1 <= 2 ^ (L + 1))%nat).
  { pose proof (Nat.log2_spec deg ltac:(lia)) as [_ B]. fold L in B. replace (L + 1)%nat with (S L) by lia. lia. }
  assert (B1 : (bin (S i) (deg - i) <= 2 ^ ((i + 1) * L + 1))%nat).
  { replace (i + 1)%nat with (S i) by lia. apply bin_small. replace (S i + (deg - i))%nat with (deg + 1)%nat by lia. assumption. }
  unfold thr. destruct i as [|i]; [replace (L + 1)%nat with ((0 + 1) * L + 1)%nat by lia; assumption|].
  assert (B2 : (bin (S (S i)) (deg - S i) <= 2 ^ ((deg - S i + 1) * L + 1))%nat).
  { rewrite bin_sym. replace (deg - S i)%nat with (S (deg - S (S i))) at 1 by lia.
    etransitivity; [apply (bin_small (deg - S (S i)) (S (S i)) L); replace (S (deg - S (S i)) + S (S i))%nat with (deg + 1)%nat by lia; assumption|].
    apply Nat.pow_le_mono_r; [lia|]. nia. }
  assert (B3 : (bin (S (S i)) (deg - S i) <= 2 ^ deg)%nat).
  { etransitivity; [apply (bin_pow2 (deg + 1)); lia|]. apply Nat.pow_le_mono_r; lia. }
  destruct (Nat.min_spec ((deg - S i + 1) * L + 1) (Nat.min deg ((S i + 1) * L + 1))) as [[_ ->]|[_ ->]]; [assumption|].
  destruct (Nat.min_spec deg ((S i + 1) * L + 1)) as [[_ ->]|[_ ->]]; assumption.
Qed.

(** ** Taylor shift, one coefficient at a time *)
Lemma tsh_cons a l : tsh (a :: l) = padd [a] (padd (tsh l ++ [0]) (0 :: tsh l)).
Proof.
  symmetry. apply tsh_unique.
  - rewrite !padd_length, app_length. cbn [length]. rewrite tsh_length. lia.
  - intros x. rewrite !zev_padd, zev_app. cbn [zev]. rewrite tsh_eval. ring.
Qed.
Lemma nth_padd p : forall q i, nth i (padd p q) 0 = nth i p 0 + nth i q 0.
Proof.
  induction p as [|a p IH]; intros q i; [cbn [padd]; destruct i; cbn [nth]; lia|].
  destruct q as [|b q]; [cbn [padd]; destruct i; cbn [nth]; lia|]. cbn [padd]. destruct i as [|i]; cbn [nth]; [reflexivity|apply IH].
Qed.
Lemma nth_snoc0 l i : nth i (l ++ [0]) 0 = nth i l 0.
Proof.
  destruct (Nat.lt_ge_cases i (length l)); [apply app_nth1; assumption|].
  rewrite app_nth2 by assumption. rewrite (nth_overflow l) by assumption. destruct (i - length l)%nat as [|[|n]]; reflexivity.
Qed.
Lemma nth_tsh_0 a l : nth 0 (tsh (a :: l)) 0 = a + nth 0 (tsh l) 0.
Proof. rewrite tsh_cons, !nth_padd, nth_snoc0. cbn [nth]. lia. Qed.
Lemma nth_tsh_S a l i : nth (S i) (tsh (a :: l)) 0 = nth (S i) (tsh l) 0 + nth i (tsh l) 0.
Proof. rewrite tsh_cons, !nth_padd, nth_snoc0. cbn [nth]. destruct i; cbn [nth]; lia. Qed.

Lemma tsh_err M l : 0 <= M -> Forall (fun a => Z.abs a <= M) l -> forall i, (i < length l)%nat ->
  Z.abs (nth i (tsh l) 0) <= M * Z.of_nat (bin (S i) (length l - 1 - i)).
Proof.
  intros HM. induction l as [|a l IH]; intros F i Hi; [cbn in Hi; lia|].
  pose proof (Forall_inv F) as Fa. specialize (IH (Forall_inv_tail F)). cbv beta in Fa. cbn [length] in Hi |- *.
  replace (S (length l) - 1 - i)%nat with (length l - i)%nat by lia.
  destruct i as [|i].
  - rewrite nth_tsh_0. destruct l as [|b l]; [cbn; lia|]. specialize (IH 0%nat ltac:(cbn; lia)).
    cbn [length] in IH |- *. replace (S (length l) - 1 - 0)%nat with (length l) in IH by lia.
    replace (S (length l) - 0)%nat with (S (length l)) by lia. rewrite bin_SS, bin_0. lia.
  - rewrite nth_tsh_S. pose proof (IH i ltac:(lia)) as H1.
    destruct (Nat.eq_dec (S i) (length l)) as [E|E].
    + rewrite (nth_overflow (tsh l) 0) by (rewrite tsh_length; lia).
      replace (length l - S i)%nat with 0%nat by lia. replace (length l - 1 - i)%nat with 0%nat in H1 by lia.
      rewrite bin_r0 in *. lia.
    + pose proof (IH (S i) ltac:(lia)) as H2. replace (length l - S i)%nat with (S (length l - 1 - S i)) by lia.
      rewrite bin_SS. replace (S (length l - 1 - S i)) with (length l - 1 - i)%nat by lia. lia.
Qed.
Lemma tsh_lin c l l' e : length l' = length l -> length e = length l ->
  (forall i, nth i l 0 = c * nth i l' 0 + nth i e 0) -> forall i, nth i (tsh l) 0 = c * nth i (tsh l') 0 + nth i (tsh e) 0.
Proof.
  revert l' e. induction l as [|a l IH]; intros [|a' l'] [|b e]; cbn [length]; intros H1 H2 H i; try lia.
  - destruct i; cbn; lia.
  - assert (IH' := IH l' e ltac:(lia) ltac:(lia) (fun i => H (S i))). pose proof (H 0%nat) as H0. cbn [nth] in H0. destruct i as [|i].
    + rewrite !nth_tsh_0, IH'. lia.
    + rewrite !nth_tsh_S, !IH'. lia.
Qed.
Lemma tsh_last l : l <> [] -> nth (length l - 1) (tsh l) 0 = nth (length l - 1) l 0.
Proof.
  induction l as [|a l IH]; intros H; [contradiction|]. destruct l as [|b l]; [reflexivity|].
  cbn [length] in *. replace (S (S (length l)) - 1)%nat with (S (length l)) by lia.
  rewrite nth_tsh_S. replace (S (length l) - 1)%nat with (length l) in IH by lia.
  rewrite IH by discriminate. rewrite (nth_overflow (tsh (b :: l))) by (rewrite tsh_length; cbn; lia). reflexivity.
Qed.

(** Truncation by a power of two. *)
Definition tr (t : Z) (l : list Z) : list Z := map (fun a => Z.quot a (2 ^ t)) l.
Definition te (t : Z) (l : list Z) : list Z := map (fun a => Z.rem a (2 ^ t)) l.
Lemma nth_map0 (f : Z -> Z) l i : f 0 = 0 -> nth i (map f l) 0 = f (nth i l 0).
Proof. intros H. rewrite <- H at 1. apply map_nth. Qed.
Lemma tr_te t l i : 0 <= t -> nth i l 0 = 2 ^ t * nth i (tr t l) 0 + nth i (te t l) 0.
Proof.
  intros H. unfold tr, te. rewrite !nth_map0.
  - apply Z.quot_rem'.
  - apply Z.rem_0_l. pose proof (Z.pow_pos_nonneg 2 t). lia.
  - apply Z.quot_0_l. pose proof (Z.pow_pos_nonneg 2 t). lia.
Qed.
Lemma te_small t l : 0 <= t -> Forall (fun a => Z.abs a <= 2 ^ t - 1) (te t l).
Proof.
  intros H. apply Forall_forall. intros a Ha. unfold te in Ha. apply in_map_iff in Ha. destruct Ha as (b & <- & _).
  pose proof (Z.pow_pos_nonneg 2 t ltac:(lia) H). pose proof (Z.rem_bound_abs b (2 ^ t) ltac:(lia)). lia.
Qed.
Lemma sizeb_ge N a : Z.of_nat N < sizeb a -> a <> 0 -> 2 ^ Z.of_nat N <= Z.abs a.
Proof.
  unfold sizeb. destruct (Z.eqb_spec a 0); [contradiction|]. intros H _.
  pose proof (Z.log2_spec (Z.abs a) ltac:(lia)) as [B _].
  etransitivity; [|exact B]. apply Z.pow_le_mono_r; lia.
Qed.
Lemma sgn_stable c a e M : 0 < c -> M <= Z.abs a -> Z.abs e <= (c - 1) * M -> 0 < M -> Z.sgn (c * a + e) = Z.sgn a.
Proof. intros. pose proof (Z.sgn_spec (c * a + e)). pose proof (Z.sgn_spec a). nia. Qed.

(** A trusted coefficient of the shift of a truncated block has the sign of the exact one. *)
Lemma block_sign t deg o b i : 0 <= t -> (o + length b <= S deg)%nat -> (i < length b)%nat -> (o + i < deg)%nat ->
  trusted deg deg (Nat.log2 deg) (o + i) (nth i (tsh (tr t b)) 0) ->
  Z.sgn (nth i (tsh b) 0) = Z.sgn (nth i (tsh (tr t b)) 0).
Proof.
  intros Ht Ho Hi Hd [T1 T2].
  rewrite (tsh_lin (2 ^ t) b (tr t b) (te t b)); [|apply map_length|apply map_length|intros; apply tr_te; assumption].
  pose proof (Z.pow_pos_nonneg 2 t ltac:(lia) Ht).
  apply sgn_stable with (2 ^ Z.of_nat (thr deg deg (Nat.log2 deg) (o + i))).
  - assumption.
  - apply sizeb_ge; assumption.
  - assert (Lt : length (te t b) = length b) by apply map_length.
    etransitivity; [apply (tsh_err (2 ^ t - 1) (te t b)); [lia|apply te_small; assumption|lia]|].
    apply Z.mul_le_mono_nonneg_l; [lia|]. rewrite Lt.
    rewrite <- (Nat2Z.inj_pow 2). apply Nat2Z.inj_le. etransitivity; [|apply thr_ok; assumption].
    apply bin_mono; lia.
  - apply Z.pow_pos_nonneg; lia.
Qed.
