From Coq Require Import ZArith List Bool Lia Znumtheory.
From Verif Require Import ModInvModel ModInvProofs CrtModel CrtProofs LiftModel.
Open Scope Z_scope.

Lemma upd_same a i v : upd a i v i = v.
Proof. unfold upd. rewrite Nat.eqb_refl. reflexivity. Qed.
Lemma upd_other a i v j : j <> i -> upd a i v j = a j.
Proof. intros H. unfold upd. destruct (Nat.eqb_spec j i); [contradiction|reflexivity]. Qed.

(** rec_up: on success every index holds a successful scalar result, others are untouched. *)
Lemma rec_up_ok f : forall n i tn td tn' td', rec_up f i n tn td = Some (None, tn', td') ->
  (forall j, (i <= j < i + n)%nat -> f j = Some (true, tn' j, td' j)) /\
  (forall j, (j < i \/ i + n <= j)%nat -> tn' j = tn j /\ td' j = td j).
Proof.
  induction n as [|n IH]; intros i tn td tn' td' E; cbn in E.
  - injection E as <- <-. split; [lia|auto].
  - destruct (f i) as [[[b x] y]|] eqn:Ef; cbn in E; [|discriminate].
    destruct b; [|discriminate]. apply IH in E. destruct E as [E1 E2]. split.
    + intros j Hj. destruct (Nat.eq_dec j i) as [->|].
      * destruct (E2 i ltac:(lia)) as [-> ->]. rewrite !upd_same. assumption.
      * apply E1. lia.
    + intros j Hj. destruct (E2 j ltac:(lia)) as [-> ->]. rewrite !upd_other by lia. auto.
Qed.

Lemma rec_up_total f : (forall i, exists r, f i = Some r) -> forall n i tn td,
  exists r, rec_up f i n tn td = Some r.
Proof.
  intros Hf. induction n as [|n IH]; intros i tn td; cbn; [eauto|].
  destruct (Hf i) as [[[b x] y] ->]. cbn. destruct b; eauto.
Qed.

Lemma rec_up_complete f (num den : arr) : forall n i tn td,
  (forall j, (i <= j < i + n)%nat -> f j = Some (true, num j, den j)) ->
  exists tn' td', rec_up f i n tn td = Some (None, tn', td').
Proof.
  induction n as [|n IH]; intros i tn td H; cbn; [eauto|].
  rewrite (H i ltac:(lia)). cbn. apply IH. intros j Hj. apply H. lia.
Qed.

Lemma rec_up_fail f : forall n i tn td k tn' td', rec_up f i n tn td = Some (Some k, tn', td') ->
  (i <= k < i + n)%nat.
Proof.
  induction n as [|n IH]; intros i tn td k tn' td' E; cbn in E; [discriminate|].
  destruct (f i) as [[[b x] y]|]; cbn in E; [|discriminate].
  destruct b; [apply IH in E; lia|]. injection E as <- _ _. lia.
Qed.

(** lcm *)
Lemma lcm_up_spec td : forall n l i, l <> 0 -> (forall j, (i <= j < i + n)%nat -> td j <> 0) ->
  lcm_up l i n td <> 0 /\ (0 < l -> 0 < lcm_up l i n td) /\ (l | lcm_up l i n td) /\
  (forall j, (i <= j < i + n)%nat -> (td j | lcm_up l i n td)) /\
  (forall z, (l | z) -> (forall j, (i <= j < i + n)%nat -> (td j | z)) -> (lcm_up l i n td | z)).
Proof.
  induction n as [|n IH]; intros l i Hl Hpos; cbn.
  - repeat split; try assumption; try apply Z.divide_refl; try lia; auto.
  - assert (Hti : td i <> 0) by (apply Hpos; lia).
    assert (Hlc : 0 < Z.lcm l (td i)).
    { pose proof (Z.lcm_nonneg l (td i)). assert (Z.lcm l (td i) <> 0); [|lia].
      rewrite Z.lcm_eq_0. lia. }
    destruct (IH (Z.lcm l (td i)) (S i)) as (H1 & H1' & H2 & H3 & H4); [lia| |].
    { intros j Hj. apply Hpos. lia. }
    split; [assumption|]. split; [auto|]. split; [|split].
    + eapply Z.divide_trans; [apply Z.divide_lcm_l|exact H2].
    + intros j Hj. destruct (Nat.eq_dec j i) as [->|].
      * eapply Z.divide_trans; [apply Z.divide_lcm_r|exact H2].
      * apply H3. lia.
    + intros z Hz1 Hz2. apply H4.
      * apply Z.lcm_least; [assumption|apply Hz2; lia].
      * intros j Hj. apply Hz2. lia.
Qed.

(** The specification of a reconstructed vector: recons/den represents g * pol modulo m. *)
Definition represents (m : Z) (pol recons : arr) (len : nat) (den g : Z) : Prop :=
  den <> 0 /\ forall i, (i < len)%nat -> (m | recons i - den * g * pol i).

Lemma finish_represents m pol len g mr r0 tn td : (0 < len)%nat ->
  (forall i, (i < len)%nat -> td i <> 0 /\ (m | tn i - td i * g * pol i)) ->
  represents m pol (v_recons (finish mr len r0 tn td)) len (v_den (finish mr len r0 tn td)) g /\
  (0 < td 0%nat -> 0 < v_den (finish mr len r0 tn td)).
Proof.
  intros Hlen H. unfold finish; cbn [v_recons v_den].
  destruct (lcm_up_spec td (len - 1) (td 0%nat) 1) as (H1 & H1' & H2 & H3 & _).
  { apply H; lia. } { intros j Hj; apply H; lia. }
  split; [|assumption]. split; [assumption|]. intros i Hi.
  destruct (Nat.ltb_spec i len); [|lia].
  destruct (H i Hi) as (Hp & [k Hk]).
  set (L := lcm_up (td 0%nat) 1 (len - 1) td) in *. clearbody L.
  assert (Hd : (td i | L)) by (destruct (Nat.eq_dec i 0) as [->|]; [assumption|apply H3; lia]).
  destruct Hd as [q Hq]. rewrite Hq. rewrite Z.div_mul by lia.
  exists (k * q).
  transitivity ((tn i - td i * g * pol i) * q); [ring|]. rewrite Hk. ring.
Qed.

(** Values: the fraction recons_i / den equals tn_i / td_i, and den is the least common denominator. *)
Lemma finish_value len mr r0 tn td : (0 < len)%nat -> (forall i, (i < len)%nat -> td i <> 0) ->
  (forall i, (i < len)%nat -> v_recons (finish mr len r0 tn td) i * td i = tn i * v_den (finish mr len r0 tn td)) /\
  (forall z, (forall i, (i < len)%nat -> (td i | z)) -> (v_den (finish mr len r0 tn td) | z)).
Proof.
  intros Hlen H.
  destruct (lcm_up_spec td (len - 1) (td 0%nat) 1) as (H1 & H1' & H2 & H3 & H4).
  { apply H; lia. } { intros j Hj; apply H; lia. }
  unfold finish; cbn [v_recons v_den]. split.
  - intros i Hi. destruct (Nat.ltb_spec i len); [|lia].
    set (L := lcm_up (td 0%nat) 1 (len - 1) td) in *. clearbody L.
    assert (Hd : (td i | L)) by (destruct (Nat.eq_dec i 0) as [->|]; [assumption|apply H3; lia]).
    destruct Hd as [q Hq]. rewrite Hq. specialize (H i Hi). rewrite Z.div_mul by lia. ring.
  - intros z Hz. apply H4; [apply Hz; lia|]. intros j Hj. apply Hz. lia.
Qed.

Lemma rational_reconstruction_sound r0 d0 pol len m mr tn td N D v :
  1 < m -> 0 <= N -> (mr < len)%nat -> (forall i, (i < len)%nat -> pol i < m) ->
  rational_reconstruction r0 d0 pol len m mr tn td N D = Some v -> v_ok v = true ->
  0 < v_den v /\ forall i, (i < len)%nat -> (m | v_recons v i - v_den v * pol i).
Proof.
  intros Hm HN Hmr Hpol. unfold rational_reconstruction.
  destruct (ratrecon (pol mr) m N D) as [[[b x] y]|] eqn:E0; cbn [obind]; [|discriminate].
  destruct b; cbn [negb]; [|intros E; injection E as <-; discriminate].
  set (f := fun i => ratrecon (pol i) m N D).
  destruct (rec_up f (mr + 1) _ _ _) as [[[e1 tn1] td1]|] eqn:E1; cbn [obind]; [|discriminate].
  destruct e1; [intros E; injection E as <-; discriminate|].
  destruct (rec_up f 0 mr tn1 td1) as [[[e2 tn2] td2]|] eqn:E2; cbn [obind]; [|discriminate].
  destruct e2; [intros E; injection E as <-; discriminate|].
  intros E _. injection E as <-.
  apply rec_up_ok in E1. apply rec_up_ok in E2. destruct E1 as [A1 B1], E2 as [A2 B2].
  assert (Hall : forall i, (i < len)%nat -> f i = Some (true, tn2 i, td2 i)).
  { intros i Hi. destruct (Nat.lt_ge_cases i mr); [apply A2; lia|].
    destruct (B2 i ltac:(lia)) as [-> ->].
    destruct (Nat.eq_dec i mr) as [->|].
    - destruct (B1 mr ltac:(lia)) as [-> ->]. rewrite !upd_same. assumption.
    - apply A1. lia. }
  assert (Hq : forall i, (i < len)%nat -> 0 < td2 i /\ (m | tn2 i - td2 i * 1 * pol i)).
  { intros i Hi. specialize (Hall i Hi). unfold f in Hall.
    apply ratrecon_sound in Hall; auto. destruct Hall as (Hc & _ & Hd & _).
    rewrite Z.mul_1_r. split; [lia|exact Hc]. }
  destruct (finish_represents m pol len 1 mr r0 tn2 td2) as [[_ R] P]; [lia| |].
  { intros i Hi. destruct (Hq i Hi). split; [lia|assumption]. }
  split; [apply P, Hq; lia|]. intros i Hi. specialize (R i Hi). rewrite Z.mul_1_r in R. exact R.
Qed.

Lemma rational_reconstruction_complete r0 d0 pol len m mr tn td N D num den :
  1 < m -> (mr < len)%nat -> 2 * N * D < m ->
  (forall i, (i < len)%nat -> pol i < m /\ (m | num i - den i * pol i) /\ Z.abs (num i) <= N /\
      0 < den i <= D /\ Z.gcd (num i) (den i) = 1) ->
  exists v, rational_reconstruction r0 d0 pol len m mr tn td N D = Some v /\ v_ok v = true /\ 0 < v_den v /\
    (forall i, (i < len)%nat -> v_recons v i * den i = num i * v_den v) /\
    (forall z, (forall i, (i < len)%nat -> (den i | z)) -> (v_den v | z)).
Proof.
  intros Hm Hmr HND H. set (f := fun i => ratrecon (pol i) m N D).
  assert (Hf : forall i, (i < len)%nat -> f i = Some (true, num i, den i)).
  { intros i Hi. destruct (H i Hi) as (? & ? & ? & ? & ?). apply ratrecon_complete; auto. }
  unfold rational_reconstruction. change (ratrecon (pol mr) m N D) with (f mr).
  rewrite (Hf mr Hmr). cbn [obind negb]. fold f.
  destruct (rec_up_complete f num den (len - (mr + 1)) (mr + 1) (upd tn mr (num mr)) (upd td mr (den mr)))
    as (tn1 & td1 & E1). { intros; apply Hf; lia. }
  rewrite E1. cbn [obind].
  destruct (rec_up_complete f num den mr 0 tn1 td1) as (tn2 & td2 & E2). { intros; apply Hf; lia. }
  rewrite E2. cbn [obind]. eexists. split; [reflexivity|]. split; [reflexivity|].
  apply rec_up_ok in E1. apply rec_up_ok in E2. destruct E1 as [A1 B1], E2 as [A2 B2].
  assert (Hall : forall i, (i < len)%nat -> tn2 i = num i /\ td2 i = den i).
  { intros i Hi. destruct (Nat.lt_ge_cases i mr).
    - specialize (A2 i ltac:(lia)). rewrite Hf in A2 by lia. injection A2 as <- <-. auto.
    - destruct (B2 i ltac:(lia)) as [-> ->].
      destruct (Nat.eq_dec i mr) as [->|].
      + destruct (B1 mr ltac:(lia)) as [-> ->]. rewrite !upd_same. auto.
      + specialize (A1 i ltac:(lia)). rewrite Hf in A1 by lia. injection A1 as <- <-. auto. }
  assert (Hpos : forall i, (i < len)%nat -> 0 < td2 i).
  { intros i Hi. destruct (Hall i Hi) as [_ ->]. apply H in Hi. lia. }
  assert (Hpos' : forall i, (i < len)%nat -> td2 i <> 0) by (intros i Hi; specialize (Hpos i Hi); lia).
  destruct (finish_value len mr r0 tn2 td2 ltac:(lia) Hpos') as [V1 V2].
  split; [|split].
  - cbn. apply lcm_up_spec; try (intros; apply Hpos'; lia). apply Hpos; lia.
  - intros i Hi. destruct (Hall i Hi) as [<- <-]. apply V1; assumption.
  - intros z Hz. apply V2. intros i Hi. destruct (Hall i Hi) as [_ ->]. auto.
Qed.

(** with denominator *)
Lemma rec_down_ok pol m g N D : 1 < m -> 0 <= N -> g <> 0 -> forall i L tn td tn' td',
  L <> 0 -> rec_down pol m g N D i (L * g) tn td = Some (None, tn', td') ->
  (forall j, (j < i)%nat -> td' j <> 0 /\ (0 < L -> 0 < g -> 0 < td' j) /\ (m | tn' j - td' j * g * pol j)) /\
  (forall j, (i <= j)%nat -> tn' j = tn j /\ td' j = td j).
Proof.
  intros Hm HN Hg. induction i as [|i IH]; intros L tn td tn' td' HL E; cbn [rec_down] in E.
  - injection E as <- <-. split; [lia|auto].
  - destruct (ratreconwden (pol i) m (L * g) N D) as [[[b x] y]|] eqn:Er; cbn [obind] in E; [|discriminate].
    destruct b; [|discriminate]. destruct (Z.eqb_spec g 0); [contradiction|].
    rewrite Z.div_mul in E by assumption.
    destruct (Z.divide_lcm_l (L * g) L) as [q Hq].
    assert (Hnz : Z.lcm (L * g) L <> 0) by (rewrite Z.lcm_eq_0; nia).
    assert (Hpos : 0 < Z.lcm (L * g) L) by (pose proof (Z.lcm_nonneg (L * g) L); lia).
    replace (q * (L * g)) with ((q * L) * g) in Hq by ring.
    rewrite Hq in E. apply IH in E; [|intros E0; rewrite E0 in Hq; lia].
    destruct E as [E1 E2]. apply ratreconwden_sound in Er; [|assumption|assumption].
    destruct Er as (Hc & _ & Hy & _).
    split.
    + intros j Hj. destruct (Nat.eq_dec j i) as [->|].
      * destruct (E2 i ltac:(lia)) as [-> ->]. rewrite !upd_same. split; [nia|]. split; [nia|].
        unfold cong in Hc. replace (y * L * g) with (y * (L * g)) by ring. exact Hc.
      * destruct (E1 j ltac:(lia)) as (A & B & C). split; [assumption|]. split; [|assumption].
        intros H1 H2. apply B; [|assumption]. rewrite Hq in Hpos. nia.
    + intros j Hj. destruct (E2 j ltac:(lia)) as [-> ->]. rewrite !upd_other by lia. auto.
Qed.

Lemma rational_reconstruction_wden_sound r0 d0 pol len m mr tn td g N D v N' D' :
  1 < m -> 0 <= N -> (mr < len)%nat -> g <> 0 ->
  rational_reconstruction_wden r0 d0 pol len m mr tn td g N D = Some (v, N', D') -> v_ok v = true ->
  v_den v <> 0 /\ (0 < g -> 0 < v_den v) /\
  forall i, (i < len)%nat -> (m | v_recons v i - v_den v * g * pol i).
Proof.
  intros Hm HN Hmr Hg. unfold rational_reconstruction_wden.
  destruct (ratreconwden (pol mr) m g N D) as [[[b x] y]|] eqn:E0; cbn [obind]; [|discriminate].
  destruct b; cbn [negb]; [|intros E; injection E as <- _ _; discriminate].
  set (f := fun i => ratreconwden (pol i) m g N D).
  destruct (rec_up f (mr + 1) _ _ _) as [[[e1 tn1] td1]|] eqn:E1; cbn [obind]; [|discriminate].
  destruct e1; [intros E; injection E as <- _ _; discriminate|].
  apply rec_up_ok in E1. destruct E1 as [A1 B1].
  assert (Hup : forall i, (mr <= i < len)%nat -> 0 < td1 i /\ (m | tn1 i - td1 i * g * pol i)).
  { intros i Hi. assert (Hf : f i = Some (true, tn1 i, td1 i)).
    { destruct (Nat.eq_dec i mr) as [->|]; [|apply A1; lia].
      destruct (B1 mr ltac:(lia)) as [-> ->]. rewrite !upd_same. assumption. }
    apply ratreconwden_sound in Hf; auto. destruct Hf as (Hc & _ & Hd & _). split; [lia|exact Hc]. }
  destruct (lcm_up_spec td1 (len - (mr + 1)) (td1 mr) (mr + 1)) as (L1 & L2 & _).
  { specialize (Hup mr ltac:(lia)). lia. } { intros j Hj. specialize (Hup j ltac:(lia)). lia. }
  set (L := lcm_up (td1 mr) (mr + 1) (len - (mr + 1)) td1) in *. clearbody L.
  assert (HL : 0 < L) by (apply L2; specialize (Hup mr ltac:(lia)); lia).
  destruct (rec_down pol m g (N * L) (D / L) mr (L * g) tn1 td1) as [[[e2 tn2] td2]|] eqn:E2; cbn [obind]; [|discriminate].
  destruct e2; [intros E; injection E as <- _ _; discriminate|].
  intros E _. injection E as <- _ _.
  apply rec_down_ok in E2; auto; [|nia]. destruct E2 as [A2 B2].
  assert (Hq : forall i, (i < len)%nat -> td2 i <> 0 /\ (0 < g -> 0 < td2 i) /\ (m | tn2 i - td2 i * g * pol i)).
  { intros i Hi. destruct (Nat.lt_ge_cases i mr).
    - destruct (A2 i ltac:(lia)) as (? & ? & ?). auto.
    - destruct (B2 i ltac:(lia)) as [-> ->]. destruct (Hup i ltac:(lia)). repeat split; auto. lia. }
  destruct (finish_represents m pol len g mr r0 tn2 td2) as [[R1 R2] P]; [lia| |].
  { intros i Hi. destruct (Hq i Hi) as (? & ? & ?). auto. }
  split; [assumption|]. split; [|assumption]. intros Hgp. apply P. apply Hq; [lia|assumption].
Qed.

(** Index safety over any history of calls: *maxrec stays below len. *)
Lemma rational_reconstruction_maxrec r0 d0 pol len m mr tn td N D v : (mr < len)%nat ->
  rational_reconstruction r0 d0 pol len m mr tn td N D = Some v -> (v_maxrec v < len)%nat.
Proof.
  intros Hmr. unfold rational_reconstruction.
  destruct (ratrecon (pol mr) m N D) as [[[b x] y]|] eqn:E0; cbn [obind]; [|discriminate].
  destruct b; cbn [negb]; [|intros E; injection E as <-; assumption].
  destruct (rec_up _ (mr + 1) _ _ _) as [[[e1 tn1] td1]|] eqn:E1; cbn [obind]; [|discriminate].
  destruct e1; [intros E; injection E as <-; apply rec_up_fail in E1; cbn; lia|].
  destruct (rec_up _ 0 mr tn1 td1) as [[[e2 tn2] td2]|] eqn:E2; cbn [obind]; [|discriminate].
  destruct e2; intros E; injection E as <-; [apply rec_up_fail in E2; cbn; lia|assumption].
Qed.

Lemma rec_down_fail pol m g N D : forall i L tn td k tn' td',
  rec_down pol m g N D i L tn td = Some (Some k, tn', td') -> (k < i)%nat.
Proof.
  induction i as [|i IH]; intros L tn td k tn' td' E; cbn [rec_down] in E; [discriminate|].
  destruct (ratreconwden (pol i) m L N D) as [[[b x] y]|]; cbn [obind] in E; [|discriminate].
  destruct b; [|injection E as <- _ _; lia].
  destruct (Z.eqb_spec g 0); [discriminate|]. apply IH in E. lia.
Qed.

Lemma rational_reconstruction_wden_maxrec r0 d0 pol len m mr tn td g N D v N' D' : (mr < len)%nat ->
  rational_reconstruction_wden r0 d0 pol len m mr tn td g N D = Some (v, N', D') -> (v_maxrec v < len)%nat.
Proof.
  intros Hmr. unfold rational_reconstruction_wden.
  destruct (ratreconwden (pol mr) m g N D) as [[[b x] y]|] eqn:E0; cbn [obind]; [|discriminate].
  destruct b; cbn [negb]; [|intros E; injection E as <- _ _; assumption].
  destruct (rec_up _ (mr + 1) _ _ _) as [[[e1 tn1] td1]|] eqn:E1; cbn [obind]; [|discriminate].
  destruct e1; [intros E; injection E as <- _ _; apply rec_up_fail in E1; cbn [v_maxrec fail]; lia|].
  destruct (rec_down _ _ _ _ _ _ _ _ _) as [[[e2 tn2] td2]|] eqn:E2; cbn [obind]; [|discriminate].
  destruct e2; intros E; injection E as <- _ _; [apply rec_down_fail in E2; cbn [v_maxrec fail]; lia|assumption].
Qed.

(** completeness with a guess: the value of coefficient i is num_i / (g * den_i) *)
Lemma rec_down_complete pol m g N D L num den : 1 < m -> 0 < g -> 0 < L -> 2 * N * D < m ->
  forall i tn td,
  (forall j, (j < i)%nat -> (m | num j - den j * (L * g) * pol j) /\ Z.abs (num j) <= N /\ 0 < den j <= D /\
       Z.gcd (num j) (den j) = 1) ->
  exists tn' td', rec_down pol m g N D i (L * g) tn td = Some (None, tn', td') /\
  (forall j, (j < i)%nat -> tn' j = num j /\ td' j = den j * L) /\
  (forall j, (i <= j)%nat -> tn' j = tn j /\ td' j = td j).
Proof.
  intros Hm Hg HL HND. induction i as [|i IH]; intros tn td H; cbn [rec_down].
  - exists tn, td. split; [reflexivity|]. split; [lia|auto].
  - destruct (H i ltac:(lia)) as (H1 & H2 & H3 & H4).
    rewrite (ratreconwden_complete (pol i) m (L * g) N D (num i) (den i)) by assumption.
    cbn [obind]. destruct (Z.eqb_spec g 0); [lia|]. rewrite Z.div_mul by lia.
    assert (Hlc : Z.lcm (L * g) L = L * g).
    { apply Z.divide_antisym_nonneg; [apply Z.lcm_nonneg|nia| |apply Z.divide_lcm_l].
      apply Z.lcm_least; [apply Z.divide_refl|apply Z.divide_factor_l]. }
    rewrite Hlc.
    destruct (IH (upd tn i (num i)) (upd td i (den i * L))) as (tn' & td' & E & A & B).
    { intros j Hj. apply H. lia. }
    exists tn', td'. split; [assumption|]. split.
    + intros j Hj. destruct (Nat.eq_dec j i) as [->|]; [|apply A; lia].
      destruct (B i ltac:(lia)) as [-> ->]. rewrite !upd_same. auto.
    + intros j Hj. destruct (B j ltac:(lia)) as [-> ->]. rewrite !upd_other by lia. auto.
Qed.

Lemma lcm_up_ext td td' : forall n l i, (forall j, (i <= j < i + n)%nat -> td j = td' j) ->
  lcm_up l i n td = lcm_up l i n td'.
Proof.
  induction n as [|n IH]; intros l i H; cbn; [reflexivity|].
  rewrite (H i ltac:(lia)). apply IH. intros j Hj. apply H. lia.
Qed.

Lemma rational_reconstruction_wden_complete r0 d0 pol len m mr tn td g N D num den :
  1 < m -> (mr < len)%nat -> 0 < g -> 0 <= N -> 0 <= D -> 2 * N * D < m ->
  let L := lcm_up (den mr) (mr + 1) (len - (mr + 1)) den in
  (forall i, (mr <= i < len)%nat -> (m | num i - den i * g * pol i) /\ Z.abs (num i) <= N /\
      0 < den i <= D /\ Z.gcd (num i) (den i) = 1) ->
  (forall i, (i < mr)%nat -> (m | num i - den i * (L * g) * pol i) /\ Z.abs (num i) <= N * L /\
      0 < den i <= D / L /\ Z.gcd (num i) (den i) = 1) ->
  exists v, rational_reconstruction_wden r0 d0 pol len m mr tn td g N D = Some (v, N * L, D / L) /\
    v_ok v = true /\ 0 < v_den v /\
    (forall i, (mr <= i < len)%nat -> v_recons v i * den i = num i * v_den v) /\
    (forall i, (i < mr)%nat -> v_recons v i * (den i * L) = num i * v_den v).
Proof.
  intros Hm Hmr Hg HN HD HND L Hu Hd. set (f := fun i => ratreconwden (pol i) m g N D).
  assert (Hf : forall i, (mr <= i < len)%nat -> f i = Some (true, num i, den i)).
  { intros i Hi. destruct (Hu i Hi) as (? & ? & ? & ?). apply ratreconwden_complete; auto. }
  unfold rational_reconstruction_wden. change (ratreconwden (pol mr) m g N D) with (f mr).
  rewrite (Hf mr) by lia. cbn [obind negb]. fold f.
  destruct (rec_up_complete f num den (len - (mr + 1)) (mr + 1) (upd tn mr (num mr)) (upd td mr (den mr)))
    as (tn1 & td1 & E1). { intros; apply Hf; lia. }
  rewrite E1. cbn [obind]. apply rec_up_ok in E1. destruct E1 as [A1 B1].
  assert (Hv1 : forall i, (mr <= i < len)%nat -> tn1 i = num i /\ td1 i = den i).
  { intros i Hi. destruct (Nat.eq_dec i mr) as [->|].
    - destruct (B1 mr ltac:(lia)) as [-> ->]. rewrite !upd_same. auto.
    - specialize (A1 i ltac:(lia)). rewrite Hf in A1 by lia. injection A1 as <- <-. auto. }
  replace (lcm_up (td1 mr) (mr + 1) (len - (mr + 1)) td1) with L.
  2:{ unfold L. destruct (Hv1 mr ltac:(lia)) as [_ ->]. apply lcm_up_ext. intros j Hj.
      destruct (Hv1 j ltac:(lia)) as [_ ->]. reflexivity. }
  assert (HL : 0 < L).
  { apply lcm_up_spec.
    - destruct (Hu mr ltac:(lia)) as (_ & _ & ? & _). lia.
    - intros j Hj. destruct (Hu j ltac:(lia)) as (_ & _ & ? & _). lia.
    - destruct (Hu mr ltac:(lia)) as (_ & _ & ? & _). lia. }
  clearbody L.
  assert (HND' : 2 * (N * L) * (D / L) < m).
  { pose proof (Z.mul_div_le D L HL). pose proof (Z.div_pos D L HD HL). nia. }
  destruct (rec_down_complete pol m g (N * L) (D / L) L num den Hm Hg HL HND' mr tn1 td1 Hd)
    as (tn2 & td2 & E2 & A2 & B2).
  rewrite E2. cbn [obind]. eexists. split; [reflexivity|]. split; [reflexivity|].
  assert (Hpos : forall i, (i < len)%nat -> 0 < td2 i).
  { intros i Hi. destruct (Nat.lt_ge_cases i mr).
    - destruct (A2 i ltac:(lia)) as [_ ->]. destruct (Hd i ltac:(lia)) as (_ & _ & ? & _). nia.
    - destruct (B2 i ltac:(lia)) as [_ ->]. destruct (Hv1 i ltac:(lia)) as [_ ->].
      destruct (Hu i ltac:(lia)) as (_ & _ & ? & _). lia. }
  assert (Hpos' : forall i, (i < len)%nat -> td2 i <> 0) by (intros i Hi; specialize (Hpos i Hi); lia).
  destruct (finish_value len mr r0 tn2 td2 ltac:(lia) Hpos') as [V1 V2].
  split; [|split].
  - apply lcm_up_spec; try (intros; apply Hpos'; lia). apply Hpos; lia.
  - intros i Hi. specialize (V1 i ltac:(lia)). destruct (B2 i ltac:(lia)) as [Ea Eb]. destruct (Hv1 i Hi) as [Ec Ed].
    rewrite <- Ec, <- Ed, <- Ea, <- Eb. exact V1.
  - intros i Hi. specialize (V1 i ltac:(lia)). destruct (A2 i Hi) as [Ea Eb].
    rewrite <- Ea, <- Eb. exact V1.
Qed.

(** ** Modular checks *)
Lemma check_unit_loop_zero c p pol nm : 0 < p < 2 ^ 32 -> 0 <= c < p -> forall n i,
  check_unit_loop c i n pol nm p = 0%nat ->
  forall j, (i <= j < i + n)%nat -> nm j = (pol j * c) mod p.
Proof.
  intros Hp Hc. induction n as [|n IH]; intros i E j Hj; cbn [check_unit_loop] in E; [lia|].
  rewrite (Z.mod_small (pol i mod p * c)) in E
    by (pose proof (Z.mod_pos_bound (pol i) p ltac:(lia)); nia).
  destruct (Z.eqb_spec ((pol i mod p * c) mod p) (nm i)) as [Eq|]; cbn [negb] in E; [|discriminate].
  destruct (Nat.eq_dec j i) as [->|]; [|apply (IH (S i)); [assumption|lia]].
  rewrite <- Eq. rewrite Z.mul_mod_idemp_l by lia. reflexivity.
Qed.

Lemma check_unit_loop_pass c p pol nm : 0 < p < 2 ^ 32 -> 0 <= c < p -> forall n i,
  (forall j, (i <= j < i + n)%nat -> nm j = (pol j * c) mod p) ->
  check_unit_loop c i n pol nm p = 0%nat.
Proof.
  intros Hp Hc. induction n as [|n IH]; intros i H; cbn [check_unit_loop]; [reflexivity|].
  rewrite (Z.mod_small (pol i mod p * c))
    by (pose proof (Z.mod_pos_bound (pol i) p ltac:(lia)); nia).
  rewrite Z.mul_mod_idemp_l by lia. rewrite <- (H i) by lia. rewrite Z.eqb_refl. cbn [negb].
  apply IH. intros j Hj. apply H. lia.
Qed.

(* the check passes exactly when pol / lc(pol) mod p is the modular polynomial *)
Lemma check_unit_iff len pol nm p : prime p -> p < 2 ^ 31 -> (0 < len)%nat -> nm (len - 1)%nat = 1 ->
  (forall i, (i < len)%nat -> 0 <= nm i < p) ->
  exists r, check_unit_mpz_nmod_poly len pol nm p = Some r /\
   (r = 0%nat <-> (~ (p | pol (len - 1)%nat) /\
      forall i, (i < len)%nat -> (p | pol i - pol (len - 1)%nat * nm i))).
Proof.
  intros Hp Hp31 Hlen Hmon Hnm. pose proof (prime_ge_2 p Hp) as H2.
  unfold check_unit_mpz_nmod_poly. destruct (Z.eqb_spec p 0); [lia|].
  set (lc := pol (len - 1)%nat).
  pose proof (Z.mod_pos_bound lc p ltac:(lia)) as Hlcb.
  destruct (Zdivide_dec p lc) as [Hdiv|Hnd].
  - (* leading coefficient vanishes: the inverse is 0 and the last comparison fails *)
    assert (E0 : mod_p_inverse_32 (lc mod p) p = Some 0).
    { apply mod_p_inverse_zero; try lia.
      apply Z.mod_divide in Hdiv; [|lia]. rewrite Hdiv. apply Z.divide_0_r. }
    rewrite E0. cbn [obind]. eexists. split; [reflexivity|]. split.
    + intros E. exfalso. apply (check_unit_loop_zero 0 p pol nm) with (j := (len - 1)%nat) in E; try lia.
      rewrite Hmon, Z.mul_0_r, Z.mod_0_l in E by lia. lia.
    + intros [Hn _]. contradiction.
  - destruct (mod_p_inverse_prime 64 32 (lc mod p) p) as (c & Ec & Hc & Hcm); try lia; auto.
    { intros [q Hq]. apply Hnd. rewrite (Z.div_mod lc p) by lia. rewrite Hq.
      exists (lc / p + q). ring. }
    change (mod_p_inverse_32 (lc mod p) p) with (mod_p_inverse 64 32 (lc mod p) p).
    rewrite Ec. cbn [obind]. eexists. split; [reflexivity|].
    rewrite Z.mul_mod_idemp_r in Hcm by lia.
    assert (Hcd : (p | c * lc - 1)).
    { apply Z.mod_divide; [lia|]. rewrite Zminus_mod, Hcm. rewrite (Z.mod_small 1) by lia. apply Z.mod_0_l; lia. }
    destruct Hcd as [k Hk].
    split.
    + intros E. split; [assumption|]. intros i Hi.
      rewrite (check_unit_loop_zero c p pol nm ltac:(lia) ltac:(lia) len 0 E i ltac:(lia)).
      destruct (mod_div (pol i * c) p ltac:(lia)) as [q Hq].
      exists (lc * q - pol i * k).
      transitivity (lc * (pol i * c - (pol i * c) mod p) - pol i * (c * lc - 1)); [ring|].
      rewrite Hq, Hk. ring.
    + intros [_ H]. apply check_unit_loop_pass; try lia. intros j Hj.
      destruct (H j ltac:(lia)) as [q Hq].
      apply Z.mod_unique with (q := q * c + nm j * k); [left; apply Hnm; lia|].
      transitivity ((pol j - lc * nm j) * c + nm j * (c * lc - 1) + nm j); [ring|].
      rewrite Hq, Hk. ring.
Qed.

Lemma check_param_loop_false inv p pol nm : 0 < p -> forall n i,
  check_param_loop inv i n pol nm p = false <->
  forall j, (i <= j < i + n)%nat -> (pol j * inv) mod p = nm j mod p.
Proof.
  intros Hp. induction n as [|n IH]; intros i; cbn [check_param_loop].
  - split; [lia|auto].
  - destruct (Z.eqb_spec ((pol i * inv) mod p) (nm i mod p)) as [E|E]; cbn [negb].
    + rewrite IH. split; intros H j Hj.
      * destruct (Nat.eq_dec j i) as [->|]; [assumption|apply H; lia].
      * apply H; lia.
    + split; [discriminate|]. intros H. exfalso. apply E, H. lia.
Qed.

Lemma check_param_iff undef len pol den lc nb nm p : prime p ->
  ~ (p | lc * den * nb) ->
  (check_param_nmod_poly undef len pol den lc nb nm p = false <->
   forall i, (i < len)%nat -> (p | pol i - lc * den * nb * nm i)).
Proof.
  intros Hp Hnd. pose proof (prime_ge_2 p Hp) as H2. unfold check_param_nmod_poly.
  destruct len as [|len]; [split; [lia|auto]|].
  set (b := lc * den * nb) in *.
  assert (Hg : Z.gcd (b mod p) p = 1).
  { rewrite Z.gcd_mod by lia. apply Zgcd_1_rel_prime. apply prime_rel_prime; auto. }
  destruct (n_invmod_spec (b mod p) p ltac:(lia) Hg) as (c & -> & Hc & Hcm).
  rewrite (Z.mod_small c) by lia. rewrite Z.mul_mod_idemp_r in Hcm by lia.
  assert (Hcd : (p | c * b - 1)).
  { apply Z.mod_divide; [lia|]. rewrite Zminus_mod, Hcm. rewrite (Z.mod_small 1) by lia. apply Z.mod_0_l; lia. }
  destruct Hcd as [k Hk].
  rewrite check_param_loop_false by lia. split; intros H i Hi.
  - specialize (H i ltac:(lia)).
    assert (Hd : (p | pol i * c - nm i)).
    { apply Z.mod_divide; [lia|]. rewrite Zminus_mod, H, Z.sub_diag. apply Z.mod_0_l; lia. }
    destruct Hd as [q Hq]. exists (b * q - pol i * k).
    transitivity (b * (pol i * c - nm i) - pol i * (c * b - 1)); [ring|]. rewrite Hq, Hk. ring.
  - destruct (H i ltac:(lia)) as [q Hq].
    replace (pol i * c) with (nm i + (q * c + nm i * k) * p).
    + apply Z.mod_add. lia.
    + transitivity ((pol i - b * nm i) * c + nm i * (c * b - 1) + nm i); [rewrite Hq, Hk; ring|ring].
Qed.

Lemma prime_5 : prime 5.
Proof.
  apply prime_intro; [lia|]. intros n Hn. apply Zgcd_1_rel_prime.
  assert (n = 1 \/ n = 2 \/ n = 3 \/ n = 4) as [->|[->|[->| ->]]] by lia; reflexivity.
Qed.

Lemma lcm_up_fold td : forall n l i, lcm_up l i n td = fold_left Z.lcm (map td (seq i n)) l.
Proof. induction n as [|n IH]; intros l i; cbn; [reflexivity|apply IH]. Qed.

Lemma rational_reconstruction_wden_complete' r0 d0 pol len m mr tn td g N D num den :
  1 < m -> (mr < len)%nat -> 0 < g -> 0 <= N -> 0 <= D -> 2 * N * D < m ->
  let L := fold_left Z.lcm (map den (seq (mr + 1) (len - (mr + 1)))) (den mr) in
  (forall i, (mr <= i < len)%nat -> (m | num i - den i * g * pol i) /\ Z.abs (num i) <= N /\
      0 < den i <= D /\ Z.gcd (num i) (den i) = 1) ->
  (forall i, (i < mr)%nat -> (m | num i - den i * (L * g) * pol i) /\ Z.abs (num i) <= N * L /\
      0 < den i <= D / L /\ Z.gcd (num i) (den i) = 1) ->
  exists v, rational_reconstruction_wden r0 d0 pol len m mr tn td g N D = Some (v, N * L, D / L) /\
    v_ok v = true /\ 0 < v_den v /\
    (forall i, (mr <= i < len)%nat -> v_recons v i * den i = num i * v_den v) /\
    (forall i, (i < mr)%nat -> v_recons v i * (den i * L) = num i * v_den v).
Proof. rewrite <- lcm_up_fold. apply rational_reconstruction_wden_complete. Qed.
