(** Invariant of the loop of QparModel. *)
From Coq Require Import ZArith Znumtheory Arith List Bool Lia.
From Verif Require Import ModInvModel CrtModel CrtProofs CrtProps LiftModel LiftProofs LiftProps FglmModel GliftProofs QparSpec QparModel.
Import ListNotations.
Open Scope Z_scope.

Lemma root_loop_nonneg k b : forall r n, 0 <= r -> 0 <= root_loop k b r n.
Proof. induction b as [|b IH]; intros r n H; cbn [root_loop]; [exact H|]. apply IH. destruct (_ <=? n); [|exact H]. pose proof (Z.pow_nonneg 2 (Z.of_nat b) ltac:(lia)). lia. Qed.
Lemma root_nonneg k n : 0 <= root k n.
Proof. apply root_loop_nonneg. lia. Qed.

(** The reconstruction of a vector: any denominator guess *)
Lemma lcm_up_pos td : forall n l i, 0 < l -> (forall j, (i <= j < i + n)%nat -> 0 < td j) -> 0 < lcm_up l i n td.
Proof. intros n l i H1 H2. apply lcm_up_spec; [lia| |exact H1]. intros j Hj. specialize (H2 j Hj). lia. Qed.
Lemma lcm_up_nonneg td : forall n l i, 0 <= l -> 0 <= lcm_up l i n td.
Proof. induction n as [|n IH]; intros l i H; cbn [lcm_up]; [exact H|]. apply IH. apply Z.lcm_nonneg. Qed.
Lemma wden_N r0 d0 pol len m mr tn td g N D v N' D' : 1 < m -> 0 <= N -> rational_reconstruction_wden r0 d0 pol len m mr tn td g N D = Some (v, N', D') -> 0 <= N'.
Proof.
  intros Hm HN. unfold rational_reconstruction_wden. destruct (ratreconwden (pol mr) m g N D) as [[[b x] y]|] eqn:E0; cbn [obind]; [|discriminate]. destruct b; cbn [negb]; [|intros E; injection E as _ <- _; exact HN].
  set (f := fun i => ratreconwden (pol i) m g N D). destruct (rec_up f (mr + 1) _ _ _) as [[[e1 tn1] td1]|] eqn:E1; cbn [obind]; [|discriminate]. destruct e1; [intros E; injection E as _ <- _; exact HN|]. apply rec_up_ok in E1 as [A1 B1].
  assert (P0 : 0 < td1 mr). { destruct (B1 mr ltac:(lia)) as [_ ->]. rewrite upd_same. apply ratreconwden_sound in E0; [|assumption|assumption]. lia. }
  assert (PL : 0 < lcm_up (td1 mr) (mr + 1) (len - (mr + 1)) td1). { apply lcm_up_pos; [exact P0|]. intros j Hj. specialize (A1 j ltac:(lia)). apply ratreconwden_sound in A1; [|assumption|assumption]. lia. }
  set (L := lcm_up (td1 mr) _ _ _) in *. destruct (rec_down _ _ _ _ _ _ _ _ _) as [[[e2 tn2] td2]|]; cbn [obind]; [|discriminate]. destruct e2; intros E; injection E as _ <- _; nia.
Qed.
Lemma wden_fail r0 d0 pol len m mr tn td g N D v N' D' : rational_reconstruction_wden r0 d0 pol len m mr tn td g N D = Some (v, N', D') -> v_ok v = false -> v_recons v = r0.
Proof.
  unfold rational_reconstruction_wden. destruct (ratreconwden (pol mr) m g N D) as [[[b x] y]|] eqn:E0; cbn [obind]; [|discriminate]. destruct b; cbn [negb]; [|intros E _; injection E as <- _ _; reflexivity].
  destruct (rec_up _ (mr + 1) _ _ _) as [[[e1 tn1] td1]|]; cbn [obind]; [|discriminate]. destruct e1; [intros E _; injection E as <- _ _; reflexivity|]. destruct (rec_down _ _ _ _ _ _ _ _ _) as [[[e2 tn2] td2]|]; cbn [obind]; [|discriminate]. destruct e2; intros E HF; injection E as <- _ _; [reflexivity|discriminate].
Qed.
Lemma wden_above r0 d0 pol len m mr tn td g N D v N' D' i : rational_reconstruction_wden r0 d0 pol len m mr tn td g N D = Some (v, N', D') -> (len <= i)%nat -> v_recons v i = r0 i.
Proof.
  intros HE Hi. destruct (v_ok v) eqn:OK; [|rewrite (wden_fail _ _ _ _ _ _ _ _ _ _ _ _ _ _ HE OK); reflexivity]. revert HE OK. unfold rational_reconstruction_wden. destruct (ratreconwden (pol mr) m g N D) as [[[b x] y]|] eqn:E0; cbn [obind]; [|discriminate]. destruct b; cbn [negb]; [|intros E F; injection E as <- _ _; discriminate].
  destruct (rec_up _ (mr + 1) _ _ _) as [[[e1 tn1] td1]|]; cbn [obind]; [|discriminate]. destruct e1; [intros E F; injection E as <- _ _; discriminate|]. destruct (rec_down _ _ _ _ _ _ _ _ _) as [[[e2 tn2] td2]|]; cbn [obind]; [|discriminate]. destruct e2; intros E HF; injection E as <- _ _; [discriminate|]. unfold finish. cbn [v_recons]. destruct (Nat.ltb_spec i len); [lia|reflexivity].
Qed.
(** the denominator is positive, even when the guess is not *)
Lemma wden_den r0 d0 pol len m mr tn td g N D v N' D' : 1 < m -> 0 <= N -> (mr = 0 \/ mr < len)%nat -> g <> 0 -> rational_reconstruction_wden r0 d0 pol len m mr tn td g N D = Some (v, N', D') -> v_ok v = true -> 0 < v_den v.
Proof.
  intros Hm HN Hmr Hg HE OK. assert (G : v_den v <> 0 \/ (len = 0)%nat) by (destruct (Nat.eq_dec len 0); [right; assumption|left; assert (HL : (mr < len)%nat) by lia; apply (rational_reconstruction_wden_sound _ _ _ _ _ _ _ _ _ _ _ _ _ _ Hm HN HL Hg HE OK)]).
  revert HE OK. unfold rational_reconstruction_wden. destruct (ratreconwden (pol mr) m g N D) as [[[b x] y]|] eqn:E0; cbn [obind]; [|discriminate]. destruct b; cbn [negb]; [|intros E F; injection E as <- _ _; discriminate].
  set (f := fun i => ratreconwden (pol i) m g N D). destruct (rec_up f (mr + 1) _ _ _) as [[[e1 tn1] td1]|] eqn:E1; cbn [obind]; [|discriminate]. destruct e1; [intros E F; injection E as <- _ _; discriminate|]. apply rec_up_ok in E1 as [A1 B1].
  destruct (rec_down _ _ _ _ _ _ _ _ _) as [[[e2 tn2] td2]|] eqn:E2; cbn [obind]; [|discriminate]. destruct e2; intros E HF; injection E as <- _ _; [discriminate|]. unfold finish in *. cbn [v_den] in *. destruct (Nat.le_gt_cases len 1) as [L1|L1].
  - replace (len - 1)%nat with 0%nat by lia. cbn [lcm_up]. assert (mr = 0%nat) by lia. subst mr. cbn [rec_down] in E2. injection E2 as _ <-. destruct (B1 0%nat ltac:(lia)) as [_ ->]. rewrite upd_same. apply ratreconwden_sound in E0; [|assumption|assumption]. lia.
  - destruct G as [G|G]; [|lia]. replace (len - 1)%nat with (S (len - 2)) in * by lia. cbn [lcm_up] in *. pose proof (lcm_up_nonneg td2 (len - 2) (Z.lcm (td2 0%nat) (td2 1%nat)) 2 (Z.lcm_nonneg _ _)). lia.
Qed.

Lemma written_len old v : length (written old v) = length old.
Proof. unfold written. rewrite map_length, seq_length. reflexivity. Qed.
Lemma written_co old v j : (j < length old)%nat -> co (written old v) j = v_recons v j.
Proof. intros H. unfold co, written. rewrite (nth_indep _ 0 (v_recons v 0%nat)) by (rewrite map_length, seq_length; exact H). rewrite map_nth, seq_nth by exact H. reflexivity. Qed.

Lemma crt_upoly_ok m p pol : 1 < m -> prime p -> p < 2 ^ 31 -> Z.gcd m p = 1 -> (forall x, In x pol -> 0 <= x < m) -> forall nm, (forall x, In x nm -> 0 <= x < p) -> forall r, crt_upoly m p pol nm = Some r ->
  length r = length pol /\ (forall x, In x r -> 0 <= x < m * p) /\ (forall j, (j < length pol)%nat -> (m | co r j - co pol j) /\ (p | co r j - co nm j)).
Proof.
  intros Hm Hp Hp2 HG. induction pol as [|x pol IH]; intros HR nm HN r E; cbn [crt_upoly] in E; [injection E as <-; split; [reflexivity|]; split; [intros y []|intros j Hj; cbn in Hj; lia]|]. destruct nm as [|c nm]; [discriminate|].
  pose proof (prime_ge_2 p Hp). destruct (C02_crt_step x m c p false) as (y & EY & Y1 & Y2 & Y3); [lia|lia|exact HG|pose proof (HR x (or_introl eq_refl)); lia|apply HN; left; reflexivity|]. rewrite EY in E. cbn [obind] in E.
  destruct (crt_upoly m p pol nm) as [r'|] eqn:ER; cbn [obind] in E; [|discriminate]. injection E as <-. destruct (IH (fun z Hz => HR z (or_intror Hz)) nm (fun z Hz => HN z (or_intror Hz)) r' ER) as (L & R & C). cbn [length]. split; [rewrite L; reflexivity|]. split; [intros z [<-|Hz]; [exact Y3|apply R; exact Hz]|]. intros [|j] Hj; [split; assumption|apply C; cbn in Hj; lia].
Qed.

Lemma recon_upoly_in old pol len m mr g N D r : recon_upoly old pol len m mr g N D = Some r -> (mr < length pol)%nat /\ (len <= length pol)%nat /\ rational_reconstruction_wden (co old) 0 (co pol) len m mr (fun _ => 0) (fun _ => 0) g N D = Some r.
Proof.
  unfold recon_upoly. destruct (Nat.ltb_spec mr (length pol)); cbn [andb]; [|discriminate]. destruct (Nat.leb_spec len (length pol)); [|discriminate]. intros E. split; [assumption|]. split; assumption.
Qed.
Lemma recon_elim_ok old pol m mr g el mr' : 1 < m -> g <> 0 -> length old = length pol -> recon_elim old pol m mr g = Some (true, el, mr') ->
  length el = length pol /\ exists den, forall i, (i < length pol)%nat -> (m | co el i - den * g * co pol i).
Proof.
  intros Hm Hg HL. unfold recon_elim. destruct (Z.eqb_spec (root 3 m) 0) as [|R3]; [discriminate|]. pose proof (root_nonneg 3 m). assert (N1 : 0 <= m / root 3 m / 2) by (apply Z.div_pos; [apply Z.div_pos|]; lia).
  destruct (recon_upoly old pol (length pol) m mr g (m / root 3 m / 2) (root 3 m)) as [[[v n'] d']|] eqn:E1; cbn [obind fst]; [|discriminate]. apply recon_upoly_in in E1 as (M1 & _ & E1). destruct (v_ok v) eqn:OK.
  - intros E. injection E as <- <-. split; [rewrite written_len; exact HL|]. destruct (rational_reconstruction_wden_sound _ _ _ _ _ _ _ _ _ _ _ _ _ _ Hm N1 M1 Hg E1 OK) as (_ & _ & A). exists (v_den v). intros i Hi. rewrite written_co by lia. apply A. exact Hi.
  - destruct (Z.eqb_spec (root 16 m) 0) as [|R16]; [discriminate|]. pose proof (root_nonneg 16 m). assert (N2 : 0 <= m / root 16 m / 2) by (apply Z.div_pos; [apply Z.div_pos|]; lia).
    destruct (recon_upoly old pol (length pol) m (v_maxrec v) g (m / root 16 m / 2) (root 16 m)) as [[[w n2] d2]|] eqn:E2; cbn [obind fst]; [|discriminate]. apply recon_upoly_in in E2 as (M2 & _ & E2). destruct (v_ok w) eqn:OK2; intros E; [|discriminate]. injection E as <- <-. split; [rewrite written_len; exact HL|]. destruct (rational_reconstruction_wden_sound _ _ _ _ _ _ _ _ _ _ _ _ _ _ Hm N2 M2 Hg E2 OK2) as (_ & _ & A). exists (v_den w). intros i Hi. rewrite written_co by lia. apply A. exact Hi.
Qed.
(** one coordinate *)
Definition vec_ok (m g : Z) (old pol : list Z) (len : nat) (v : vres) : Prop :=
  (forall i, (len <= i)%nat -> v_recons v i = co old i) /\ (g <> 0 -> 0 < v_den v /\ forall i, (i < len)%nat -> (m | v_recons v i - v_den v * g * co pol i)).
Lemma upoly_ok old pol len m mr g N D v N' D' : 1 < m -> 0 <= N -> (mr = 0 \/ mr < len)%nat -> recon_upoly old pol len m mr g N D = Some (v, N', D') ->
  0 <= N' /\ (v_maxrec v = 0 \/ v_maxrec v < len)%nat /\ (v_ok v = true -> vec_ok m g old pol len v).
Proof.
  intros Hm HN HM E. apply recon_upoly_in in E as (M1 & M2 & E). split; [apply (wden_N _ _ _ _ _ _ _ _ _ _ _ _ _ _ Hm HN E)|]. split.
  - destruct (Nat.eq_dec len 0) as [->|L].
    + left. destruct HM as [->|]; [|lia]. revert E. unfold rational_reconstruction_wden. destruct (ratreconwden _ _ _ _ _) as [[[b x] y]|]; cbn [obind]; [|discriminate]. destruct b; cbn [negb]; [|intros E; injection E as <- _ _; reflexivity]. cbn [Nat.add Nat.sub rec_up obind rec_down]. intros E; injection E as <- _ _; reflexivity.
    + right. assert (HL : (mr < len)%nat) by lia. apply (rational_reconstruction_wden_maxrec _ _ _ _ _ _ _ _ _ _ _ _ _ _ HL E).
  - intros OK. split; [intros i Hi; apply (wden_above _ _ _ _ _ _ _ _ _ _ _ _ _ _ _ E Hi)|]. intros Hg. split; [apply (wden_den _ _ _ _ _ _ _ _ _ _ _ _ _ _ Hm HN HM Hg E OK)|]. intros i Hi. assert (HL : (mr < len)%nat) by lia. apply (rational_reconstruction_wden_sound _ _ _ _ _ _ _ _ _ _ _ _ _ _ Hm HN HL Hg E OK). exact Hi.
Qed.
Lemma recon_coord_ok nc old pol len m mr g N D v N' D' : 1 < m -> 0 <= N -> (mr = 0 \/ mr < len)%nat -> recon_coord nc old pol len m mr g N D = Some (v, N', D') -> 0 <= N' /\ (v_ok v = true -> vec_ok m g old pol len v).
Proof.
  intros Hm HN HM. unfold recon_coord. destruct (recon_upoly old pol len m mr g N D) as [[[v1 n1] d1]|] eqn:E1; cbn [obind fst]; [|discriminate]. destruct (upoly_ok _ _ _ _ _ _ _ _ _ _ _ Hm HN HM E1) as (A1 & A2 & A3). destruct (v_ok v1) eqn:O1; [intros E; injection E as <- <- <-; split; [exact A1|intros _; apply A3; reflexivity]|].
  set (D2 := 2 ^ Z.of_nat nc). assert (0 < D2) by (apply Z.pow_pos_nonneg; lia). assert (0 <= m / 2 / D2) as N2 by (apply Z.div_pos; [apply Z.div_pos; lia|lia]).
  destruct (recon_upoly old pol len m (v_maxrec v1) g (m / 2 / D2) D2) as [[[v2 n2] d2]|] eqn:E2; cbn [obind fst]; [|discriminate]. destruct (upoly_ok _ _ _ _ _ _ _ _ _ _ _ Hm N2 A2 E2) as (B1 & B2 & B3). destruct (v_ok v2) eqn:O2; [intros E; injection E as <- <- <-; split; [exact B1|intros _; apply B3; reflexivity]|].
  destruct (Z.eqb_spec (root 16 (m / 2)) 0) as [|R]; [discriminate|]. pose proof (root_nonneg 16 (m / 2)). intros E3. assert (0 <= m / 2 / root 16 (m / 2)) as N3 by (apply Z.div_pos; [apply Z.div_pos; lia|lia]). destruct (upoly_ok _ _ _ _ _ _ _ _ _ _ _ Hm N3 B2 E3) as (C1 & _ & C3). split; [exact C1|exact C3].
Qed.

Lemma sqrt_half_lt m : 1 < m -> 0 <= Z.sqrt ((m - 1) / 2) < m.
Proof.
  intros H. assert (Q0 : 0 <= (m - 1) / 2) by (apply Z.div_pos; lia). pose proof (Z.sqrt_nonneg ((m - 1) / 2)). pose proof (Z.sqrt_le_lin _ Q0). pose proof (Z.div_lt_upper_bound (m - 1) 2 m). lia.
Qed.
Section inv.
Variables (d nc : nat) (All : list image).
(** coordinate k of the state: zero above all the lengths; when lifted it agrees with the images of an initial part of those used *)
Definition CQ (U : list image) (el : list Z) (k : nat) (c : list Z) (f : Z) (l : bool) : Prop :=
  length c = d /\ (forall j, (forall im, In im All -> (im_len k im <= j)%nat) -> co c j = 0) /\
  (l = true -> co el d * Z.of_nat d <> 0 -> 0 < f /\ exists U1 im R, U = U1 ++ im :: R /\ forall im', In im' (U1 ++ [im]) -> coord_agrees d el f c k (Nat.min (im_len k im) (im_len k im')) im').
Lemma CQ_false U el k c f l U' el' : CQ U el k c f l -> CQ U' el' k c f false.
Proof. intros (A & B & _). split; [exact A|]. split; [exact B|]. discriminate. Qed.
Lemma CQ_more U W el k c f l : CQ U el k c f l -> CQ (U ++ W) el k c f l.
Proof.
  intros (A & B & C). split; [exact A|]. split; [exact B|]. intros HL HE. destruct (C HL HE) as (F & U1 & im & R & -> & G). split; [exact F|]. exists U1, im, (R ++ W). rewrite <- app_assoc. split; [reflexivity|exact G].
Qed.
(** CRT values of coordinate k *)
Definition PQ (U : list image) (m : Z) (k : nat) (pol : list Z) : Prop :=
  length pol = d /\ (forall x, In x pol -> 0 <= x < m) /\ forall j im, In im U -> (j < im_len k im)%nat -> (im_p im | co pol j - im_co k j im).
Definition CS (U : list image) (el : list Z) (k0 : nat) (cs : list (list Z)) (cfs : list Z) (lc : list bool) : Prop :=
  length cfs = length cs /\ length lc = length cs /\ forall i c f l, nth_error cs i = Some c -> nth_error cfs i = Some f -> nth_error lc i = Some l -> CQ U el (k0 + i) c f l.
Lemma CS_cons U el k0 c cs f cfs l lc : CQ U el k0 c f l -> CS U el (S k0) cs cfs lc -> CS U el k0 (c :: cs) (f :: cfs) (l :: lc).
Proof.
  intros H (A & B & C). split; [cbn; lia|]. split; [cbn; lia|]. intros [|i] c' f' l' H1 H2 H3; cbn in H1, H2, H3.
  - injection H1 as <-. injection H2 as <-. injection H3 as <-. rewrite Nat.add_0_r. exact H.
  - rewrite Nat.add_succ_r. apply (C i c' f' l' H1 H2 H3).
Qed.
Lemma CS_inv U el k0 c cs f cfs l lc : CS U el k0 (c :: cs) (f :: cfs) (l :: lc) -> CQ U el k0 c f l /\ CS U el (S k0) cs cfs lc.
Proof.
  intros (A & B & C). split; [specialize (C 0%nat c f l eq_refl eq_refl eq_refl); rewrite Nat.add_0_r in C; exact C|]. split; [cbn in A; lia|]. split; [cbn in B; lia|]. intros i c' f' l' H1 H2 H3. specialize (C (S i) c' f' l' H1 H2 H3). rewrite Nat.add_succ_r in C. exact C.
Qed.
Lemma coords_loop_ok U im nc0 didx m el nm : 1 < m -> In im All -> (forall im', In im' (U ++ [im]) -> (im_p im' | m)) -> forall cs k0 pols cfs lc N D sg mr rc rf rl mr' b,
  (co el d * Z.of_nat d <> 0 -> sg = 1) -> 0 <= N -> nm = skipn k0 (im_coords im) -> (forall i pol, nth_error pols i = Some pol -> PQ (U ++ [im]) m (k0 + i) pol) ->
  (forall a, In a nm -> (fst a <= d)%nat) ->
  CS (U ++ [im]) el k0 cs cfs lc -> coords_loop nc0 didx m (co el d * Z.of_nat d) N D sg mr cs pols cfs lc nm = Some (rc, rf, rl, mr', b) ->
  CS (U ++ [im]) el k0 rc rf rl /\ length rc = length cs /\ (b = true -> forall l, In l rl -> l = true).
Proof.
  intros Hm HA HD. remember nm as nm0 eqn:EN. clear EN. intros cs. revert nm0. induction cs as [|c cs IH]; intros nm0 k0 pols cfs lc N D sg mr rc rf rl mr' b SG HN NM HP HF HC HE; cbn [coords_loop] in HE.
  - injection HE as <- <- <- _ <-. split; [split; [reflexivity|]; split; [reflexivity|]; intros [|i] ? ? ?; discriminate|]. split; [reflexivity|]. intros _ l [].
  - destruct pols as [|pol pols]; [discriminate|]. destruct cfs as [|f cfs]; [discriminate|]. destruct lc as [|l lc]; [discriminate|]. destruct nm0 as [|a nm0]; [discriminate|].
    apply CS_inv in HC as [HC1 HC2]. assert (NA : nth_error (im_coords im) k0 = Some a) by (clear -NM; revert k0 NM; generalize (im_coords im); intros L; induction L as [|x L IHL]; intros [|k0] E; cbn in *; try discriminate; [injection E as -> _; reflexivity|apply IHL; exact E]).
    assert (NM2 : nm0 = skipn (S k0) (im_coords im)) by (clear -NM; revert k0 NM; generalize (im_coords im); intros L; induction L as [|x L IHL]; intros [|k0] E; cbn in *; try discriminate; [injection E as _ ->; reflexivity|apply IHL; exact E]).
    assert (LA : im_len k0 im = fst a) by (unfold im_len; rewrite (nth_error_nth _ _ _ NA); reflexivity).
    assert (HP2 : forall i pol0, nth_error pols i = Some pol0 -> PQ (U ++ [im]) m (S k0 + i) pol0) by (intros i q Hq; specialize (HP (S i) q Hq); rewrite Nat.add_succ_r in HP; exact HP).
    assert (HF2 : forall a0, In a0 nm0 -> (fst a0 <= d)%nat) by (intros a0 H0; apply HF; right; exact H0).
    destruct l.
    + destruct (coords_loop _ _ _ _ _ _ _ _ cs pols cfs lc nm0) as [[[[[rc1 rf1] rl1] mr1] b1]|] eqn:EC; cbn [obind] in HE; [|discriminate]. injection HE as <- <- <- _ <-. destruct (IH nm0 (S k0) pols cfs lc N D _ _ _ _ _ _ _ SG HN NM2 HP2 HF2 HC2 EC) as (A & B & C). split; [apply CS_cons; assumption|]. split; [cbn; lia|]. intros HB l [<-|Hl]; [reflexivity|apply C; assumption].
    + assert (HM : (Nat.min (didx - 1) (fst a - 1) = 0 \/ Nat.min (didx - 1) (fst a - 1) < fst a)%nat) by lia.
      destruct (recon_coord nc0 c pol (fst a) m _ _ N D) as [[[v N'] D']|] eqn:ER; cbn [obind] in HE; [|discriminate]. destruct (recon_coord_ok _ _ _ _ _ _ _ _ _ _ _ _ Hm HN HM ER) as (N1 & V). destruct (v_ok v).
      * destruct (Z.eqb_spec (v_den v) 0) as [|VD]; [discriminate|]. destruct (coords_loop _ _ _ _ _ _ _ _ cs pols cfs lc nm0) as [[[[[rc1 rf1] rl1] mr1] b1]|] eqn:EC; cbn [obind] in HE; [|discriminate]. injection HE as <- <- <- _ <-. destruct (V eq_refl) as [V1 V2].
        set (sg' := if v_den v <? 0 then - sg else sg) in *. assert (SG' : co el d * Z.of_nat d <> 0 -> sg' = 1) by (intros Hg; unfold sg'; destruct (V2 Hg) as [V3 _]; destruct (Z.ltb_spec (v_den v) 0); [lia|apply SG; exact Hg]).
        destruct (IH nm0 (S k0) pols cfs lc N' D' _ _ _ _ _ _ _ SG' N1 NM2 HP2 HF2 HC2 EC) as (A & B & C). destruct HC1 as (Q1 & Q2 & _). destruct (HP 0%nat pol eq_refl) as (P1 & P2 & P3). rewrite Nat.add_0_r in P3. pose proof (HF a (or_introl eq_refl)) as FA.
        assert (CO : forall j, (j < d)%nat -> co (map (Z.mul sg') (written c v)) j = sg' * v_recons v j).
        { intros j Hj. unfold co. rewrite (nth_indep _ 0 (sg' * 0)) by (rewrite map_length, written_len; lia). rewrite map_nth. f_equal. apply written_co. lia. }
        split; [apply CS_cons; [|exact A]|].
        { split; [rewrite map_length, written_len; exact Q1|]. split.
          - intros j Hj. destruct (Nat.lt_ge_cases j d) as [Jd|Jd]; [|unfold co; apply nth_overflow; rewrite map_length, written_len; lia]. rewrite CO by exact Jd. specialize (Hj im HA) as Hji. rewrite V1 by lia. rewrite Q2 by exact Hj. ring.
          - intros _ Hg. destruct (V2 Hg) as [V3 V4]. split; [lia|]. exists U, im, []. split; [reflexivity|]. intros im' Him' j Hj. rewrite CO by lia. rewrite (SG' Hg), Z.mul_1_l. rewrite Z.abs_eq by lia.
            assert (X1 : (im_p im' | v_recons v j - v_den v * (co el d * Z.of_nat d) * co pol j)) by (apply (Z.divide_trans _ m); [apply HD; exact Him'|apply V4; lia]). assert (X2 : (im_p im' | co pol j - im_co k0 j im')) by (apply P3; [exact Him'|lia]).
            replace (v_recons v j - v_den v * (co el d * Z.of_nat d) * im_co k0 j im') with ((v_recons v j - v_den v * (co el d * Z.of_nat d) * co pol j) + v_den v * (co el d * Z.of_nat d) * (co pol j - im_co k0 j im')) by ring. apply Z.divide_add_r; [exact X1|apply Z.divide_mul_r; exact X2]. }
        split; [cbn; lia|]. intros HB l [<-|Hl]; [reflexivity|apply C; assumption].
      * injection HE as <- <- <- _ <-. split; [apply CS_cons; assumption|]. split; [reflexivity|discriminate].
Qed.

Definition ims_p (U : list image) : list Z := map im_p U.
Lemma prod_app a b : prod (a ++ b) = prod a * prod b.
Proof. induction a as [|x a IH]; cbn [app prod fold_right]; [unfold prod; destruct (fold_right Z.mul 1 b); reflexivity|]. fold (prod (a ++ b)). fold (prod a). rewrite IH. ring. Qed.
Lemma prod_snoc U im : prod (ims_p (U ++ [im])) = prod (ims_p U) * im_p im.
Proof. unfold ims_p. rewrite map_app, prod_app. cbn. ring. Qed.
Definition ok_im (im : image) : Prop := image_ok d nc im.
Record Inv (U : list image) (s : state) : Prop := {
  I_ne : U <> [];
  I_ok : forall im, In im U -> ok_im im;
  I_m : s_m s = prod (ims_p U);
  I_ce : length (s_ce s) = S d /\ (forall x, In x (s_ce s) -> 0 <= x < s_m s) /\ forall im i, In im U -> (i <= d)%nat -> (im_p im | co (s_ce s) i - co (im_elim im) i);
  I_cc : length (s_cc s) = nc /\ forall i pol, nth_error (s_cc s) i = Some pol -> PQ U (s_m s) i pol;
  I_len : length (s_elim s) = S d /\ length (s_coords s) = nc;
  I_cs : CS U (s_elim s) 0 (s_coords s) (s_cfs s) (s_lc s);
  I_nle : s_le s = false -> forall l, In l (s_lc s) -> l = false;
  I_le : s_le s = true -> exists U0 R, U = U0 ++ R /\ U0 <> [] /\ forall im, In im U0 -> elim_agrees d (s_elim s) im;
  I_tr : w_den (s_tr s) <> 0; I_dt : w_den (s_dt s) <> 0 }.

Lemma update_wit_den w c p w' b : update_wit w c p = Some (w', b) -> w_den w' = w_den w.
Proof. unfold update_wit. destruct (_ =? 1)%nat; [|intros E; injection E as <- _; reflexivity]. destruct (check_wit w c p) as [[|]|]; cbn [obind]; intros E; try discriminate; injection E as <- _; reflexivity. Qed.
Lemma recon_wit_den w m g N D b w' : 1 < m -> 0 <= N < m -> w_den w <> 0 -> recon_wit w m g N D = Some (b, w') -> w_den w' <> 0.
Proof.
  intros Hm HN HW. unfold recon_wit. destruct (ratreconwden (w_crt w) m g N D) as [[[b' n] e]|] eqn:E; cbn [obind]; [|discriminate]. destruct b'; [|intros H; injection H as _ <-; exact HW]. destruct (Z.eqb_spec (Z.gcd n (e * g)) 0) as [|G]; [discriminate|]. intros H. injection H as _ <-. cbn [w_den].
  apply ratreconwden_sound in E; [|assumption|lia]. destruct E as (E1 & E2 & E3 & _). destruct (Z.eq_dec g 0) as [->|Hg].
  - exfalso. apply G. unfold cong in E1. destruct E1 as [k Hk]. assert (Hn : n = k * m) by lia. assert (k = 0) by nia. subst k. rewrite Hn, Z.mul_0_r. reflexivity.
  - destruct (Z.gcd_divide_r n (e * g)) as [k Hk]. intros Z0. assert (X : e * g <> 0) by nia. rewrite Hk in Z0 at 1. rewrite Z.div_mul in Z0 by exact G. subst k. lia.
Qed.
Lemma rat_recon_den tr dt m g N D tr' dt' g' : 1 < m -> 0 <= N < m -> w_den tr <> 0 -> w_den dt <> 0 -> rat_recon_trace_det tr dt m g N D = Some (tr', dt', g') -> w_den tr' <> 0 /\ w_den dt' <> 0.
Proof.
  intros Hm HN HT HD. unfold rat_recon_trace_det.
  assert (A : forall t, (if (w_done tr <? 2)%nat then recon_wit tr m g N D else Some (true, tr)) = Some t -> w_den (snd t) <> 0).
  { intros [b w] E. destruct (w_done tr <? 2)%nat; [apply (recon_wit_den _ _ _ _ _ _ _ Hm HN HT E)|injection E as _ <-; exact HT]. }
  destruct (if (w_done tr <? 2)%nat then _ else _) as [t|]; cbn [obind]; [|discriminate]. specialize (A t eq_refl). destruct (negb (fst t)); [intros E; injection E as <- <- _; split; assumption|]. destruct (_ && _); [|intros E; injection E as <- <- _; split; assumption].
  destruct (recon_wit dt m g N D) as [[b w]|] eqn:E2; cbn [obind]; [|discriminate]. intros E. injection E as <- <- _. split; [exact A|]. apply (recon_wit_den _ _ _ _ _ _ _ Hm HN HD E2).
Qed.
Lemma crt_coords_ok U m im : 1 < m -> prime (im_p im) -> im_p im < 2 ^ 31 -> Z.gcd m (im_p im) = 1 -> (forall im', In im' U -> (im_p im' | m)) ->
  forall cc k0 nm r, nm = skipn k0 (im_coords im) -> (forall a, In a nm -> forall x, In x (snd a) -> 0 <= x < im_p im) -> (forall a, In a nm -> (fst a <= d)%nat) ->
  (forall i pol, nth_error cc i = Some pol -> PQ U m (k0 + i) pol) -> crt_coords m (im_p im) cc nm = Some r ->
  length r = length cc /\ forall i pol, nth_error r i = Some pol -> PQ (U ++ [im]) (m * im_p im) (k0 + i) pol.
Proof.
  intros Hm Hp Hp2 HG HU. induction cc as [|c cc IH]; intros k0 nm r NM HR HF HC E; cbn [crt_coords] in E; [injection E as <-; split; [reflexivity|intros [|i] pol; discriminate]|]. destruct nm as [|a nm]; [discriminate|].
  assert (NA : nth_error (im_coords im) k0 = Some a) by (clear -NM; revert k0 NM; generalize (im_coords im); intros L; induction L as [|x L IHL]; intros [|k0] E; cbn in *; try discriminate; [injection E as -> _; reflexivity|apply IHL; exact E]).
  assert (NM2 : nm = skipn (S k0) (im_coords im)) by (clear -NM; revert k0 NM; generalize (im_coords im); intros L; induction L as [|x L IHL]; intros [|k0] E; cbn in *; try discriminate; [injection E as _ ->; reflexivity|apply IHL; exact E]).
  destruct (crt_upoly m (im_p im) c (snd a)) as [y|] eqn:EY; cbn [obind] in E; [|discriminate]. destruct (crt_coords m (im_p im) cc nm) as [r'|] eqn:ER; cbn [obind] in E; [|discriminate]. injection E as <-.
  destruct (HC 0%nat c eq_refl) as (P1 & P2 & P3). rewrite Nat.add_0_r in P3. destruct (crt_upoly_ok m (im_p im) c Hm Hp Hp2 HG P2 (snd a) (HR a (or_introl eq_refl)) y EY) as (Y1 & Y2 & Y3).
  destruct (IH (S k0) nm r' NM2 (fun b Hb => HR b (or_intror Hb)) (fun b Hb => HF b (or_intror Hb))) as (L & Q); [intros i pol Hi; specialize (HC (S i) pol Hi); rewrite Nat.add_succ_r in HC; exact HC|exact ER|]. split; [cbn; lia|]. intros [|i] pol Hi; cbn in Hi; [|rewrite Nat.add_succ_r; apply Q; exact Hi]. injection Hi as <-. rewrite Nat.add_0_r. split; [lia|]. split; [exact Y2|].
  assert (LA : im_len k0 im = fst a) by (unfold im_len; rewrite (nth_error_nth _ _ _ NA); reflexivity). pose proof (HF a (or_introl eq_refl)) as FA.
  intros j im' Him' Hj. apply in_app_or in Him' as [Him'|[<-|[]]].
  - destruct (Nat.lt_ge_cases j (length c)) as [Jd|Jd].
    + destruct (Y3 j Jd) as [Y4 _]. replace (co y j - im_co k0 j im') with ((co y j - co c j) + (co c j - im_co k0 j im')) by ring. apply Z.divide_add_r; [apply (Z.divide_trans _ m); [apply HU; exact Him'|exact Y4]|apply P3; assumption].
    + specialize (P3 j im' Him' Hj). unfold co in *. rewrite nth_overflow in P3 by exact Jd. rewrite nth_overflow by lia. exact P3.
  - destruct (Y3 j ltac:(lia)) as [_ Y4]. unfold im_co. rewrite (nth_error_nth _ _ _ NA). exact Y4.
Qed.
Lemma prod_div U im : In im U -> (im_p im | prod (ims_p U)).
Proof. intros H. apply prod_in. unfold ims_p. apply in_map. exact H. Qed.
Lemma CS_more U W el k cs cfs lc : CS U el k cs cfs lc -> CS (U ++ W) el k cs cfs lc.
Proof. intros (A & B & C). split; [exact A|]. split; [exact B|]. intros i c f l H1 H2 H3. apply CQ_more. apply (C i c f l H1 H2 H3). Qed.
Lemma CS_change U el el' k cs cfs lc : (forall l, In l lc -> l = false) -> CS U el k cs cfs lc -> CS U el' k cs cfs lc.
Proof. intros F (A & B & C). split; [exact A|]. split; [exact B|]. intros i c f l H1 H2 H3. pose proof (F l (nth_error_In _ _ H3)). subst l. apply (CQ_false U el (k + i) c f false). apply (C i c f false H1 H2 H3). Qed.
Lemma recon_ok U s im doit s' b : Inv U s -> ok_im im -> In im All -> primes_ok (im_p im :: ims_p U) -> recon s im doit = Some (s', b) ->
  Inv (U ++ [im]) s' /\ (b = true -> s_le s' = true /\ forall l, In l (s_lc s') -> l = true).
Proof.
  intros HI HK HA OK. destruct HI as [Ine Iok Im Ice Icc Ilen Ics Inle Ile Itr Idt]. assert (IOK : forall im', In im' (U ++ [im]) -> ok_im im') by (intros im' H; apply in_app_or in H as [H|[<-|[]]]; [apply Iok; exact H|exact HK]). destruct HK as ((K1 & K2) & K3 & K4 & K5 & K6 & K7). unfold recon.
  destruct (nth_error (im_elim im) (w_idx (s_tr s))) as [tm|]; cbn [obind]; [|discriminate]. destruct (nth_error (im_elim im) (w_idx (s_dt s))) as [dm|]; cbn [obind]; [|discriminate].
  destruct (update_wit (s_tr s) tm (im_p im)) as [[t tb]|] eqn:ET; cbn [obind fst snd]; [|discriminate]. apply update_wit_den in ET. destruct (update_wit (s_dt s) dm (im_p im)) as [[e eb]|] eqn:EE; cbn [obind fst snd]; [|discriminate]. apply update_wit_den in EE.
  set (maxrec := if tb || eb then w_idx (s_dt s) else s_maxrec s).
  assert (Hm : 1 < s_m s) by (rewrite Im; apply prod_gt; [intros p Hp; apply OK; right; exact Hp|unfold ims_p; destruct U; [contradiction|discriminate]]).
  assert (HG : Z.gcd (s_m s) (im_p im) = 1) by (rewrite Im; apply prod_coprime; exact OK).
  pose proof (prime_ge_2 _ K1) as P2. assert (Hm2 : 1 < s_m s * im_p im) by nia. assert (P31 : im_p im < 2 ^ 31) by lia.
  destruct (crt_upoly (s_m s) (im_p im) (s_ce s) (im_elim im)) as [ce|] eqn:ECE; cbn [obind]; [|discriminate]. destruct (crt_coords (s_m s) (im_p im) (s_cc s) (im_coords im)) as [cc|] eqn:ECC; cbn [obind]; [|discriminate].
  destruct (mpz_CRT_ui (w_crt t) _ _ _ _ _) as [tc|]; cbn [obind]; [|discriminate]. destruct (mpz_CRT_ui (w_crt e) _ _ _ _ _) as [dc|]; cbn [obind]; [|discriminate].
  destruct Ice as (C1 & C2 & C3). destruct (crt_upoly_ok _ _ _ Hm K1 P31 HG C2 _ K5 _ ECE) as (Y1 & Y2 & Y3). destruct Icc as (D1 & D2).
  assert (DU : forall im', In im' U -> (im_p im' | s_m s)) by (intros im' H; rewrite Im; apply prod_div; exact H).
  destruct (crt_coords_ok U (s_m s) im Hm K1 P31 HG DU (s_cc s) 0 (im_coords im) cc eq_refl) as (Z1 & Z2); [intros a Ha; apply K7; exact Ha|intros a Ha; apply K7; exact Ha|exact D2|exact ECC|].
  assert (ICE : length ce = S d /\ (forall x, In x ce -> 0 <= x < s_m s * im_p im) /\ forall im' i, In im' (U ++ [im]) -> (i <= d)%nat -> (im_p im' | co ce i - co (im_elim im') i)).
  { split; [lia|]. split; [exact Y2|]. intros im' i Him' Hi. destruct (Y3 i ltac:(lia)) as [Y4 Y5]. apply in_app_or in Him' as [Him'|[<-|[]]]; [|exact Y5]. replace (co ce i - co (im_elim im') i) with ((co ce i - co (s_ce s) i) + (co (s_ce s) i - co (im_elim im') i)) by ring. apply Z.divide_add_r; [apply (Z.divide_trans _ (s_m s)); [apply DU; exact Him'|exact Y4]|apply C3; assumption]. }
  assert (ICC : length cc = nc /\ forall i pol, nth_error cc i = Some pol -> PQ (U ++ [im]) (s_m s * im_p im) i pol) by (split; [lia|exact Z2]).
  assert (IM : s_m s * im_p im = prod (ims_p (U ++ [im]))) by (rewrite prod_snoc, Im; reflexivity).
  assert (INE : U ++ [im] <> []) by (destruct U; discriminate).
  assert (ILE : s_le s = true -> exists U0 R, U ++ [im] = U0 ++ R /\ U0 <> [] /\ forall im', In im' U0 -> elim_agrees d (s_elim s) im') by (intros H; destruct (Ile H) as (U0 & R & -> & N0 & G); exists U0, (R ++ [im]); rewrite <- app_assoc; split; [reflexivity|]; split; assumption).
  set (m := s_m s * im_p im) in *. clearbody m.
  destruct doit; cbn [negb].
  2:{ intros E. injection E as <- <-. split; [|discriminate]. constructor; cbn [s_m s_ce s_cc s_elim s_coords s_cfs s_le s_lc s_tr s_dt w_den]; try assumption; [apply CS_more; exact Ics|congruence|congruence]. }
  cbn [w_done w_den w_idx]. set (gden := if (1 <? w_done t)%nat then _ else _).
  pose proof (sqrt_half_lt m Hm2) as HN.
  set (N := Z.sqrt ((m - 1) / 2)) in *.
  destruct ((1 <? w_done t)%nat && (1 <? w_done e)%nat) eqn:EW; cbn [negb].
  2:{ destruct (rat_recon_trace_det _ _ m gden N N) as [[[tr' dt'] g']|] eqn:ER; cbn [obind]; [|discriminate]. apply rat_recon_den in ER as [R1 R2]; [|exact Hm2|exact HN|cbn; congruence|cbn; congruence]. intros E. injection E as <- <-. split; [|discriminate].
      constructor; cbn [s_m s_ce s_cc s_elim s_coords s_cfs s_le s_lc s_tr s_dt w_den]; try assumption. apply CS_more; exact Ics. }
  apply andb_true_iff in EW as [EW1 EW2]. assert (HGD : gden <> 0) by (unfold gden; rewrite EW1, EW2; intros Z0; apply Z.lcm_eq_0 in Z0 as [Z0|Z0]; congruence).
  destruct Ilen as (L1 & L2).
  destruct (if s_le s then Some (true, s_elim s, maxrec) else recon_elim (s_elim s) ce m maxrec gden) as [[[be el] mr]|] eqn:EEL; cbn [obind]; [|discriminate]. destruct be; cbn [negb].
  2:{ intros E. injection E as <- <-. split; [|discriminate]. destruct (s_le s) eqn:LE; [discriminate|]. constructor; cbn [s_m s_ce s_cc s_elim s_coords s_cfs s_le s_lc s_tr s_dt w_den]; try assumption; [split; assumption|apply CS_more; exact Ics|congruence|congruence]. }
  assert (IEL : length el = S d /\ CS (U ++ [im]) el 0 (s_coords s) (s_cfs s) (s_lc s) /\ exists U0 R, U ++ [im] = U0 ++ R /\ U0 <> [] /\ forall im', In im' U0 -> elim_agrees d el im').
  { destruct (s_le s) eqn:LE.
    - injection EEL as <- _. split; [exact L1|]. split; [apply CS_more; exact Ics|apply ILE; reflexivity].
    - destruct ICE as (A1 & A2 & A3). assert (LL : length (s_elim s) = length ce) by lia. destruct (recon_elim_ok _ _ _ _ _ _ _ Hm2 HGD LL EEL) as (X1 & den & X2). split; [lia|]. split; [apply (CS_change _ (s_elim s)); [apply Inle; reflexivity|apply CS_more; exact Ics]|]. exists (U ++ [im]), []. split; [symmetry; apply app_nil_r|]. split; [exact INE|]. intros im' Him' i Hi.
      assert (DM : (im_p im' | m)) by (rewrite IM; apply prod_div; exact Him'). destruct (Z.divide_trans _ _ _ DM (X2 i ltac:(lia))) as [a Ha]. destruct (Z.divide_trans _ _ _ DM (X2 d ltac:(lia))) as [c Hc]. destruct (A3 im' i Him' Hi) as [a1 Ha1]. destruct (A3 im' d Him' (le_n _)) as [a2 Ha2]. assert (MON : co (im_elim im') d = 1) by apply (IOK im' Him'). rewrite MON in Ha2.
      exists (a + den * gden * a1 - c * co (im_elim im') i - den * gden * a2 * co (im_elim im') i). replace (co el i) with (a * im_p im' + den * gden * co ce i) by lia. replace (co el d) with (c * im_p im' + den * gden * co ce d) by lia. replace (co ce i) with (a1 * im_p im' + co (im_elim im') i) by lia. replace (co ce d) with (a2 * im_p im' + 1) by lia. ring. }
  destruct IEL as (E1 & E2 & E3). assert (LC : (length ce - 1)%nat = d) by lia. rewrite LC. destruct (nth_error el d) as [lcoef|] eqn:ELC; cbn [obind]; [|discriminate]. assert (CO : lcoef = co el d) by (unfold co; symmetry; apply nth_error_nth; exact ELC). subst lcoef.
  destruct (coords_loop _ _ m _ _ _ 1 mr (s_coords s) cc (s_cfs s) (s_lc s) (im_coords im)) as [[[[[rc rf] rl] mr'] b']|] eqn:ECL; cbn [obind]; [|discriminate]. intros E. injection E as <- <-.
  assert (DD : forall im', In im' (U ++ [im]) -> (im_p im' | m)) by (intros im' H; rewrite IM; apply prod_div; exact H). assert (KF : forall a, In a (im_coords im) -> (fst a <= d)%nat) by (intros a Ha; apply K7; exact Ha).
  destruct (coords_loop_ok U im (length (s_coords s)) (w_idx e) m el (im_coords im) Hm2 HA DD (s_coords s) 0%nat cc (s_cfs s) (s_lc s) _ _ 1 mr rc rf rl mr' b' (fun _ => eq_refl) (Z.sqrt_nonneg _) eq_refl (proj2 ICC) KF E2 ECL) as (F1 & F2 & F3).
  split.
  - constructor; cbn [s_m s_ce s_cc s_elim s_coords s_cfs s_le s_lc s_tr s_dt w_den]; try assumption; [split; [exact E1|lia]|discriminate|intros _; exact E3|congruence|congruence].
  - cbn [s_le s_lc]. intros HB. split; [reflexivity|apply F3; exact HB].
Qed.
End inv.
