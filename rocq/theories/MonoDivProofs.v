From Coq Require Import ZArith NArith Arith List Bool Lia.
From Verif Require Import ModInvModel MonoSpec MonoSpecProofs MonoModel MonoProofs.
Import ListNotations.
Open Scope N_scope.

(** ** Layout-wise comparison is divisibility *)
Lemma lay_cases nv nev j : (nev < nv)%nat -> (j < ht_evl nv nev)%nat ->
  (j = 0)%nat \/ (1 <= j <= nev)%nat \/ (nev <> 0 /\ j = nev + 1)%nat \/ (nev < j - (ht_ebl nev - nev))%nat.
Proof. unfold ht_evl, ht_ebl. destruct (Nat.eqb_spec nev 0); lia. Qed.

Lemma mdvd_firstn k a b : mdvd a b -> mdvd (firstn k a) (firstn k b).
Proof. intros H i. rewrite !ex_firstn. destruct (i <? k)%nat; [apply H|lia]. Qed.
Lemma mdvd_skipn k a b : mdvd a b -> mdvd (skipn k a) (skipn k b).
Proof. intros H i. rewrite !ex_skipn. apply H. Qed.

Lemma lay_dvd nv nev a b : (nev < nv)%nat -> length a = nv -> length b = nv ->
  (forall j, (j < ht_evl nv nev)%nat -> ex (lay nev b) j <= ex (lay nev a) j) <-> mdvd b a.
Proof.
  intros Hn Ha Hb. split.
  - intros H i. destruct (Nat.lt_ge_cases i nv) as [Hi|Hi]; [|rewrite !ex_overflow by lia; lia].
    destruct (Nat.lt_ge_cases i nev) as [Hi'|Hi'].
    + specialize (H (S i)). rewrite !(lay_first nv) in H by (auto; lia).
      replace (S i - 1)%nat with i in H by lia. apply H. unfold ht_evl. destruct (_ =? _)%nat; lia.
    + specialize (H (i + 1 + (ht_ebl nev - nev))%nat). rewrite !(lay_second nv) in H by (auto; lia).
      replace (i + 1 + (ht_ebl nev - nev) - (ht_ebl nev - nev) - 1)%nat with i in H by lia. apply H.
      unfold ht_evl, ht_ebl. destruct (Nat.eqb_spec nev 0); lia.
  - intros H j Hj. destruct (lay_cases nv nev j Hn Hj) as [->|[Hc|[[Hc ->]|Hc]]].
    + rewrite !lay_deg0. destruct (nev =? 0)%nat; apply mdeg_mono; auto using mdvd_firstn. apply mdvd_firstn. assumption.
    + rewrite !(lay_first nv) by auto. apply H.
    + rewrite !(lay_ebl nv) by auto. apply mdeg_mono. apply mdvd_skipn. assumption.
    + rewrite !(lay_second nv) by auto. apply H.
Qed.

(** ** Exponent test *)
Lemma ge_pairs_ok cnt : forall i ea eb, (i + 2 * cnt <= length ea)%nat -> (i + 2 * cnt <= length eb)%nat ->
  exists r, ge_pairs cnt i ea eb = Some r /\
  (r = true <-> forall j, (i <= j < i + 2 * cnt)%nat -> ex eb j <= ex ea j).
Proof.
  induction cnt as [|c IH]; intros i ea eb Ha Hb.
  - exists true. split; [reflexivity|]. split; auto. intros _ j Hj. lia.
  - cbn [ge_pairs]. rewrite !rd_ex by lia. cbn [obind]. destruct (N.ltb_spec (ex ea i) (ex eb i)) as [L|L].
    { exists false. split; [reflexivity|]. split; [discriminate|]. intros H. specialize (H i ltac:(lia)). lia. }
    destruct (N.ltb_spec (ex ea (i+1)) (ex eb (i+1))) as [L'|L'].
    { exists false. split; [reflexivity|]. split; [discriminate|]. intros H. specialize (H (i+1)%nat ltac:(lia)). lia. }
    destruct (IH (i + 2)%nat ea eb) as (r & -> & Hr); [lia|lia|]. exists r. split; [reflexivity|]. rewrite Hr. split.
    + intros H j Hj. destruct (Nat.eq_dec j i) as [->|]; [assumption|]. destruct (Nat.eq_dec j (i+1)) as [->|]; [assumption|]. apply H. lia.
    + intros H j Hj. apply H. lia.
Qed.

Lemma exponents_ge_ok evl ea eb : (0 < evl)%nat -> length ea = evl -> length eb = evl ->
  exists r, exponents_ge evl ea eb = Some r /\ (r = true <-> forall j, (j < evl)%nat -> ex eb j <= ex ea j).
Proof.
  intros He Ha Hb. unfold exponents_ge. pose proof (Nat.div_mod evl 2 ltac:(lia)) as Hd.
  pose proof (Nat.mod_upper_bound evl 2 ltac:(lia)) as Hm.
  destruct (ge_pairs_ok (evl / 2) 0 ea eb) as (r & -> & Hr); [lia|lia|]. cbn [obind].
  destruct r.
  - rewrite !rd_ex by lia. cbn [obind]. eexists. split; [reflexivity|].
    rewrite negb_true_iff, N.ltb_ge. split.
    + intros H j Hj. destruct (Nat.eq_dec j (evl - 1)) as [->|]; [assumption|]. apply (proj1 Hr eq_refl). lia.
    + intros H. apply H. lia.
  - exists false. split; [reflexivity|]. split; [discriminate|]. intros H. apply Hr. intros j Hj. apply H. lia.
Qed.

(** ** Masks *)
Definition sub (x y : N) : Prop := forall i, N.testbit x i = true -> N.testbit y i = true.

Lemma sub_ldiff x y : sub x y -> N.ldiff x y = 0.
Proof.
  intros H. apply N.bits_inj. intros i. rewrite N.ldiff_spec, N.bits_0.
  destruct (N.testbit x i) eqn:E; [|reflexivity]. rewrite (H i E). reflexivity.
Qed.
Lemma sub_lor x y z : sub x y -> sub (N.lor x z) (N.lor y z).
Proof. intros H i. rewrite !N.lor_spec. rewrite !orb_true_iff. intros [G|G]; auto. Qed.
Lemma sub_lor_r x y z : sub x y -> sub x (N.lor y z).
Proof. intros H i G. rewrite N.lor_spec, (H i G). reflexivity. Qed.

Lemma sdm_bits_mono bpv : forall x y ctr dm r s, y <= x -> sub s r ->
  (ctr + bpv <= length dm)%nat ->
  exists r' s', sdm_bits bpv x ctr dm r = Some ((ctr + bpv)%nat, r') /\ sdm_bits bpv y ctr dm s = Some ((ctr + bpv)%nat, s') /\ sub s' r'.
Proof.
  induction bpv as [|b IH]; intros x y ctr dm r s Hxy Hs Hl.
  - exists r, s. rewrite Nat.add_0_r. auto.
  - cbn [sdm_bits]. rewrite rd_ex by lia. cbn [obind].
    replace (ctr + S b)%nat with (S ctr + b)%nat by lia. apply IH; [assumption| |lia].
    destruct (N.leb_spec (ex dm ctr) x); destruct (N.leb_spec (ex dm ctr) y); try lia;
      [apply sub_lor|apply sub_lor_r|]; assumption.
Qed.

Lemma sdm_vars_mono dv : forall bpv a b ctr dm r s,
  (forall v, In v dv -> (v < length a)%nat /\ (v < length b)%nat /\ ex b v <= ex a v) ->
  sub s r -> (ctr + length dv * bpv <= length dm)%nat ->
  exists r' s', sdm_vars dv bpv a ctr dm r = Some r' /\ sdm_vars dv bpv b ctr dm s = Some s' /\ sub s' r'.
Proof.
  induction dv as [|v dv IH]; intros bpv a b ctr dm r s Hv Hs Hl; [exists r, s; auto|].
  cbn [sdm_vars]. destruct (Hv v (or_introl eq_refl)) as (Va & Vb & Vle). rewrite !rd_ex by assumption. cbn [obind].
  cbn [length] in Hl.
  destruct (sdm_bits_mono bpv (ex a v) (ex b v) ctr dm r s Vle Hs ltac:(lia)) as (r' & s' & -> & -> & Hs').
  apply IH; [|assumption|lia]. intros w Hw. apply Hv. right. assumption.
Qed.

Lemma ht_dv_range nv nev v : (nev < nv)%nat -> In v (ht_dv nv nev) -> (0 < v < ht_evl nv nev)%nat.
Proof.
  intros Hn. unfold ht_dv, ht_evl, ht_ebl, ht_ndv. destruct (Nat.eqb_spec nev 0).
  - rewrite in_seq. lia.
  - destruct (Nat.leb_spec (Nat.min nv 32) nev).
    + rewrite in_seq. lia.
    + rewrite in_app_iff, !in_seq. lia.
Qed.
Lemma ht_dv_length nv nev : (nev < nv)%nat -> length (ht_dv nv nev) = ht_ndv nv.
Proof.
  intros Hn. unfold ht_dv, ht_ebl. destruct (Nat.eqb_spec nev 0); [apply seq_length|].
  destruct (Nat.leb_spec (ht_ndv nv) nev); [apply seq_length|]. rewrite app_length, !seq_length. lia.
Qed.
(* the mask fits in 32 bits *)
Lemma mask_bits nv : (0 < nv)%nat -> (ht_ndv nv * ht_bpv nv <= 32)%nat.
Proof.
  intros H. unfold ht_ndv, ht_bpv. destruct (Nat.eqb_spec (32 / nv) 0) as [E|E].
  - lia.
  - pose proof (Nat.mul_div_le 32 nv ltac:(lia)). nia.
Qed.

Lemma minmax_ok p es : forall mx mn, Forall (fun e => (p < length e)%nat) es -> exists r, minmax p es mx mn = Some r.
Proof.
  induction es as [|e es IH]; intros mx mn HF; cbn [minmax]; [eauto|]. inversion HF; subst.
  rewrite rd_ex by assumption. cbn [obind]. destruct (_ <? _); [apply IH; assumption|]. destruct (_ <? _); apply IH; assumption.
Qed.
Lemma thresholds_length b s : length (thresholds b s) = b.
Proof. revert s; induction b; intros s; cbn; auto. Qed.
Lemma divmask_vars_ok dv bpv es : es <> [] -> (forall v e, In v dv -> In e es -> (v < length e)%nat) ->
  exists dm, divmask_vars dv bpv es = Some dm /\ length dm = (length dv * bpv)%nat.
Proof.
  intros Hne. destruct es as [|e1 es]; [contradiction|]. clear Hne. induction dv as [|v dv IH]; intros H; [exists []; auto|].
  cbn [divmask_vars]. cbn [rd nth_error obind]. rewrite rd_ex by (apply H; left; reflexivity). cbn [obind tl].
  destruct (minmax_ok v es (ex e1 v) (ex e1 v)) as (mm & Em).
  { rewrite Forall_forall. intros e He. apply H; [left; reflexivity|right; assumption]. }
  rewrite Em. cbn [obind]. destruct IH as (dm & -> & Hl); [intros; apply H; auto; right; assumption|].
  cbn [obind]. eexists. split; [reflexivity|]. rewrite app_length, thresholds_length, Hl. reflexivity.
Qed.

Theorem calculate_divmask_ok nv nev es : (nev < nv)%nat -> es <> [] -> Forall (fun e => length e = ht_evl nv nev) es ->
  exists dm, calculate_divmask nv nev es = Some dm /\ length dm = (ht_ndv nv * ht_bpv nv)%nat.
Proof.
  intros Hn Hne HF. destruct (divmask_vars_ok (ht_dv nv nev) (ht_bpv nv) es Hne) as (dm & H1 & H2).
  - intros v e Hv He. rewrite Forall_forall in HF. rewrite (HF e He). apply ht_dv_range; assumption.
  - exists dm. split; [exact H1|]. rewrite H2, ht_dv_length by assumption. reflexivity.
Qed.

Theorem divmask_sound nv nev dm a b : (nev < nv)%nat -> length a = nv -> length b = nv ->
  (ht_ndv nv * ht_bpv nv <= length dm)%nat ->
  exists sa sb, generate_short_divmask nv nev dm (lay nev a) = Some sa /\
    generate_short_divmask nv nev dm (lay nev b) = Some sb /\ (mdvd b a -> N.ldiff sb sa = 0).
Proof.
  intros Hn Ha Hb Hdm. unfold generate_short_divmask.
  assert (Hself : forall c, length c = nv -> exists s, sdm_vars (ht_dv nv nev) (ht_bpv nv) (lay nev c) 0 dm 0 = Some s).
  { intros c Hc. destruct (sdm_vars_mono (ht_dv nv nev) (ht_bpv nv) (lay nev c) (lay nev c) 0 dm 0 0) as (r & s & Hr & _).
    - intros v Hv. rewrite (lay_length nv) by assumption. apply ht_dv_range in Hv; [|assumption]. split; [lia|]. split; lia.
    - intros i Hi; assumption.
    - rewrite ht_dv_length by assumption. lia.
    - eauto. }
  destruct (Hself a Ha) as (sa & Esa). destruct (Hself b Hb) as (sb & Esb). exists sa, sb. split; [assumption|]. split; [assumption|].
  intros Hd. destruct (sdm_vars_mono (ht_dv nv nev) (ht_bpv nv) (lay nev a) (lay nev b) 0 dm 0 0) as (r & s & Hr & Hs & Hsub).
  - intros v Hv. rewrite !(lay_length nv) by assumption. apply ht_dv_range in Hv; [|assumption]. split; [lia|]. split; [lia|].
    apply (proj2 (lay_dvd nv nev a b Hn Ha Hb) Hd). lia.
  - intros i Hi; assumption.
  - rewrite ht_dv_length by assumption. lia.
  - apply sub_ldiff. rewrite Esa in Hr. rewrite Esb in Hs. injection Hr as <-. injection Hs as <-. assumption.
Qed.

Lemma evl_pos nv nev : (0 < ht_evl nv nev)%nat.
Proof. unfold ht_evl. destruct (_ =? _)%nat; lia. Qed.

Theorem check_monomial_division_ok nv nev dm a b sa sb : (nev < nv)%nat -> length a = nv -> length b = nv ->
  (ht_ndv nv * ht_bpv nv <= length dm)%nat ->
  generate_short_divmask nv nev dm (lay nev a) = Some sa ->
  generate_short_divmask nv nev dm (lay nev b) = Some sb ->
  exists r, check_monomial_division (ht_evl nv nev) sa sb (lay nev a) (lay nev b) = Some r /\ (r = true <-> mdvd b a).
Proof.
  intros Hn Ha Hb Hdm Esa Esb. destruct (divmask_sound nv nev dm a b Hn Ha Hb Hdm) as (sa' & sb' & E1 & E2 & Hs).
  rewrite Esa in E1. rewrite Esb in E2. injection E1 as <-. injection E2 as <-.
  unfold check_monomial_division. destruct (N.eqb_spec (N.ldiff sb sa) 0) as [E|E]; cbn [negb].
  - destruct (exponents_ge_ok (ht_evl nv nev) (lay nev a) (lay nev b)) as (r & -> & Hr); auto using evl_pos.
    + apply lay_length; assumption. + apply lay_length; assumption.
    + exists r. split; [reflexivity|]. rewrite Hr. apply lay_dvd; assumption.
  - exists false. split; [reflexivity|]. split; [discriminate|]. intros H. exfalso. auto.
Qed.

(** ** lcm *)
Lemma lcm_loop_ok cnt : forall i ea eb e, (i + cnt <= length ea)%nat -> (i + cnt <= length eb)%nat -> (i + cnt <= length e)%nat ->
  exists r, lcm_loop cnt i ea eb e = Some r /\ length r = length e /\
  forall j, ex r j = if ((i <=? j) && (j <? i + cnt))%nat then N.max (ex ea j) (ex eb j) else ex e j.
Proof.
  induction cnt as [|c IH]; intros i ea eb e Ha Hb He.
  - exists e. split; [reflexivity|]. split; [reflexivity|]. intros j.
    destruct (Nat.leb_spec i j); destruct (Nat.ltb_spec j (i + 0)); cbn [andb]; try lia; reflexivity.
  - cbn [lcm_loop]. rewrite !rd_ex by lia. cbn [obind].
    destruct (wr_ex e i (if ex ea i <? ex eb i then ex eb i else ex ea i)) as (e1 & -> & L1 & E1); [lia|]. cbn [obind].
    destruct (IH (S i) ea eb e1) as (r & -> & Lr & Er); [lia|lia|lia|]. exists r. split; [reflexivity|]. split; [lia|].
    intros j. rewrite Er. rewrite E1.
    destruct (Nat.leb_spec (S i) j); destruct (Nat.ltb_spec j (S i + c)); destruct (Nat.leb_spec i j); destruct (Nat.ltb_spec j (i + S c));
      cbn [andb]; try lia; try reflexivity; destruct (Nat.eqb_spec j i); try lia; try reflexivity.
    subst j. destruct (N.ltb_spec (ex ea i) (ex eb i)); lia.
Qed.

Lemma sum_loop_ok cnt : forall i dpos e, (i + cnt <= length e)%nat -> (dpos < i)%nat -> ex e dpos < 2 ^ 16 ->
  exists r, sum_loop cnt i dpos e = Some r /\ length r = length e /\
  forall j, ex r j = if (j =? dpos)%nat then (ex e dpos + mdeg (firstn cnt (skipn i e))) mod 2 ^ 16 else ex e j.
Proof.
  induction cnt as [|c IH]; intros i dpos e He Hd Hs.
  - exists e. split; [reflexivity|]. split; [reflexivity|]. intros j. destruct (Nat.eqb_spec j dpos) as [->|]; [|reflexivity].
    cbn [firstn mdeg fold_right]. rewrite N.add_0_r, N.mod_small by assumption. reflexivity.
  - cbn [sum_loop]. rewrite !rd_ex by lia. cbn [obind].
    destruct (wr_ex e dpos (add16 (ex e dpos) (ex e i))) as (e1 & -> & L1 & E1); [lia|]. cbn [obind].
    destruct (IH (S i) dpos e1) as (r & -> & Lr & Er); [lia|lia| |].
    { rewrite E1, Nat.eqb_refl. apply N.mod_lt. discriminate. }
    exists r. split; [reflexivity|]. split; [lia|]. intros j. rewrite Er, !E1, Nat.eqb_refl.
    destruct (Nat.eqb_spec j dpos) as [->|]; [|reflexivity].
    assert (Hsk : skipn i e = ex e i :: skipn (S i) e).
    { clear -He. unfold ex. revert i He. induction e as [|y l IHl]; intros [|i] H; cbn in *; try lia; auto. apply IHl. lia. }
    assert (Hsk1 : skipn (S i) e1 = skipn (S i) e).
    { apply ex_eq; [rewrite !skipn_length; lia|]. intros q. rewrite !ex_skipn, E1. destruct (Nat.eqb_spec (S i + q) dpos); [lia|reflexivity]. }
    rewrite Hsk, Hsk1. cbn [firstn]. rewrite mdeg_cons. unfold add16. rewrite N.add_mod_idemp_l by discriminate. f_equal. lia.
Qed.

Theorem lcm_ev_ok nv nev a b etmp : (nev < nv)%nat -> length a = nv -> length b = nv -> length etmp = ht_evl nv nev ->
  small (mlcm a b) -> lcm_ev nv nev (lay nev a) (lay nev b) etmp = Some (lay nev (mlcm a b)).
Proof.
  intros Hn Ha Hb He Hs. unfold lcm_ev.
  pose proof (lay_length nv nev Hn a Ha) as La. pose proof (lay_length nv nev Hn b Hb) as Lb.
  assert (Hc : length (mlcm a b) = nv) by (rewrite mlcm_length; congruence).
  pose proof (evl_pos nv nev) as Hp.
  assert (Hbl : (ht_ebl nev < ht_evl nv nev)%nat) by (unfold ht_ebl, ht_evl; destruct (Nat.eqb_spec nev 0); lia).
  destruct (lcm_loop_ok (ht_evl nv nev - 1) 1 (lay nev a) (lay nev b) etmp) as (e1 & -> & L1 & E1); [lia|lia|lia|]. cbn [obind].
  destruct (wr_ex e1 0 0) as (e2 & -> & L2 & E2); [lia|]. cbn [obind].
  destruct (wr_ex e2 (ht_ebl nev) 0) as (e3 & -> & L3 & E3); [lia|]. cbn [obind].
  assert (E30 : ex e3 0 = 0) by (rewrite E3; destruct (Nat.eqb_spec 0 (ht_ebl nev)); [reflexivity|]; rewrite E2; reflexivity).
  destruct (sum_loop_ok (ht_ebl nev - 1) 1 0 e3) as (e4 & -> & L4 & E4); [lia|lia|lia|]. cbn [obind].
  assert (Hfirst : forall m, length m = nv -> (m = a \/ m = b \/ m = mlcm a b) -> True) by auto. clear Hfirst.
  (* the block sums *)
  assert (Hv : forall j, (1 <= j < ht_evl nv nev)%nat -> j <> ht_ebl nev -> ex e3 j = ex (lay nev (mlcm a b)) j).
  { intros j Hj Hne. rewrite E3. destruct (Nat.eqb_spec j (ht_ebl nev)); [contradiction|]. rewrite E2.
    destruct (Nat.eqb_spec j 0); [lia|]. rewrite E1. destruct (Nat.leb_spec 1 j); destruct (Nat.ltb_spec j (1 + (ht_evl nv nev - 1))); cbn [andb]; try lia.
    destruct (lay_cases nv nev j Hn ltac:(lia)) as [->|[Hcs|[[Hcs ->]|Hcs]]].
    - lia.
    - rewrite !(lay_first nv) by auto. rewrite ex_mlcm by congruence. reflexivity.
    - exfalso. apply Hne. unfold ht_ebl. destruct (Nat.eqb_spec nev 0); lia.
    - rewrite !(lay_second nv) by auto. rewrite ex_mlcm by congruence. reflexivity. }
  assert (Hm1 : nev <> 0%nat -> firstn (ht_ebl nev - 1) (skipn 1 e3) = firstn nev (mlcm a b)).
  { intros Hn0. assert (Eb : ht_ebl nev = (nev + 1)%nat) by (unfold ht_ebl; destruct (Nat.eqb_spec nev 0); lia).
    rewrite Eb in *. replace (nev + 1 - 1)%nat with nev by lia. apply ex_eq.
    - rewrite !firstn_length, skipn_length. lia.
    - intros j. rewrite !ex_firstn. destruct (Nat.ltb_spec j nev); [|reflexivity]. rewrite ex_skipn, Hv by lia.
      rewrite (lay_first nv) by (auto; lia). f_equal. lia. }
  assert (E4b : ex e4 (ht_ebl nev) = 0).
  { rewrite E4. destruct (Nat.eqb_spec (ht_ebl nev) 0) as [E0|E0].
    - rewrite E30. rewrite E0. reflexivity.
    - rewrite E3, Nat.eqb_refl. reflexivity. }
  destruct (sum_loop_ok (ht_evl nv nev - (ht_ebl nev + 1)) (ht_ebl nev + 1) (ht_ebl nev) e4) as (r & -> & Lr & Er); [lia|lia|lia|].
  f_equal. apply ex_eq; [rewrite (lay_length nv) by auto; lia|]. intros j. rewrite Er.
  assert (Hm2 : firstn (ht_evl nv nev - (ht_ebl nev + 1)) (skipn (ht_ebl nev + 1) e4) = skipn nev (mlcm a b)).
  { rewrite firstn_all2 by (rewrite skipn_length; lia). apply ex_eq.
    - rewrite !skipn_length, L4, L3, L2, L1, He, Hc. unfold ht_evl, ht_ebl. destruct (Nat.eqb_spec nev 0); lia.
    - intros q. rewrite !ex_skipn. destruct (Nat.lt_ge_cases (ht_ebl nev + 1 + q) (ht_evl nv nev)).
      + rewrite E4. destruct (Nat.eqb_spec (ht_ebl nev + 1 + q) 0); [lia|]. rewrite Hv by lia.
        rewrite (lay_second nv) by (auto; unfold ht_ebl; destruct (Nat.eqb_spec nev 0); lia). f_equal.
        unfold ht_ebl; destruct (Nat.eqb_spec nev 0); lia.
      + rewrite !ex_overflow; [reflexivity| |lia]. rewrite Hc. unfold ht_evl, ht_ebl in *. destruct (Nat.eqb_spec nev 0); lia. }
  unfold small in Hs. rewrite <- (firstn_skipn nev (mlcm a b)), mdeg_app in Hs.
  destruct (Nat.eqb_spec j (ht_ebl nev)) as [->|Hne].
  - rewrite E4b, N.add_0_l, Hm2, N.mod_small by lia. unfold ht_ebl. destruct (Nat.eqb_spec nev 0) as [->|Hn0]; [reflexivity|].
    rewrite (lay_ebl nv) by auto. reflexivity.
  - rewrite E4. destruct (Nat.eqb_spec j 0) as [->|Hj0].
    + assert (Hn0 : nev <> 0%nat) by (unfold ht_ebl in Hne; destruct (Nat.eqb_spec nev 0); lia).
      rewrite E30, N.add_0_l, Hm1 by assumption. rewrite N.mod_small by lia. rewrite lay_deg0. destruct (Nat.eqb_spec nev 0); [contradiction|reflexivity].
    + destruct (Nat.lt_ge_cases j (ht_evl nv nev)).
      * apply Hv; lia.
      * rewrite !ex_overflow; [reflexivity| |lia]. rewrite (lay_length nv) by auto. assumption.
Qed.

(** ** Coprimality *)
Lemma no_common_ok cnt : forall i ea eb, (i + cnt <= length ea)%nat -> (i + cnt <= length eb)%nat ->
  exists r, no_common cnt i ea eb = Some r /\
  (r = true <-> forall j, (i <= j < i + cnt)%nat -> ex ea j = 0 \/ ex eb j = 0).
Proof.
  induction cnt as [|c IH]; intros i ea eb Ha Hb.
  - exists true. split; [reflexivity|]. split; auto. intros; lia.
  - cbn [no_common]. rewrite !rd_ex by lia. cbn [obind].
    destruct (N.eqb_spec (ex ea i) 0) as [E|E]; destruct (N.eqb_spec (ex eb i) 0) as [E'|E']; cbn [negb andb].
    4:{ exists false. split; [reflexivity|]. split; [discriminate|]. intros H. specialize (H i ltac:(lia)). lia. }
    all: destruct (IH (S i) ea eb) as (r & -> & Hr); [lia|lia|]; exists r; split; [reflexivity|]; rewrite Hr; split;
      [intros H j Hj; destruct (Nat.eq_dec j i) as [->|]; [auto|apply H; lia]|intros H j Hj; apply H; lia].
Qed.

Theorem prime_monomials_ok nv nev a b : (nev < nv)%nat -> length a = nv -> length b = nv ->
  exists r, prime_monomials nv nev (lay nev a) (lay nev b) = Some r /\
  (r = true <-> forall i, ex a i = 0 \/ ex b i = 0).
Proof.
  intros Hn Ha Hb. unfold prime_monomials.
  pose proof (lay_length nv nev Hn a Ha) as La. pose proof (lay_length nv nev Hn b Hb) as Lb.
  assert (Hbl : (ht_ebl nev < ht_evl nv nev)%nat) by (unfold ht_ebl, ht_evl; destruct (Nat.eqb_spec nev 0); lia).
  destruct (no_common_ok (ht_ebl nev - 1) 1 (lay nev a) (lay nev b)) as (r1 & -> & H1); [lia|lia|]. cbn [obind].
  destruct (no_common_ok (ht_evl nv nev - (ht_ebl nev + 1)) (ht_ebl nev + 1) (lay nev a) (lay nev b)) as (r2 & -> & H2); [lia|lia|].
  assert (Hr1 : r1 = true <-> forall i, (i < nev)%nat -> ex a i = 0 \/ ex b i = 0).
  { rewrite H1. unfold ht_ebl. destruct (Nat.eqb_spec nev 0) as [->|Hn0].
    - split; intros; lia.
    - split.
      + intros H i Hi. specialize (H (S i)). rewrite !(lay_first nv) in H by (auto; lia). replace (S i - 1)%nat with i in H by lia. apply H. lia.
      + intros H j Hj. rewrite !(lay_first nv) by (auto; lia). apply H. lia. }
  assert (Hr2 : r2 = true <-> forall i, (nev <= i)%nat -> ex a i = 0 \/ ex b i = 0).
  { rewrite H2. split.
    - intros H i Hi. destruct (Nat.lt_ge_cases i nv) as [Hi'|Hi']; [|left; apply ex_overflow; lia].
      specialize (H (i + 1 + (ht_ebl nev - nev))%nat). rewrite !(lay_second nv) in H by (auto; lia).
      replace (i + 1 + (ht_ebl nev - nev) - (ht_ebl nev - nev) - 1)%nat with i in H by lia. apply H.
      unfold ht_evl, ht_ebl. destruct (Nat.eqb_spec nev 0); lia.
    - intros H j Hj. rewrite !(lay_second nv) by (auto; unfold ht_ebl in *; destruct (Nat.eqb_spec nev 0); lia).
      apply H. unfold ht_ebl in *; destruct (Nat.eqb_spec nev 0); lia. }
  destruct r1.
  - exists r2. split; [reflexivity|]. rewrite Hr2. split.
    + intros H i. destruct (Nat.lt_ge_cases i nev); [apply (proj1 Hr1 eq_refl); assumption|apply H; assumption].
    + intros H i _. apply H.
  - exists false. split; [reflexivity|]. split; [discriminate|]. intros H. apply Hr1. intros i _. apply H.
Qed.

(* what coprimality means: the lcm is the product *)
Lemma coprime_lcm a b : length a = length b -> (forall i, ex a i = 0 \/ ex b i = 0) <-> mlcm a b = mmul a b.
Proof.
  intros Hl. split.
  - intros H. apply ex_eq; [rewrite mlcm_length, mmul_length; auto|]. intros i. rewrite ex_mlcm, ex_mmul by assumption.
    specialize (H i). lia.
  - intros H i. assert (E : ex (mlcm a b) i = ex (mmul a b) i) by (rewrite H; reflexivity).
    rewrite ex_mlcm, ex_mmul in E by assumption. lia.
Qed.

(** ** Products *)
Lemma mul_ev_length a : forall b, length a = length b -> length (mul_ev a b) = length a.
Proof. induction a as [|x a IH]; intros [|y b] H; cbn in *; try discriminate; auto. Qed.
Lemma ex_mul_ev a : forall b i, length a = length b -> ex (mul_ev a b) i = add16 (ex a i) (ex b i).
Proof.
  unfold ex. induction a as [|x a IH]; intros [|y b] i H; cbn in *; try discriminate.
  - destruct i; reflexivity.
  - destruct i; auto.
Qed.

Lemma lay_mmul nv nev a b j : (nev < nv)%nat -> length a = nv -> length b = nv ->
  ex (lay nev (mmul a b)) j = ex (lay nev a) j + ex (lay nev b) j.
Proof.
  intros Hn Ha Hb. assert (Hm : length (mmul a b) = nv) by (rewrite mmul_length; congruence).
  destruct (Nat.lt_ge_cases j (ht_evl nv nev)) as [Hj|Hj].
  2:{ rewrite !ex_overflow; [reflexivity| | |]; rewrite (lay_length nv); auto. }
  destruct (lay_cases nv nev j Hn Hj) as [->|[Hc|[[Hc ->]|Hc]]].
  - rewrite !lay_deg0. destruct (nev =? 0)%nat; [apply mdeg_mmul; congruence|].
    unfold mmul. rewrite map2_firstn. apply (mdeg_mmul (firstn nev a)). rewrite !firstn_length. congruence.
  - rewrite !(lay_first nv) by auto. apply ex_mmul. congruence.
  - rewrite !(lay_ebl nv) by auto. unfold mmul. rewrite map2_skipn by congruence. apply (mdeg_mmul (skipn nev a)). rewrite !skipn_length. congruence.
  - rewrite !(lay_second nv) by auto. apply ex_mmul. congruence.
Qed.

Lemma lay_le_mdeg nv nev m j : (nev < nv)%nat -> length m = nv -> ex (lay nev m) j <= mdeg m.
Proof.
  intros Hn Hm. destruct (Nat.lt_ge_cases j (ht_evl nv nev)) as [Hj|Hj].
  2:{ rewrite ex_overflow by (rewrite (lay_length nv); auto). lia. }
  pose proof (mdeg_app (firstn nev m) (skipn nev m)) as Hd. rewrite firstn_skipn in Hd.
  destruct (lay_cases nv nev j Hn Hj) as [->|[Hc|[[Hc ->]|Hc]]].
  - rewrite lay_deg0. destruct (nev =? 0)%nat; lia.
  - rewrite (lay_first nv) by auto. apply ex_le_mdeg.
  - rewrite (lay_ebl nv) by auto. lia.
  - rewrite (lay_second nv) by auto. apply ex_le_mdeg.
Qed.

Theorem mul_ev_ok nv nev a b : (nev < nv)%nat -> length a = nv -> length b = nv -> small (mmul a b) ->
  mul_ev (lay nev a) (lay nev b) = lay nev (mmul a b).
Proof.
  intros Hn Ha Hb Hs. assert (Hm : length (mmul a b) = nv) by (rewrite mmul_length; congruence).
  apply ex_eq; [rewrite mul_ev_length; rewrite !(lay_length nv); auto|].
  intros j. rewrite ex_mul_ev by (rewrite !(lay_length nv); auto). unfold add16. rewrite <- (lay_mmul nv) by auto.
  apply N.mod_small. pose proof (lay_le_mdeg nv nev (mmul a b) j Hn Hm). unfold small in Hs. lia.
Qed.
