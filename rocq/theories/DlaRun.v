(** The exact sparse-dense linear algebra: all schedules, inter-reduction, conversion, and comparison with the sparse variant. *)
From Coq Require Import ZArith Arith List Bool Lia Znumtheory Setoid Morphisms Sorted.
From Verif Require Import ModInvModel ModInvProofs LinSpec LaSpec LaModel LaProofs LaRowProofs LaSysProofs DlaModel DlaProofs.
Import ListNotations.
Open Scope Z_scope.

(** ** All rows of the parallel loop *)
Section Par.
Variables (k : kern) (p : Z) (ncr : nat) (P0 : nat -> option (list Z)) (tbr : list (list Z)) (G : vec -> Prop).
Hypotheses (HP : prime p) (HK : kern_ok k p) (HR : kroom k p (S ncr)).
Definition dsinv (cnt : nat -> nat) (s : dshared) : Prop :=
  dpok p ncr (ds_pivs s) /\ le_dp P0 (ds_pivs s) /\ (forall c e, ds_pivs s c = Some e -> span p G (rv (drw c e))) /\
  length (ds_rows s) = length tbr /\
  forall t rs, nth_error (ds_rows s) t = Some rs -> exists u m, nth_error tbr t = Some u /\ drinv k p ncr (ds_pivs s) (dv u) m rs /\
  (dfinished rs = true \/ (m + cnt t <= budget ncr)%nat).
Hypothesis HG : forall u, In u tbr -> span p G (dv u).
Lemma dsys_step_ok cnt t s : dsinv cnt s -> exists s', dsys_step k p ncr t s = Some s' /\ dsinv (fun u => if (u =? t)%nat then S (cnt u) else cnt u) s'.
Proof.
  intros (HPv & HL & HGp & Hlen & HRows). unfold dsys_step. destruct (nth_error (ds_rows s) t) as [rs|] eqn:Et.
  - destruct (HRows t rs Et) as (u0 & m & Eu & HI & HF).
    destruct (drow_step_ok k p ncr (ds_pivs s) (dv u0) m rs HP HK HR HPv HI) as (P' & s' & m' & -> & HI' & Hdec & Hfin & HL' & HPv' & HG').
    cbn [obind fst snd]. eexists. split; [reflexivity|]. unfold dsinv. cbn [ds_pivs ds_rows]. split; [assumption|]. split; [intros c e E; auto|].
    split; [|split; [rewrite lset_length; assumption|]].
    + intros c e Hc. destruct (HG' c e Hc) as [Hc'|Hsp]; [eauto|]. eapply span_mono; [|exact Hsp].
      intros u [(c2 & r2 & E2 & ->)| ->]; [|apply HG; eapply nth_error_In; eassumption]. unfold sp in E2. destruct (ds_pivs s c2) eqn:E3; [|discriminate]. injection E2 as <-. eauto.
    + intros t' rs'. rewrite nth_error_lset. destruct (Nat.eqb_spec t' t) as [->|Hne]; cbn [andb].
      * destruct (Nat.ltb_spec t (length (ds_rows s))) as [_|Hbad]; [|apply nth_error_None in Hbad; congruence].
        intros [= <-]. exists u0, m'. split; [assumption|]. split; [assumption|].
        destruct (dfinished rs) eqn:Ef; [left; rewrite Hfin by reflexivity; assumption|]. destruct (Hdec eq_refl) as [Hd|Hd]; [left; assumption|right].
        destruct HF as [HF|HF]; [discriminate|]. lia.
      * intros Et'. destruct (HRows t' rs' Et') as (u1 & m1 & E1 & I1 & F1). exists u1, m1. split; [assumption|]. split; [eapply drinv_mono; eassumption|assumption].
  - exists s. split; [reflexivity|]. split; [assumption|]. split; [assumption|]. split; [assumption|]. split; [assumption|].
    intros t' rs' Et'. destruct (Nat.eqb_spec t' t) as [->|]; [congruence|]. apply HRows. assumption.
Qed.
Lemma dsys_run_ok : forall sched cnt s, dsinv cnt s ->
  exists s', dsys_run k p ncr sched s = Some s' /\ dsinv (fun u => (cnt u + count_occ Nat.eq_dec sched u)%nat) s'.
Proof.
  induction sched as [|t ts IH]; intros cnt s HI; cbn [dsys_run].
  - exists s. split; [reflexivity|]. destruct HI as (H1 & H2 & H3 & H4 & H5). do 4 (split; [assumption|]). intros t rs Et. destruct (H5 t rs Et) as (r0 & m & ? & ? & ?).
    exists r0, m. cbn. rewrite Nat.add_0_r. auto.
  - destruct (dsys_step_ok cnt t s HI) as (s1 & -> & I1). cbn [obind].
    destruct (IH _ _ I1) as (s2 & -> & I2). exists s2. split; [reflexivity|]. destruct I2 as (H1 & H2 & H3 & H4 & H5). do 4 (split; [assumption|]).
    intros u rs Eu. destruct (H5 u rs Eu) as (r0 & m & ? & ? & H6). exists r0, m. split; [assumption|]. split; [assumption|].
    destruct H6 as [H6|H6]; [left; assumption|right]. cbn [count_occ]. destruct (Nat.eqb_spec u t) as [Eut|Eut]; destruct (Nat.eq_dec t u); try congruence; lia.
Qed.
Lemma dinit_ok : dpok p ncr P0 -> (forall c e, P0 c = Some e -> span p G (rv (drw c e))) ->
  (forall u, In u tbr -> length u = ncr /\ forall j, 0 <= dv u j < p) -> dsinv (fun _ => O) {| ds_pivs := P0; ds_rows := map DTodo tbr |}.
Proof.
  intros H1 H2 H3. split; [assumption|]. split; [intros c e E; assumption|]. split; [assumption|]. cbn [ds_pivs ds_rows]. split; [apply map_length|].
  intros t rs Et. rewrite nth_error_map in Et. destruct (nth_error tbr t) as [u|] eqn:E; cbn in Et; [|discriminate]. injection Et as <-.
  exists u, (budget ncr). split; [reflexivity|]. split; [|right; lia]. destruct (H3 u (nth_error_In _ _ E)) as (L & B). cbn [drinv]. auto.
Qed.
Lemma dfinished_span cnt s : dsinv cnt s -> forallb dfinished (ds_rows s) = true -> forall u, In u tbr -> span p (pset_of (sp (ds_pivs s))) (dv u).
Proof.
  intros (H1 & H2 & H3 & H4 & H5) HF u Hu. apply In_nth_error in Hu. destruct Hu as (t & Et).
  destruct (nth_error (ds_rows s) t) as [rs|] eqn:Es.
  - destruct (H5 t rs Es) as (u0 & m & E0 & HI & _). assert (u0 = u) by congruence. subst u0.
    rewrite forallb_forall in HF. assert (Hfin := HF rs (nth_error_In _ _ Es)). destruct rs; cbn in Hfin; try discriminate; cbn [drinv] in HI; [assumption|apply HI].
  - apply nth_error_None in Es. rewrite H4 in Es. apply nth_error_None in Es. congruence.
Qed.
Lemma denough cnt s : dsinv cnt s -> (forall t, (t < length tbr)%nat -> (budget ncr <= cnt t)%nat) -> forallb dfinished (ds_rows s) = true.
Proof.
  intros (H1 & H2 & H3 & H4 & H5) Hc. apply forallb_forall. intros rs Hin. apply In_nth_error in Hin. destruct Hin as (t & Et).
  destruct (H5 t rs Et) as (r0 & m & E0 & HI & [HF|HF]); [assumption|]. destruct (dfinished rs) eqn:Ef; [reflexivity|].
  apply drinv_pos in HI; [|assumption]. assert (t < length tbr)%nat by (apply nth_error_Some; congruence). specialize (Hc t H). lia.
Qed.
End Par.

(** ** The initial choice of pivots *)
Lemma first_nz_ok row : (exists j, dv row j <> 0) -> exists c, first_nz row = Some c /\ (c < length row)%nat /\ dv row c <> 0 /\ forall j, (j < c)%nat -> dv row j = 0.
Proof.
  induction row as [|x row IH]; intros (j & Hj); [destruct j; cbn in Hj; congruence|]. cbn [first_nz]. destruct (Z.eqb_spec x 0) as [->|Hx].
  - destruct j as [|j]; [cbn in Hj; congruence|]. destruct IH as (c & -> & H1 & H2 & H3); [exists j; exact Hj|]. cbn [obind]. exists (S c). split; [reflexivity|]. split; [cbn; lia|].
    split; [exact H2|]. intros [|i] Hi; [reflexivity|]. apply H3. lia.
  - exists O. split; [reflexivity|]. split; [cbn; lia|]. split; [exact Hx|]. intros; lia.
Qed.
Definition drow_ok (p : Z) (ncr : nat) (u : list Z) : Prop := length u = ncr /\ (forall j, 0 <= dv u j < p) /\ exists j, dv u j <> 0.
Lemma select_ok k p ncr (G : vec -> Prop) : prime p -> kern_ok k p -> forall dm P, (forall u, In u dm -> drow_ok p ncr u) -> (forall u, In u dm -> span p G (dv u)) ->
  dpok p ncr P -> (forall c e, P c = Some e -> span p G (rv (drw c e))) ->
  exists P' tbr, select k p dm P = Some (P', tbr) /\ dpok p ncr P' /\ le_dp P P' /\ (forall c e, P' c = Some e -> span p G (rv (drw c e))) /\
  (forall u, In u tbr -> In u dm) /\ (length tbr <= length dm)%nat /\ (forall u, In u dm -> In u tbr \/ span p (pset_of (sp P')) (dv u)).
Proof.
  intros HP HK. assert (Hp2 : 2 <= p) by apply HK. induction dm as [|row dm IH]; intros P Hdm HG HPv HPG; cbn [select].
  - exists P, []. split; [reflexivity|]. split; [assumption|]. split; [intros c e E; assumption|]. split; [assumption|]. split; [auto|]. split; [cbn; lia|]. intros u [].
  - destruct (Hdm row (or_introl eq_refl)) as (HL & HB & HN). destruct (first_nz_ok row HN) as (c & -> & Hc & Hx & Hz). cbn [obind].
    assert (HGr := HG row (or_introl eq_refl)). destruct (P c) as [q|] eqn:Ep.
    + destruct (IH P) as (P' & tbr & -> & H1 & H2 & H3 & H4 & H5 & H6); auto; [intros; apply Hdm; right; assumption|intros; apply HG; right; assumption|].
      cbn [obind fst snd]. exists P', (row :: tbr). split; [reflexivity|]. split; [assumption|]. split; [assumption|]. split; [assumption|]. split.
      { intros u [<-|Hu]; [left; reflexivity|right; auto]. }
      split; [cbn; lia|]. intros u [<-|Hu]; [left; left; reflexivity|]. destruct (H6 u Hu); [left; right; assumption|right; assumption].
    + destruct (skipn_head row c Hc) as (t & Et & Lt). rewrite Et.
      assert (Hv : forall j, dv (dv row c :: t) j = dv row (c + j)%nat) by (intros j; rewrite <- Et; apply dv_skipn).
      destruct (monic_dense_ok k p (dv row c) t HP HK) as (y & e' & -> & Le & Hy & Hm & Be & Ve); [specialize (HB c); lia|intros j; rewrite Hv; apply HB|]. cbn [obind].
      assert (Hrow : forall j, eqp p (rv (drw c (1 :: e')) j) (y * dv row j)).
      { intros j. rewrite drw_rv. destruct (Nat.leb_spec c j) as [Hj|Hj]; [rewrite Ve, Hv; replace (c + (j - c))%nat with j by lia; reflexivity|]. rewrite Hz by assumption. exists 0. ring. }
      destruct (IH (dset P c (1 :: e'))) as (P' & tbr & -> & H1 & H2 & H3 & H4 & H5 & H6); [intros; apply Hdm; right; assumption|intros; apply HG; right; assumption|apply dpok_set; auto; lia| |].
      * intros c' e2. unfold dset. destruct (Nat.eqb_spec c' c) as [->|]; [intros [= <-]|apply HPG].
        eapply span_eq with (u := fun j => y * dv row j); [apply span_scale; assumption|]. intros j. symmetry. apply Hrow.
      * exists P', tbr. split; [reflexivity|]. split; [assumption|]. split; [intros c' e2 E2; apply H2; apply dset_fresh; assumption|]. split; [assumption|].
        split; [intros; right; auto|]. split; [cbn; lia|]. intros u [<-|Hu]; [right|auto].
        eapply span_eq with (u := fun j => dv row c * rv (drw c (1 :: e')) j).
        -- apply span_scale, span_in. exists c, (drw c (1 :: e')). split; [|reflexivity]. unfold sp. rewrite (H2 c (1 :: e')); [reflexivity|]. unfold dset. rewrite Nat.eqb_refl. reflexivity.
        -- intros j. rewrite Hrow, Z.mul_assoc, (Z.mul_comm (dv row c) y), Hm. exists 0. ring.
Qed.

(** ** Inter-reduction *)
Lemma dred_loop_ok k p ncr P : kern_ok k p -> kroom k p (S ncr) -> dpok p ncr P ->
  forall cnt i dr np, (i + cnt = ncr)%nat -> length dr = ncr -> (forall j, (j < i)%nat -> 0 <= dv dr j <= p) -> (forall j, 0 <= dv dr j < kb k p (S i)) ->
  exists dr' np', dred_loop k p ncr P cnt i dr np = Some (dr', np') /\ length dr' = ncr /\ (forall j, 0 <= dv dr' j <= p) /\
  (forall j, (j < i)%nat -> dv dr' j = dv dr j) /\ (forall j, (i <= j < ncr)%nat -> P j <> None -> eqp p (dv dr' j) 0) /\
  span p (pset_of (sp P)) (fun j => dv dr j - dv dr' j) /\ (forall c, np = Some c -> np' = Some c).
Proof.
  intros HK HR HPv. assert (Hp2 : 2 <= p) by apply HK. induction cnt as [|cnt IH]; intros i dr np Hc HL HB HK2; cbn [dred_loop].
  - exists dr, np. replace i with ncr in * by lia. split; [reflexivity|]. split; [assumption|]. split.
    { intros j. destruct (Nat.lt_ge_cases j ncr); [auto|]. rewrite dv_overflow by lia. lia. }
    split; [auto|]. split; [lia|]. split; [|auto]. apply span_veq0. intros j. exists 0. unfold vzero. ring.
  - destruct (dcol_step_ok k p ncr (S i) P i dr HK) as (d1 & b & -> & L1 & B1 & LT1 & Bi & Hb & Hpn & S1 & _ & _); auto; [eapply kroom_le; [|eassumption|eassumption]; lia|lia|].
    cbn [obind fst snd]. destruct (IH (S i) d1 (np_next b np i)) as (d2 & np2 & -> & L2 & B2 & LT2 & Z2 & S2 & N2); [lia|assumption| |assumption|].
    { intros j Hj. destruct (Nat.eq_dec j i) as [->|]; [assumption|]. rewrite LT1 by lia. apply HB. lia. }
    exists d2, np2. split; [reflexivity|]. split; [assumption|]. split; [assumption|]. split; [intros j Hj; rewrite LT2, LT1 by lia; reflexivity|]. split; [|split].
    + intros j Hj Hp. destruct (Nat.eq_dec j i) as [->|]; [|apply Z2; [lia|assumption]]. rewrite LT2 by lia. rewrite (Hpn Hp) in Hb. assumption.
    + eapply span_eq; [apply (span_add _ _ _ _ S1 S2)|]. intros j. exists 0. ring.
    + intros c ->. apply N2. reflexivity.
Qed.
Definition dclean_from (p : Z) (m : nat) (P : nat -> option (list Z)) : Prop :=
  forall c e, (m <= c)%nat -> P c = Some e -> forall c', c' <> c -> P c' <> None -> rv (drw c e) c' = 0.
Lemma dinterreduce_ok k p ncr : prime p -> kern_ok k p -> kroom k p (S ncr) -> forall cnt P, (cnt <= ncr)%nat -> dpok p ncr P -> dclean_from p cnt P ->
  exists Q, dinterreduce k p ncr cnt P = Some Q /\ dpok p ncr Q /\ dclean_from p 0 Q /\ same_span p (pset_of (sp P)) (pset_of (sp Q)).
Proof.
  intros HP HK HR. assert (Hp2 : 2 <= p) by apply HK. induction cnt as [|c IH]; intros P Hcn HPv HC; cbn [dinterreduce].
  - exists P. split; [reflexivity|]. split; [assumption|]. split; [assumption|]. intros v. tauto.
  - destruct (P c) as [e|] eqn:E.
    2:{ apply IH; [lia|assumption|]. intros c' e Hc' E'. destruct (Nat.eq_dec c' c) as [->|]; [congruence|]. apply HC; [lia|assumption]. }
    destruct (HPv c e E) as (He & Hc & Hle & e0 & Ee). rewrite Hle, Nat.eqb_refl.
    assert (Hr := dpok_row p ncr P c e HPv E).
    set (R := fun j => if (j =? c)%nat then None else P j). assert (HRok : dpok p ncr R). { intros c' e2. unfold R. destruct (c' =? c)%nat; [discriminate|apply HPv]. }
    set (dr := repeat 0 c ++ e). assert (Ldr : length dr = ncr) by (unfold dr; rewrite app_length, repeat_length; lia).
    assert (Vdr : forall j, dv dr j = rv (drw c e) j).
    { intros j. rewrite drw_rv. unfold dr, dv. destruct (Nat.leb_spec c j) as [Hj|Hj].
      - rewrite app_nth2 by (rewrite repeat_length; lia). rewrite repeat_length. reflexivity.
      - rewrite app_nth1 by (rewrite repeat_length; lia). apply dv_repeat. }
    assert (Bdr : forall j, 0 <= dv dr j < p). { intros j. rewrite Vdr, drw_rv. destruct (c <=? j)%nat; [apply He|lia]. }
    assert (Hd1 : dv dr c = 1) by (rewrite Vdr; apply (pivot_lead p ncr c _ Hr)).
    destruct (ncr - c)%nat as [|cnt] eqn:Ecnt; [lia|]. cbn [dred_loop].
    destruct (dcol_step_ok k p ncr (S c) R c dr HK) as (d1 & b & -> & L1 & B1 & LT1 & Bi & Hb & Hpn & S1 & Hm1 & Hbt); auto.
    { eapply kroom_le; [|eassumption|eassumption]. lia. }
    { intros j. specialize (Bdr j). pose proof (kb_start k p c HK). lia. }
    assert (HRc : R c = None) by (unfold R; rewrite Nat.eqb_refl; reflexivity).
    assert (Hb1 : b = true). { apply Hbt; [assumption|]. rewrite Hd1. intros H0. apply eqp_0_small in H0; lia. }
    subst b. cbn [obind fst snd np_next].
    assert (Hd1c : dv d1 c = 1) by (rewrite Hm1 by assumption; rewrite Hd1; apply Z.mod_small; lia).
    destruct (dred_loop_ok k p ncr R HK HR HRok cnt (S c) d1 (Some c)) as (d2 & np2 & -> & L2 & B2 & LT2 & Z2 & S2 & N2); [lia|assumption| |assumption|].
    { intros j Hj. destruct (Nat.eq_dec j c) as [->|]; [assumption|]. rewrite LT1 by lia. specialize (Bdr j). lia. }
    rewrite (N2 c eq_refl). cbn [obind fst snd]. rewrite Nat.eqb_refl.
    assert (Hd2c : dv d2 c = 1) by (rewrite LT2 by lia; assumption).
    destruct (extract_ok k p ncr c d2 HP HK L2 Hc) as (d3 & e' & y & -> & L3 & V1 & V2 & Le & Be & Hy & Hmy & Ve); [intros j; apply B2|lia|]. cbn [obind fst snd].
    assert (y = 1). { rewrite Hd2c, Z.mul_1_r in Hmy. apply (eqp_small p); [lia|lia|assumption]. } subst y.
    assert (Hlow : forall j, (j < c)%nat -> dv d2 j = 0). { intros j Hj. rewrite LT2, LT1 by lia. rewrite Vdr. eapply pivot_below; eassumption. }
    assert (Hrow : forall j, eqp p (rv (drw c (1 :: e')) j) (dv d2 j)).
    { intros j. rewrite drw_rv. destruct (Nat.leb_spec c j) as [Hj|Hj]; [rewrite Ve; replace (c + (j - c))%nat with j by lia; exists 0; ring|]. rewrite Hlow by assumption. reflexivity. }
    assert (SP : span p (pset_of (sp R)) (fun j => rv (drw c e) j - rv (drw c (1 :: e')) j)).
    { eapply span_eq; [apply (span_add _ _ _ _ S1 S2)|]. intros j. rewrite Hrow, <- Vdr. exists 0. ring. }
    set (P' := dset P c (1 :: e')). assert (HP' : dpok p ncr P') by (apply dpok_set; auto; lia).
    assert (Hdom : forall c', P' c' = None <-> P c' = None).
    { intros c'. unfold P', dset. destruct (Nat.eqb_spec c' c) as [->|]; [rewrite E; split; discriminate|tauto]. }
    assert (HRP : forall v, span p (pset_of (sp R)) v -> span p (pset_of (sp P)) v /\ span p (pset_of (sp P')) v).
    { intros v Hv. split; (eapply span_mono; [|exact Hv]); intros u (c' & q & Eq & ->); unfold sp, R in Eq; destruct (Nat.eqb_spec c' c); try discriminate; apply span_in; exists c', q; (split; [|reflexivity]); unfold sp; [assumption|].
      unfold P', dset. destruct (Nat.eqb_spec c' c); [lia|assumption]. }
    assert (HSP : same_span p (pset_of (sp P)) (pset_of (sp P'))).
    { intros v. destruct (HRP _ SP) as (T1 & T2). split; apply span_mono; intros u (c' & q & Eq & ->); unfold sp in Eq.
      - destruct (Nat.eq_dec c' c) as [->|Hne'].
        + rewrite E in Eq. injection Eq as <-. eapply span_eq with (u := fun j => rv (drw c (1 :: e')) j + (rv (drw c e) j - rv (drw c (1 :: e')) j)).
          * apply (span_add p _ (rv (drw c (1 :: e'))) _); [|exact T2]. apply span_in. exists c, (drw c (1 :: e')). split; [unfold sp, P', dset; rewrite Nat.eqb_refl; reflexivity|reflexivity].
          * intros j. exists 0. ring.
        + apply span_in. exists c', q. split; [|reflexivity]. unfold sp, P', dset. destruct (Nat.eqb_spec c' c); [contradiction|assumption].
      - unfold P', dset in Eq. destruct (Nat.eqb_spec c' c) as [->|Hne'].
        + injection Eq as <-. eapply span_eq with (u := fun j => rv (drw c e) j - (rv (drw c e) j - rv (drw c (1 :: e')) j)).
          * apply (span_sub p _ (rv (drw c e)) _); [|exact T1]. apply span_in. exists c, (drw c e). split; [unfold sp; rewrite E; reflexivity|reflexivity].
          * intros j. exists 0. ring.
        + apply span_in. exists c', q. split; [|reflexivity]. unfold sp. assumption. }
    destruct (IH P') as (Q & EQ & Q1 & Q2 & Q3); [lia|assumption| |].
    + intros c' e2 Hc' E2 c2 Hc2 Hd. assert (Hd' : P c2 <> None) by (intros Hn; apply Hd, Hdom; assumption). unfold P', dset in E2. destruct (Nat.eqb_spec c' c) as [->|Hne'].
      * injection E2 as <-. assert (X : eqp p (rv (drw c (1 :: e')) c2) 0).
        { rewrite Hrow. destruct (Nat.lt_ge_cases c2 c) as [Hl|Hg]; [rewrite Hlow by assumption; reflexivity|].
          destruct (P c2) as [e2|] eqn:E2; [|contradiction]. destruct (HPv c2 e2 E2) as (_ & Hc2n & _). apply Z2; [lia|]. unfold R. destruct (Nat.eqb_spec c2 c); [lia|congruence]. }
        apply (eqp_0_small p) in X; [assumption|]. rewrite drw_rv. destruct (c <=? c2)%nat; [apply Be|lia].
      * apply (HC c' e2); [lia|assumption|assumption|assumption].
    + exists Q. split; [exact EQ|]. split; [assumption|]. split; [assumption|]. intros v. rewrite (HSP v). apply Q3.
Qed.

(** ** Conversion to sparse rows *)
Lemma convert_row_spec p ncl : forall e c, (forall j, 0 <= dv e j < p) ->
  (forall j, rv (convert_row ncl c e) j = if (ncl + c <=? j)%nat then dv e (j - (ncl + c))%nat else 0) /\
  StronglySorted lt (map fst (convert_row ncl c e)) /\ (forall t, In t (convert_row ncl c e) -> 0 < snd t < p /\ (ncl + c <= fst t < ncl + c + length e)%nat).
Proof.
  induction e as [|x e IH]; intros c H; cbn [convert_row].
  - split; [|split; [constructor|intros t []]]. intros j. destruct (ncl + c <=? j)%nat; [|reflexivity]. destruct (j - (ncl + c))%nat; reflexivity.
  - destruct (IH (S c)) as (R & S1 & T); [intros j; apply (H (S j))|]. assert (Hx := H O). cbn in Hx. destruct (Z.eqb_spec x 0) as [->|Hn].
    + split; [|split; [assumption|]].
      * intros j. rewrite R. destruct (Nat.leb_spec (ncl + S c) j); destruct (Nat.leb_spec (ncl + c) j); try lia.
        -- replace (j - (ncl + c))%nat with (S (j - (ncl + S c))) by lia. reflexivity.
        -- replace (j - (ncl + c))%nat with O by lia. reflexivity.
      * intros t Ht. apply T in Ht. cbn [length]. split; [apply Ht|lia].
    + split; [|split].
      * intros j. cbn [rv fst snd]. rewrite R. destruct (Nat.eqb_spec (ncl + c) j) as [E|E].
        -- rewrite <- E, Nat.leb_refl, Nat.sub_diag. destruct (Nat.leb_spec (ncl + S c) (ncl + c)); [lia|]. cbn. lia.
        -- destruct (Nat.leb_spec (ncl + S c) j); destruct (Nat.leb_spec (ncl + c) j); try lia. replace (j - (ncl + c))%nat with (S (j - (ncl + S c))) by lia. reflexivity.
      * cbn [map fst]. constructor; [assumption|]. apply Forall_forall. intros i Hi. apply in_map_iff in Hi. destruct Hi as (t & <- & Ht). apply T in Ht. lia.
      * intros t [<-|Ht]; cbn [fst snd length]; [lia|]. apply T in Ht. lia.
Qed.
(** the rows as a family indexed by the columns of the matrix *)
Definition csh (ncl : nat) (Q : nat -> option (list Z)) : nat -> option srow :=
  fun c => if (c <? ncl)%nat then None else match Q (c - ncl)%nat with Some e => Some (convert_row ncl (c - ncl) e) | None => None end.
Lemma convert_rows_desc ncl Q cnt : convert_rows ncl Q cnt = rows_desc ncl (csh ncl Q) cnt.
Proof.
  induction cnt as [|c IH]; cbn [convert_rows rows_desc]; [reflexivity|]. unfold csh at 1. destruct (Nat.ltb_spec (ncl + c) ncl); [lia|].
  replace (ncl + c - ncl)%nat with c by lia. destruct (Q c); rewrite IH; reflexivity.
Qed.
Definition shift (ncl : nat) (v : vec) : vec := fun j => if (j <? ncl)%nat then 0 else v (j - ncl)%nat.
Lemma csh_row p ncl ncr Q c e : dpok p ncr Q -> Q c = Some e -> canon p (convert_row ncl c e) /\ (forall j, rv (convert_row ncl c e) j = shift ncl (rv (drw c e)) j) /\ pivot_row p (ncl + ncr) (ncl + c) (convert_row ncl c e).
Proof.
  intros HQ E. destruct (HQ c e E) as (Hb & Hc & Hl & e' & Ee). destruct (convert_row_spec p ncl e c Hb) as (R & S1 & T).
  assert (HC : canon p (convert_row ncl c e)) by (split; [assumption|intros t Ht; apply T; assumption]).
  assert (Hp : 2 <= p). { specialize (Hb O). rewrite Ee in Hb. cbn in Hb. lia. }
  split; [assumption|]. split.
  - intros j. rewrite R. unfold shift. rewrite drw_rv. destruct (Nat.leb_spec (ncl + c) j); destruct (Nat.ltb_spec j ncl); try lia; [|destruct (Nat.leb_spec c (j - ncl)); [lia|reflexivity]].
    destruct (Nat.leb_spec c (j - ncl)); [|lia]. f_equal. lia.
  - assert (Hh : convert_row ncl c e = ((ncl + c)%nat, 1) :: convert_row ncl (S c) e') by (rewrite Ee; reflexivity). rewrite Hh in *.
    apply (canon_pivot p (ncl + ncr) _ ((ncl + c)%nat, 1)); auto. intros u Hu. apply T in Hu. lia.
Qed.
Lemma csh_some ncl Q c r : csh ncl Q c = Some r -> exists c0 e, c = (ncl + c0)%nat /\ Q c0 = Some e /\ r = convert_row ncl c0 e.
Proof.
  unfold csh. destruct (Nat.ltb_spec c ncl); [discriminate|]. destruct (Q (c - ncl)%nat) as [e|] eqn:E; [|discriminate]. intros [= <-]. exists (c - ncl)%nat, e. split; [lia|]. auto.
Qed.
Lemma csh_at ncl Q c0 : csh ncl Q (ncl + c0) = match Q c0 with Some e => Some (convert_row ncl c0 e) | None => None end.
Proof. unfold csh. destruct (Nat.ltb_spec (ncl + c0) ncl); [lia|]. replace (ncl + c0 - ncl)%nat with c0 by lia. reflexivity. Qed.
Lemma csh_reduced p ncl ncr Q : dpok p ncr Q -> dclean_from p 0 Q -> reduced_family p (ncl + ncr) (csh ncl Q) /\ (forall c, csh ncl Q c <> None -> (ncl <= c < ncl + ncr)%nat).
Proof.
  intros HQ HC. split; [split|].
  - intros c r E. apply csh_some in E. destruct E as (c0 & e & -> & E & ->). apply (csh_row p ncl ncr Q); assumption.
  - intros c r E. apply csh_some in E. destruct E as (c0 & e & -> & E & ->). destruct (csh_row p ncl ncr Q c0 e HQ E) as (C1 & V1 & _). split; [assumption|].
    intros c' Hne Hd. destruct (csh ncl Q c') as [r'|] eqn:E'; [|contradiction]. apply csh_some in E'. destruct E' as (c1 & e1 & -> & E1 & ->).
    rewrite V1. unfold shift. destruct (Nat.ltb_spec (ncl + c1) ncl); [lia|]. replace (ncl + c1 - ncl)%nat with c1 by lia. apply (HC c0 e); [lia|assumption|lia|congruence].
  - intros c Hc. destruct (csh ncl Q c) as [r|] eqn:E; [|contradiction]. apply csh_some in E. destruct E as (c0 & e & -> & E & ->). destruct (HQ c0 e E) as (_ & Hc0 & _). lia.
Qed.
Lemma shift_lin p ncl (S T : vec -> Prop) v : (forall u, S u -> span p T (shift ncl u)) -> span p S v -> span p T (shift ncl v).
Proof.
  intros H. revert v. apply span_ind_lin.
  - assumption.
  - apply span_veq0. intros j. unfold shift, vzero. destruct (j <? ncl)%nat; reflexivity.
  - intros a u v Hu Hv. eapply span_eq; [apply (span_lin p T a _ _ Hu Hv)|]. intros j. unfold shift. destruct (j <? ncl)%nat; exists 0; ring.
  - intros u v Hu E. eapply span_eq; [exact Hu|]. intros j. unfold shift. destruct (j <? ncl)%nat; [reflexivity|apply E].
Qed.

(** ** Reduction by the known pivots *)
Section AbCd.
Variables (k : kern) (p : Z) (ncl ncols : nat) (rr : nat -> option srow).
Hypotheses (HK : kern_ok k p) (HR : kroom k p (S ncols)) (Hle : (ncl <= ncols)%nat) (Hrr : forall c, (c < ncl)%nat <-> rr c <> None) (Hrok : pivots_ok p ncols rr).
Lemma red_loop_part : forall cnt i dr n, (i + cnt <= ncols)%nat -> red_inv k p ncols i dr n ->
  exists dr' n', red_loop k p rr cnt i dr n = Some (dr', n') /\ red_inv k p ncols (i + cnt) dr' n' /\
  (forall j, (j < i)%nat -> dv dr' j = dv dr j) /\ (forall j, (i <= j < i + cnt)%nat -> rr j <> None -> dv dr' j = 0) /\
  span p (pset_of rr) (fun j => dv dr j - dv dr' j).
Proof.
  induction cnt as [|cnt IH]; intros i dr n Hc HI; cbn [red_loop].
  - exists dr, n. rewrite Nat.add_0_r. split; [reflexivity|]. split; [assumption|]. split; [auto|]. split; [lia|].
    apply span_veq0. intros j. exists 0. unfold vzero. ring.
  - destruct (col_step_inv k p ncols rr i dr n HK HR Hrok HI) as (d1 & b & -> & I1 & L1 & Z1 & S1); [lia|]. cbn [obind fst snd].
    destruct (IH (S i) d1 (if b then S n else n)) as (d2 & n2 & -> & I2 & L2 & Z2 & S2); [lia|assumption|].
    exists d2, n2. split; [reflexivity|]. split; [replace (i + S cnt)%nat with (S i + cnt)%nat by lia; assumption|]. split; [intros j Hj; rewrite L2, L1 by lia; reflexivity|]. split.
    + intros j Hj Hp. destruct (Nat.eq_dec j i) as [->|]; [rewrite L2 by lia; auto|]. apply Z2; [lia|assumption].
    + eapply span_eq; [apply (span_add _ _ _ _ S1 S2)|]. intros j. exists 0. ring.
Qed.
Lemma reduce_old_ok sc dr : (sc <= ncols)%nat -> length dr = ncols -> (forall j, 0 <= dv dr j < p) -> (forall j, (j < sc)%nat -> dv dr j = 0) ->
  exists o, reduce_old k p rr ncl sc dr = Some o /\
  match o with
  | None => span p (pset_of rr) (dv dr)
  | Some u => drow_ok p (ncols - ncl) u /\ span p (pset_of rr) (fun j => dv dr j - shift ncl (dv u) j)
  end.
Proof.
  intros Hsc HL HB Hz. assert (Hp2 : 2 <= p) by apply HK. pose proof (bits_ok k p HK) as HBits. unfold reduce_old.
  destruct (red_loop_part (ncl - sc) sc dr 0) as (d & n & -> & (I1 & I2 & I3 & I4 & I5) & LT & ZP & SP).
  - lia.
  - split; [assumption|]. split; [assumption|]. split; [auto|]. split; [|symmetry; apply nzc_0; assumption]. intros j. specialize (HB j). pose proof (kb_start k p sc HK). lia.
  - cbn [obind fst]. set (u := map (old_entry k p) (skipn ncl d)).
    assert (Vu : forall j, dv u j = dv d (ncl + j)%nat mod p).
    { intros j. unfold u. rewrite (dv_map_mod (old_entry k p)) by reflexivity. rewrite dv_skipn. set (x := dv d (ncl + j)%nat). assert (0 <= x) by apply I4.
      unfold old_entry. assert (E : (if x =? 0 then x else Z.rem x p) = x mod p).
      { destruct (Z.eqb_spec x 0) as [->|_]; [symmetry; apply Z.mod_0_l; lia|]. apply Z.rem_mod_nonneg; lia. }
      rewrite E. pose proof (Z.mod_pos_bound x p ltac:(lia)). apply Z.mod_small. lia. }
    assert (Lu : length u = (ncols - ncl)%nat) by (unfold u; rewrite map_length, skipn_length; lia).
    assert (Bu : forall j, 0 <= dv u j < p) by (intros j; rewrite Vu; apply Z.mod_pos_bound; lia).
    assert (Hlow : forall j, (j < ncl)%nat -> dv d j = 0).
    { intros j Hj. destruct (Nat.lt_ge_cases j sc) as [Hs|Hs]; [rewrite LT by assumption; auto|]. apply ZP; [lia|]. apply Hrr. assumption. }
    assert (Vd : forall j, eqp p (dv d j) (shift ncl (dv u) j)).
    { intros j. unfold shift. destruct (Nat.ltb_spec j ncl) as [Hj|Hj]; [rewrite Hlow by assumption; reflexivity|]. rewrite Vu. replace (ncl + (j - ncl))%nat with j by lia. symmetry. apply eqp_mod. lia. }
    assert (SP' : span p (pset_of rr) (fun j => dv dr j - shift ncl (dv u) j)) by (eapply span_eq; [exact SP|]; intros j; rewrite Vd; reflexivity).
    destruct (forallb (Z.eqb 0) u) eqn:Ez.
    + exists None. split; [reflexivity|]. eapply span_eq; [exact SP'|]. intros j.
      assert (dv u (j - ncl)%nat = 0) as H0.
      { rewrite forallb_forall in Ez. destruct (Nat.lt_ge_cases (j - ncl) (length u)); [|apply dv_overflow; assumption]. symmetry. apply Z.eqb_eq, Ez. apply nth_In. assumption. }
      unfold shift. destruct (j <? ncl)%nat; [|rewrite H0]; exists 0; ring.
    + exists (Some u). split; [reflexivity|]. split; [|assumption]. split; [assumption|]. split; [assumption|].
      assert (X : exists x, In x u /\ x <> 0).
      { clear -Ez. induction u as [|x u IH]; [discriminate|]. cbn [forallb] in Ez. destruct (Z.eqb_spec 0 x) as [<-|]; [|exists x; split; [left; reflexivity|auto]].
        destruct (IH Ez) as (y & Hy & Hn). exists y. split; [right; assumption|assumption]. }
      destruct X as (x & Hx & Hn). apply (In_nth _ _ 0) in Hx. destruct Hx as (j & _ & Hj). exists j. unfold dv. rewrite Hj. assumption.
Qed.
Lemma ab_cd_ok : forall tr, (forall r, In r tr -> input_row p ncols r) -> exists dm, ab_cd k p ncl ncols rr tr = Some dm /\ (length dm <= length tr)%nat /\
  (forall u, In u dm -> drow_ok p (ncols - ncl) u /\ exists r, In r tr /\ span p (pset_of rr) (fun j => rv r j - shift ncl (dv u) j)) /\
  (forall r, In r tr -> span p (pset_of rr) (rv r) \/ exists u, In u dm /\ span p (pset_of rr) (fun j => rv r j - shift ncl (dv u) j)).
Proof.
  assert (Hp2 : 2 <= p) by apply HK. induction tr as [|r tr IH]; intros Htr; cbn [ab_cd].
  - exists []. split; [reflexivity|]. split; [apply le_n|]. split; [intros u []|intros r []].
  - destruct (Htr r (or_introl eq_refl)) as (ND & HC & HL & t0 & r' & Er & Hmin). rewrite Er. cbn iota. rewrite <- Er.
    destruct (scatter_ok p ncols r Hp2 ND HC HL) as (dr & E & L & V & B). rewrite E. cbn [obind].
    assert (Ht0 : (fst t0 < ncols)%nat) by (apply HL; rewrite Er; left; reflexivity).
    assert (Hsc : (start_col k t0 <= fst t0)%nat) by (destruct k; cbn [start_col]; lia).
    assert (Hz : forall j, (j < start_col k t0)%nat -> dv dr j = 0).
    { intros j Hj. rewrite V. apply rv_notin. intros Hi. apply in_map_iff in Hi. destruct Hi as (t & <- & Ht). specialize (Hmin t Ht). lia. }
    destruct (reduce_old_ok (start_col k t0) dr) as (o & -> & Ho); auto; [lia|]. cbn [obind].
    destruct IH as (dm & -> & Hlen & H1 & H2); [intros; apply Htr; right; assumption|]. cbn [obind].
    assert (H1' : forall u, In u dm -> drow_ok p (ncols - ncl) u /\ exists r0, In r0 (r :: tr) /\ span p (pset_of rr) (fun j => rv r0 j - shift ncl (dv u) j)).
    { intros u Hu. destruct (H1 u Hu) as (X & r0 & Hr0 & Y). split; [assumption|]. exists r0. split; [right; assumption|assumption]. }
    destruct o as [u|].
    + destruct Ho as (Hu & Hs). assert (Hs' : span p (pset_of rr) (fun j => rv r j - shift ncl (dv u) j)) by (eapply span_eq; [exact Hs|]; intros j; rewrite V; reflexivity).
      exists (u :: dm). split; [reflexivity|]. split; [cbn; lia|]. split.
      * intros w [<-|Hw]; [|auto]. split; [assumption|]. exists r. split; [left; reflexivity|assumption].
      * intros r0 [<-|Hr0]; [right; exists u; split; [left; reflexivity|assumption]|]. destruct (H2 r0 Hr0) as [|(w & Hw & Y)]; [left; assumption|right]. exists w. split; [right; assumption|assumption].
    + exists dm. split; [reflexivity|]. split; [cbn; lia|]. split; [assumption|].
      intros r0 [<-|Hr0]; [left; eapply span_eq; [exact Ho|]; intros j; rewrite V; reflexivity|]. auto.
Qed.
End AbCd.

(** ** Whole function *)
Lemma dense_core k p ncl ncols rr tr sched : prime p -> kern_ok k p -> kroom k p (S ncols) -> matrix_ok p ncl ncols rr tr ->
  exists dm, ab_cd k p ncl ncols rr tr = Some dm /\ (length dm <= length tr)%nat /\
  exists P tbr s, select k p dm (fun _ => None) = Some (P, tbr) /\ (length tbr <= length dm)%nat /\
  dsys_run k p (ncols - ncl) sched {| ds_pivs := P; ds_rows := map DTodo tbr |} = Some s /\
  ((forall t, (t < length tbr)%nat -> (budget (ncols - ncl) <= count_occ Nat.eq_dec sched t)%nat) -> forallb dfinished (ds_rows s) = true) /\
  (forallb dfinished (ds_rows s) = true -> exists Q, dinterreduce k p (ncols - ncl) (ncols - ncl) (ds_pivs s) = Some Q /\
     reduced_family p ncols (csh ncl Q) /\ (forall c, csh ncl Q c <> None -> (ncl <= c < ncols)%nat) /\
     (forall v, span p (pset_of (csh ncl Q)) v <-> span p (gens rr tr) v /\ forall c, (c < ncl)%nat -> eqp p (v c) 0) /\
     (dm = [] -> forall c, Q c = None)).
Proof.
  intros HP HK HR (Hle & Hrr & Hrok & Htr). assert (Hp2 : 2 <= p) by apply HK. set (ncr := (ncols - ncl)%nat).
  assert (HR' : kroom k p (S ncr)) by (eapply kroom_le; [|eassumption|eassumption]; unfold ncr; lia).
  destruct (ab_cd_ok k p ncl ncols rr HK HR Hle Hrr Hrok tr Htr) as (dm & Edm & Hld & D1 & D2). exists dm. split; [assumption|]. split; [assumption|].
  set (G := fun v : vec => exists u, In u dm /\ v = dv u).
  assert (HG : forall u, In u dm -> span p G (dv u)) by (intros u Hu; apply span_in; exists u; auto).
  destruct (select_ok k p ncr G HP HK dm (fun _ => None)) as (P & tbr & Esel & P1 & _ & P3 & P4 & P5 & P6).
  { intros u Hu. apply D1. assumption. } { assumption. } { intros c e E. discriminate. } { intros c e E. discriminate. }
  destruct (dsys_run_ok k p ncr P tbr G HP HK HR' ltac:(intros u Hu; apply HG, P4; assumption) sched (fun _ => O) {| ds_pivs := P; ds_rows := map DTodo tbr |}) as (s & Es & I).
  { apply dinit_ok; auto. intros u Hu. destruct (D1 u (P4 u Hu)) as ((X & Y & _) & _). auto. }
  exists P, tbr, s. split; [assumption|]. split; [assumption|]. split; [assumption|]. split; [intros Hc; eapply denough; eassumption|].
  intros HF. assert (HFS := dfinished_span _ _ _ _ _ _ _ _ I HF). destruct I as (S1 & S2 & S3 & _).
  destruct (dinterreduce_ok k p ncr HP HK HR' ncr (ds_pivs s) (le_n _) S1) as (Q & EQ & Q1 & Q2 & Q3).
  { intros c e Hc E. destruct (S1 c e E) as (_ & Hc' & _). lia. }
  exists Q. split; [assumption|]. replace ncols with (ncl + ncr)%nat by (unfold ncr; lia). destruct (csh_reduced p ncl ncr Q Q1 Q2) as (R1 & R2). split; [assumption|]. split; [assumption|].
  assert (HSG : same_span p G (pset_of (sp Q))).
  { intros v. rewrite <- (Q3 v). split; apply span_mono.
    - intros w (u & Hu & ->). destruct (P6 u Hu) as [Ht|Ht]; [apply HFS; assumption|]. eapply pset_of_mono; [|exact Ht]. apply le_dp_sp. assumption.
    - intros w (c & r & E & ->). unfold sp in E. destruct (ds_pivs s c) as [e|] eqn:Ee; [|discriminate]. injection E as <-. apply S3. assumption. }
  assert (HQG : forall v, span p (pset_of (csh ncl Q)) v -> span p (gens rr tr) v).
  { intros v. apply span_mono. intros w (c & r & E & ->). apply csh_some in E. destruct E as (c0 & e & -> & E & ->). destruct (csh_row p ncl ncr Q c0 e Q1 E) as (_ & V & _).
    apply (span_eq p _ (shift ncl (rv (drw c0 e)))); [|intros j; rewrite V; reflexivity].
    apply (shift_lin p ncl G); [|apply HSG, span_in; exists c0, (drw c0 e); split; [unfold sp; rewrite E; reflexivity|reflexivity]].
    intros w (u & Hu & ->). destruct (D1 u Hu) as (_ & r & Hr & Hs).
    eapply span_eq with (u := fun j => rv r j - (rv r j - shift ncl (dv u) j)); [|intros j; exists 0; ring].
    apply (span_sub p _ (rv r)); [apply span_in; right; exists r; auto|]. eapply span_mono; [|exact Hs]. intros x Hx. apply span_in. left. assumption. }
  split.
  - intros v. split.
    + intros Hv. split; [auto|]. intros c Hc. apply (span_at p _ v c Hv). intros u (c' & r & E & ->). assert (E' := E). destruct R1 as (R1 & _). specialize (R2 c'). rewrite E in R2. specialize (R2 ltac:(discriminate)).
      rewrite (pivot_below p (ncl + ncr) c' r) by (auto; lia). reflexivity.
    + intros (Hv & Hz). set (F := fun c => if (c <? ncl)%nat then rr c else csh ncl Q c).
      assert (HF1 : pivots_ok p (ncl + ncr) F).
      { intros c r. unfold F. destruct (c <? ncl)%nat; [|apply R1]. replace (ncl + ncr)%nat with ncols by (unfold ncr; lia). apply Hrok. }
      assert (HFr : forall x, span p (pset_of rr) x -> span p (pset_of F) x).
      { intros x. apply span_mono. intros w (c & r & E & ->). apply span_in. exists c, r. split; [|reflexivity]. unfold F. destruct (Nat.ltb_spec c ncl); [assumption|]. exfalso. assert (c < ncl)%nat by (apply Hrr; congruence). lia. }
      assert (HFu : forall u, In u dm -> span p (pset_of F) (shift ncl (dv u))).
      { intros u Hu. apply (shift_lin p ncl (pset_of (sp Q))); [|apply HSG, HG; assumption]. intros w (c & r & E & ->). unfold sp in E. destruct (Q c) as [e|] eqn:Ee; [|discriminate]. injection E as <-.
        destruct (csh_row p ncl ncr Q c e Q1 Ee) as (_ & V & _). apply (span_eq p _ (rv (convert_row ncl c e))); [|intros j; rewrite V; reflexivity]. apply span_in. exists (ncl + c)%nat, (convert_row ncl c e). split; [|reflexivity].
        unfold F. destruct (Nat.ltb_spec (ncl + c) ncl); [lia|]. rewrite csh_at, Ee. reflexivity. }
      assert (Hv' : span p (pset_of F) v).
      { eapply span_mono; [|exact Hv]. intros w [Hw|(r & Hr & ->)]; [apply HFr, span_in; assumption|]. destruct (D2 r Hr) as [X|(u & Hu & X)]; [auto|].
        eapply span_eq; [apply (span_add p _ _ _ (HFr _ X) (HFu u Hu))|]. intros j. exists 0. ring. }
      apply (span_restrict p (ncl + ncr) F v ncl HF1) in Hv'; [|auto]. eapply span_mono; [|exact Hv']. intros w (c & r & E & ->). unfold drop_old, F in E. destruct (c <? ncl)%nat; [discriminate|].
      apply span_in. exists c, r. auto.
  - intros -> c. destruct (Q c) as [e|] eqn:E; [|reflexivity]. exfalso. assert (Hs : span p G (rv (drw c e))) by (apply HSG, span_in; exists c, (drw c e); split; [unfold sp; rewrite E; reflexivity|reflexivity]).
    apply (span_at p _ _ c) in Hs; [|intros u (w & [] & _)]. rewrite (pivot_lead p ncr c (drw c e)) in Hs by (apply (dpok_row p ncr Q); assumption). apply eqp_0_small in Hs; lia.
Qed.
