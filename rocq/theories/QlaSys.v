(** The parallel loop with integer rows: all schedules. *)
From Coq Require Import ZArith Arith List Bool Lia Znumtheory Setoid Morphisms Sorted.
From Verif Require Import ModInvModel LinSpec LaSpec LaModel LaProofs LaRowProofs LaSysProofs QlaSpec QlaModel QlaProofs QlaRow.
Import ListNotations.
Open Scope Z_scope.

(** w is v0 up to nonzero multiples and rows of P *)
Definition rel (P : nat -> option srow) (v0 w : vec) : Prop := exists x y, x <> 0 /\ y <> 0 /\ span 0 (pset_of P) (fun j => x * v0 j - y * w j).
Lemma rel_pt P v0 w w' : rel P v0 w -> (forall j, w j = w' j) -> rel P v0 w'.
Proof. intros (x & y & Hx & Hy & H) E. exists x, y. split; [assumption|]. split; [assumption|]. eapply span_pt; [exact H|]. intros j. cbn beta. rewrite E. reflexivity. Qed.
Lemma rel_refl P v0 : rel P v0 v0.
Proof. exists 1, 1. split; [lia|]. split; [lia|]. eapply span_pt; [apply span_zero|]. intros j. unfold vzero. lia. Qed.
Lemma rel_unscale P v0 w k : k <> 0 -> rel P v0 (fun j => k * w j) -> rel P v0 w.
Proof. intros Hk (x & y & Hx & Hy & H). exists x, (y * k). split; [assumption|]. split; [nia|]. eapply span_pt; [exact H|]. intros j. cbn beta. ring. Qed.
Lemma rel_step P v0 w w' m : m <> 0 -> rel P v0 w -> span 0 (pset_of P) (fun j => m * w j - w' j) -> rel P v0 w'.
Proof.
  intros Hm (x & y & Hx & Hy & H) H'. exists (x * m), y. split; [nia|]. split; [assumption|].
  eapply span_pt; [exact (span_lin 0 _ m (fun j => x * v0 j - y * w j) (fun j => y * (m * w j - w' j)) H (span_scale 0 _ y (fun j => m * w j - w' j) H'))|]. intros j. cbn beta. ring.
Qed.
Lemma rel_mono P Q v0 w : le_pivs P Q -> rel P v0 w -> rel Q v0 w.
Proof. intros HL (x & y & Hx & Hy & H). exists x, y. split; [assumption|]. split; [assumption|]. eapply pset_of_mono; eassumption. Qed.
Lemma rel_zero P v0 w : rel P v0 w -> (forall j, w j = 0) -> qspan (pset_of P) v0.
Proof. intros (x & y & Hx & Hy & H) E. exists x. split; [assumption|]. eapply span_pt; [exact H|]. intros j. cbn beta. rewrite E. lia. Qed.
Lemma rel_to P v0 w (T : vec -> Prop) : rel P v0 w -> (forall u, pset_of P u -> qspan T u) -> qspan T w -> qspan T v0.
Proof.
  intros (x & y & Hx & Hy & H) HT Hw. apply (qspan_unscale T x v0 Hx). eapply qspan_pt; [apply (qspan_lin T y w _ Hw (qspan_of_span _ _ _ HT H))|]. intros j. cbn beta. ring.
Qed.
Lemma rel_from P v0 w (T : vec -> Prop) : rel P v0 w -> (forall u, pset_of P u -> qspan T u) -> qspan T v0 -> qspan T w.
Proof.
  intros (x & y & Hx & Hy & H) HT Hw. apply (qspan_unscale T y w Hy).
  eapply qspan_pt; [apply (qspan_lin T (-1) _ _ (qspan_of_span _ _ _ HT H) (qspan_scale T x v0 Hw))|]. intros j. cbn beta. ring.
Qed.
Lemma qspan_pivs_mono P Q v : le_pivs P Q -> qspan (pset_of P) v -> qspan (pset_of Q) v.
Proof. intros HL (x & Hx & H). exists x. split; [assumption|]. eapply pset_of_mono; eassumption. Qed.

Definition qrinv (ncl n : nat) (P : nat -> option srow) (v0 : vec) (m : nat) (s : qstate) : Prop :=
  match s with
  | QTodo r => zinput n r /\ v0 = rv r /\ m = budget n
  | QRed i dr kept => length dr = n /\ (i <= n)%nat /\ kept_ok ncl i kept /\ rel P v0 (cur i dr kept) /\
      exists b, (b <= n)%nat /\ (forall t, In t kept -> (b <= fst t)%nat) /\ ((b <= i)%nat \/ b = S i /\ P i <> None) /\
      (m + b * (n + 3) = (n + 1) * (n + 3) + (n - i) + 2)%nat
  | QCas r => exists c x r', r = (c, x) :: r' /\ zcanon r /\ zprim r /\ (forall t, In t r -> (ncl <= fst t < n)%nat) /\ rel P v0 (rv r) /\
      exists b, (b <= c)%nat /\ (m + b * (n + 3) = (n + 1) * (n + 3) + 1)%nat
  | QZero => qspan (pset_of P) v0
  | QPiv c => P c <> None /\ qspan (pset_of P) v0
  end.
Lemma qrinv_mono ncl n P Q v0 m s : le_pivs P Q -> qrinv ncl n P v0 m s -> qrinv ncl n Q v0 m s.
Proof.
  intros HL. destruct s as [r|i dr kept|r| |c]; cbn [qrinv].
  - auto.
  - intros (H1 & H2 & H3 & H4 & b & H5 & H6 & H7 & H8). do 3 (split; [assumption|]). split; [eapply rel_mono; eassumption|]. exists b. do 2 (split; [assumption|]). split; [|assumption].
    destruct H7 as [H7|(H7 & H9)]; [left; assumption|right; split; [assumption|eapply le_pivs_none; eassumption]].
  - intros (c & x & r' & H1 & H2 & H3 & H4 & H5 & H6). exists c, x, r'. do 4 (split; [assumption|]). split; [eapply rel_mono; eassumption|assumption].
  - apply qspan_pivs_mono. assumption.
  - intros (H1 & H2). split; [eapply le_pivs_none; eassumption|eapply qspan_pivs_mono; eassumption].
Qed.
Lemma qrinv_pos ncl n P v0 m s : qrinv ncl n P v0 m s -> qfinished s = false -> (0 < m)%nat.
Proof.
  destruct s as [r|i dr kept|r| |c]; cbn [qrinv qfinished]; intros H Hf; try discriminate.
  - destruct H as (_ & _ & ->). unfold budget. lia.
  - destruct H as (_ & _ & _ & _ & b & Hb & _ & _ & E). nia.
  - destruct H as (c & x & r' & -> & _ & _ & HL & _ & b & Hb & E). specialize (HL (c, x) (or_introl eq_refl)). cbn [fst] in HL. nia.
Qed.
Lemma kept_nil lo i : kept_ok lo i [].
Proof. split; [split; [constructor|intros t []]|intros t []]. Qed.
Lemma mask_all i dr j : (length dr <= i)%nat -> mask i dr j = 0.
Proof. intros H. unfold mask. destruct (Nat.ltb_spec j i); [reflexivity|]. apply dv_overflow. lia. Qed.
Lemma prim_one c r : zprim ((c, 1) :: r).
Proof.
  split; [|exists c, 1, r; split; [reflexivity|lia]]. intros q Hq. specialize (Hq (c, 1) (or_introl eq_refl)). cbn [snd] in Hq. apply Z.divide_1_r. assumption.
Qed.

Lemma qstep_ok ncl n P v0 m s : zpivots n P -> (forall c, (c < ncl)%nat -> P c <> None) -> (ncl <= n)%nat -> qrinv ncl n P v0 m s ->
  exists P' s' m', qstep n P s = Some (P', s') /\ qrinv ncl n P' v0 m' s' /\ (qfinished s = false -> qfinished s' = true \/ (m' < m)%nat) /\
  (qfinished s = true -> s' = s) /\ le_pivs P P' /\ zpivots n P' /\
  (forall c r, P' c = Some r -> P c = Some r \/ zcanon r /\ zprim r /\ (ncl <= c)%nat /\ qspan (fun u => pset_of P u \/ u = v0) (rv r)).
Proof.
  intros HP Hncl Hle HI. destruct s as [r|i dr kept|r| |c]; cbn [qrinv] in HI.
  - destruct HI as ((ND & HLt & t0 & r' & -> & Hmin) & -> & ->). cbn [qstep].
    destruct (scatter_any n (t0 :: r') ND HLt) as (dr & -> & L & V). cbn [obind].
    exists P, (QRed (fst t0) dr []), ((n + 1) * (n + 3) + (n - fst t0) + 2)%nat. split; [reflexivity|].
    assert (Ht0 : (fst t0 < n)%nat) by (apply HLt; left; reflexivity).
    split; [|split; [intros _; right; unfold budget; lia|split; [discriminate|split; [apply le_pivs_refl|split; [assumption|auto]]]]].
    split; [assumption|]. split; [lia|]. split; [apply kept_nil|]. split.
    + apply (rel_pt P _ (rv (t0 :: r'))); [apply rel_refl|]. intros j. unfold cur, mask. cbn [rv]. destruct (Nat.ltb_spec j (fst t0)) as [Hj|].
      * assert (Z0 : rv (t0 :: r') j = 0). { apply rv_notin. intros Hin. apply in_map_iff in Hin. destruct Hin as (u & <- & Hu). specialize (Hmin u Hu). lia. }
        cbn [rv] in Z0. lia.
      * specialize (V j). cbn [rv] in V. lia.
    + exists 0%nat. split; [lia|]. split; [intros t []|]. split; [left; lia|]. unfold budget in *. nia.
  - destruct HI as (HL & Hi & HK & HR & b & Hb & Hbk & Hbi & Hm). cbn [qstep]. destruct (Nat.ltb_spec i n) as [Hin|Hin].
    + destruct (qcol_ok n (P i) i dr kept HL Hin) as (d1 & k1 & m1 & a & -> & L1 & Hm1 & V1 & C1); [intros r E; apply HP; assumption|]. cbn [obind fst snd].
      exists P, (QRed (S i) d1 k1), (m - 1)%nat. split; [reflexivity|]. assert (Hmpos : (0 < m)%nat) by nia.
      split; [|split; [intros _; right; lia|split; [discriminate|split; [apply le_pivs_refl|split; [assumption|auto]]]]].
      split; [assumption|]. split; [lia|]. split.
      { eapply qcol_kept; [exact HK|exact Hm1| |exact C1]. intros E. destruct (Nat.lt_ge_cases i ncl) as [Hl|]; [|assumption]. exfalso. apply (Hncl i Hl E). }
      split.
      { apply (rel_step P v0 (cur i dr kept) _ m1 Hm1 HR). destruct (P i) as [r|] eqn:E.
        - eapply span_pt; [apply (span_scale 0 _ a (rv r)), span_in; exists i, r; auto|]. intros j. cbn beta. rewrite V1. reflexivity.
        - eapply span_pt; [apply span_zero|]. intros j. rewrite V1. cbn [rvo]. unfold vzero. lia. }
      exists b. split; [assumption|]. split.
      { intros t Ht. destruct C1 as [->|(EN & _ & _ & ->)].
        - apply in_scale_fst in Ht. destruct Ht as (u & Hu & ->). auto.
        - apply in_app_or in Ht. destruct Ht as [Ht|[<-|[]]]; [auto|]. cbn [fst]. destruct Hbi as [?|(_ & Hbad)]; [assumption|contradiction]. }
      split; [destruct Hbi as [?|(? & _)]; left; lia|]. nia.
    + assert (i = n) by lia. subst i.
      assert (Hcur : forall j, cur n dr kept j = rv kept j) by (intros j; unfold cur; rewrite mask_all by lia; lia).
      destruct kept as [|(c, x) kept].
      * exists P, QZero, 0%nat. split; [reflexivity|]. split; [apply (rel_zero P v0 _ HR); intros j; apply Hcur|].
        split; [left; reflexivity|]. split; [discriminate|]. split; [apply le_pivs_refl|]. split; [assumption|auto].
      * destruct HK as (HC & HK). assert (Hx : x <> 0) by (apply (proj2 HC (c, x)); left; reflexivity).
        assert (Hbc : (b <= c)%nat) by (apply (Hbk (c, x)); left; reflexivity).
        assert (HR' : rel P v0 (rv ((c, x) :: kept))) by (eapply rel_pt; [exact HR|assumption]).
        destruct (Z.eqb_spec x 1) as [->|_].
        -- exists P, (QCas ((c, 1) :: kept)), (m - 1)%nat. split; [reflexivity|].
           split; [|split; [intros _; right; nia|split; [discriminate|split; [apply le_pivs_refl|split; [assumption|auto]]]]].
           exists c, 1, kept. split; [reflexivity|]. split; [assumption|]. split; [apply prim_one|]. split; [assumption|]. split; [assumption|]. exists b. split; [assumption|]. nia.
        -- destruct (strip_ok ((c, x) :: kept)) as (k & r' & -> & Hk & Er & Hprim); [eauto|]. cbn [obind].
           exists P, (QCas r'), (m - 1)%nat. split; [reflexivity|].
           split; [|split; [intros _; right; nia|split; [discriminate|split; [apply le_pivs_refl|split; [assumption|auto]]]]].
           assert (HC' : zcanon r') by (apply (zcanon_unscale k); rewrite <- Er; assumption).
           destruct r' as [|(c', x') r']; [discriminate|]. assert (c' = c) by (injection Er; auto). subst c'.
           exists c, x', r'. split; [reflexivity|]. split; [assumption|]. split; [assumption|]. split.
           { intros t Ht. apply (in_scale_to k) in Ht. destruct Ht as (u & Hu & <-). rewrite <- Er in Hu. auto. }
           split; [|exists b; split; [assumption|nia]]. apply (rel_unscale P v0 _ k Hk). eapply rel_pt; [exact HR'|]. intros j. rewrite Er. apply rv_scale.
  - destruct HI as (c & x & r' & -> & HC & Hprim & HLt & HR & b & Hb & Hm). cbn [qstep fst].
    assert (Hc : (ncl <= c < n)%nat) by (apply (HLt (c, x)); left; reflexivity).
    assert (HPr : zpivot n c ((c, x) :: r')) by (apply zcanon_pivot; [assumption|intros t Ht; apply HLt; assumption]).
    destruct (P c) as [q|] eqn:E.
    + destruct (scatter_any n ((c, x) :: r')) as (dr & -> & L & V); [apply zcanon_nodup; assumption|intros t Ht; apply HLt; assumption|]. cbn [obind].
      exists P, (QRed c dr []), ((n + 1) * (n + 3) + (n - c) + 2 - S c * (n + 3))%nat. split; [reflexivity|].
      assert (HB : (S c * (n + 3) <= n * (n + 3))%nat) by (apply Nat.mul_le_mono_r; lia).
      assert (HB' : (b * (n + 3) <= c * (n + 3))%nat) by (apply Nat.mul_le_mono_r; lia).
      split; [|split; [intros _; right; nia|split; [discriminate|split; [apply le_pivs_refl|split; [assumption|auto]]]]].
      split; [assumption|]. split; [lia|]. split; [apply kept_nil|]. split.
      * eapply rel_pt; [exact HR|]. intros j. unfold cur, mask. destruct (Nat.ltb_spec j c).
        -- rewrite (zpivot_below n c _ j HPr) by assumption. reflexivity.
        -- rewrite V. reflexivity.
      * exists (S c). split; [lia|]. split; [intros t []|]. split; [right; split; [reflexivity|congruence]|]. lia.
    + exists (pset P c ((c, x) :: r')), (QPiv c), 0%nat. split; [reflexivity|].
      assert (HLe : le_pivs P (pset P c ((c, x) :: r'))) by (apply pset_fresh; assumption).
      split; [split|].
      * unfold pset. rewrite Nat.eqb_refl. discriminate.
      * apply (rel_to P v0 (rv ((c, x) :: r')) _ HR).
        -- intros u Hu. apply (qspan_pivs_mono P _ u HLe). apply qspan_in. assumption.
        -- apply qspan_in. exists c, ((c, x) :: r'). unfold pset. rewrite Nat.eqb_refl. auto.
      * split; [left; reflexivity|]. split; [discriminate|]. split; [assumption|]. split.
        { intros c' q. unfold pset. destruct (Nat.eqb_spec c' c) as [->|]; [intros [= <-]; assumption|apply HP]. }
        intros c' q. unfold pset. destruct (Nat.eqb_spec c' c) as [->|]; [intros [= <-]; right|auto]. split; [assumption|]. split; [assumption|]. split; [lia|].
        apply (rel_from P v0 _ _ HR); [intros u Hu; apply qspan_in; left; assumption|]. apply qspan_in. right. reflexivity.
  - exists P, QZero, m. split; [reflexivity|]. split; [exact HI|]. split; [discriminate|]. split; [reflexivity|]. split; [apply le_pivs_refl|]. split; [assumption|auto].
  - exists P, (QPiv c), m. split; [reflexivity|]. split; [exact HI|]. split; [discriminate|]. split; [reflexivity|]. split; [apply le_pivs_refl|]. split; [assumption|auto].
Qed.

Definition qsinv (ncl n : nat) (rr : nat -> option srow) (tr : list srow) (cnt : nat -> nat) (s : qshared) : Prop :=
  zpivots n (qs_pivs s) /\ le_pivs rr (qs_pivs s) /\
  (forall c r, qs_pivs s c = Some r -> rr c = Some r \/ zcanon r /\ zprim r /\ (ncl <= c)%nat /\ qspan (gens rr tr) (rv r)) /\
  length (qs_rows s) = length tr /\
  (forall t rs, nth_error (qs_rows s) t = Some rs -> exists r0 m, nth_error tr t = Some r0 /\ qrinv ncl n (qs_pivs s) (rv r0) m rs /\
     (qfinished rs = true \/ (m + cnt t <= budget n)%nat)).
Lemma gens_pivs ncl n rr tr cnt s u : qsinv ncl n rr tr cnt s -> pset_of (qs_pivs s) u -> qspan (gens rr tr) u.
Proof.
  intros (_ & _ & HG & _) (c & r & E & ->). destruct (HG c r E) as [E'|(_ & _ & _ & H)]; [|assumption]. apply qspan_in. left. exists c, r. auto.
Qed.
Lemma qsys_step_ok ncl n rr tr cnt t s : (ncl <= n)%nat -> (forall c, (c < ncl)%nat -> rr c <> None) -> qsinv ncl n rr tr cnt s ->
  exists s', qsys_step n t s = Some s' /\ qsinv ncl n rr tr (fun u => if (u =? t)%nat then S (cnt u) else cnt u) s'.
Proof.
  intros Hle Hrr HI0. assert (HI := HI0). destruct HI as (HPv & HL & HG & Hlen & HRows). unfold qsys_step. destruct (nth_error (qs_rows s) t) as [rs|] eqn:Et.
  - destruct (HRows t rs Et) as (r0 & m & Er0 & HI & HF).
    destruct (qstep_ok ncl n (qs_pivs s) (rv r0) m rs HPv) as (P' & s' & m' & -> & HI' & Hdec & Hfin & HL' & HPv' & HG'); auto.
    { intros c Hc. eapply le_pivs_none; [exact HL|auto]. }
    cbn [obind fst snd]. eexists. split; [reflexivity|]. unfold qsinv. cbn [qs_pivs qs_rows]. split; [assumption|]. split; [eapply le_pivs_trans; eassumption|].
    split; [|split; [rewrite lset_length; assumption|]].
    + intros c r Hc. destruct (HG' c r Hc) as [Hc'|(X1 & X2 & X3 & Hsp)]; [eauto|]. right. do 3 (split; [assumption|]). eapply qspan_mono; [|exact Hsp].
      intros u [Hu| ->]; [eapply gens_pivs; eassumption|]. apply qspan_in. right. exists r0. split; [eapply nth_error_In; eassumption|reflexivity].
    + intros t' rs'. rewrite nth_error_lset. destruct (Nat.eqb_spec t' t) as [->|Hne]; cbn [andb].
      * destruct (Nat.ltb_spec t (length (qs_rows s))) as [_|Hbad]; [|apply nth_error_None in Hbad; congruence].
        intros [= <-]. exists r0, m'. split; [assumption|]. split; [assumption|].
        destruct (qfinished rs) eqn:Ef; [left; rewrite Hfin by reflexivity; assumption|]. destruct (Hdec eq_refl) as [Hd|Hd]; [left; assumption|right].
        destruct HF as [HF|HF]; [discriminate|]. lia.
      * intros Et'. destruct (HRows t' rs' Et') as (r1 & m1 & E1 & I1 & F1). exists r1, m1. split; [assumption|]. split; [eapply qrinv_mono; eassumption|assumption].
  - exists s. split; [reflexivity|]. split; [assumption|]. split; [assumption|]. split; [assumption|]. split; [assumption|].
    intros t' rs' Et'. destruct (Nat.eqb_spec t' t) as [->|]; [congruence|]. apply HRows. assumption.
Qed.
Lemma qsys_run_ok ncl n rr tr : (ncl <= n)%nat -> (forall c, (c < ncl)%nat -> rr c <> None) -> forall sched cnt s, qsinv ncl n rr tr cnt s ->
  exists s', qsys_run n sched s = Some s' /\ qsinv ncl n rr tr (fun u => (cnt u + count_occ Nat.eq_dec sched u)%nat) s'.
Proof.
  intros Hle Hrr. induction sched as [|t ts IH]; intros cnt s HI; cbn [qsys_run].
  - exists s. split; [reflexivity|]. destruct HI as (H1 & H2 & H3 & H4 & H5). do 4 (split; [assumption|]). intros t rs Et. destruct (H5 t rs Et) as (r0 & m & ? & ? & ?).
    exists r0, m. cbn. rewrite Nat.add_0_r. auto.
  - destruct (qsys_step_ok ncl n rr tr cnt t s Hle Hrr HI) as (s1 & -> & I1). cbn [obind].
    destruct (IH _ _ I1) as (s2 & -> & I2). exists s2. split; [reflexivity|]. destruct I2 as (H1 & H2 & H3 & H4 & H5). do 4 (split; [assumption|]).
    intros u rs Eu. destruct (H5 u rs Eu) as (r0 & m & ? & ? & H6). exists r0, m. split; [assumption|]. split; [assumption|].
    destruct H6 as [H6|H6]; [left; assumption|right]. cbn [count_occ]. destruct (Nat.eqb_spec u t) as [Eut|Eut]; destruct (Nat.eq_dec t u); try congruence; lia.
Qed.
Lemma qinit_inv ncl n rr tr : qmatrix ncl n rr tr -> qsinv ncl n rr tr (fun _ => O) (qinit rr tr).
Proof.
  intros (H1 & H2 & H3 & H4). split; [assumption|]. split; [apply le_pivs_refl|]. split; [auto|split; [apply map_length|]].
  cbn [qinit qs_rows qs_pivs]. intros t rs Et. rewrite nth_error_map in Et. destruct (nth_error tr t) as [r|] eqn:E; cbn in Et; [|discriminate].
  injection Et as <-. exists r, (budget n). split; [reflexivity|]. split; [|right; lia]. cbn [qrinv]. split; [apply H4; eapply nth_error_In; eassumption|]. auto.
Qed.
Lemma qrun_ok ncl n rr tr sched : qmatrix ncl n rr tr ->
  exists s, qsys_run n sched (qinit rr tr) = Some s /\ qsinv ncl n rr tr (fun u => count_occ Nat.eq_dec sched u) s.
Proof.
  intros HM. destruct (qsys_run_ok ncl n rr tr) with (sched := sched) (cnt := fun _ : nat => O) (s := qinit rr tr) as (s & E & I0).
  - apply HM.
  - intros c. apply HM.
  - apply qinit_inv. assumption.
  - exists s. auto.
Qed.
Lemma qfinished_span ncl n rr tr cnt s : qsinv ncl n rr tr cnt s -> forallb qfinished (qs_rows s) = true ->
  same_qspan (gens rr tr) (pset_of (qs_pivs s)).
Proof.
  intros HI HF v. split; apply qspan_mono; [|intros u Hu; eapply gens_pivs; eassumption].
  destruct HI as (H1 & H2 & H3 & H4 & H5). intros u [(c & r & Ec & ->)|(r & Hr & ->)]; [apply qspan_in; exists c, r; auto|].
  apply In_nth_error in Hr. destruct Hr as (t & Et).
  destruct (nth_error (qs_rows s) t) as [rs|] eqn:Es.
  - destruct (H5 t rs Es) as (r0 & m & E0 & HI & _). assert (r0 = r) by congruence. subst r0.
    rewrite forallb_forall in HF. assert (Hfin := HF rs (nth_error_In _ _ Es)). destruct rs; cbn in Hfin; try discriminate; cbn [qrinv] in HI; [assumption|apply HI].
  - apply nth_error_None in Es. rewrite H4 in Es. apply nth_error_None in Es. congruence.
Qed.
Lemma qenough ncl n rr tr cnt s : qsinv ncl n rr tr cnt s -> (forall t, (t < length tr)%nat -> (budget n <= cnt t)%nat) ->
  forallb qfinished (qs_rows s) = true.
Proof.
  intros (H1 & H2 & H3 & H4 & H5) Hc. apply forallb_forall. intros rs Hin. apply In_nth_error in Hin. destruct Hin as (t & Et).
  destruct (H5 t rs Et) as (r0 & m & E0 & HI & [HF|HF]); [assumption|]. destruct (qfinished rs) eqn:Ef; [reflexivity|].
  apply qrinv_pos in HI; [|assumption]. assert (t < length tr)%nat by (apply nth_error_Some; congruence). specialize (Hc t H). lia.
Qed.
